(** Properties C80 and C81: crystals read with rounded operations. *)
From Coq Require Import List ZArith Arith Bool Lia Reals Lra Psatz Permutation Sorted.
From Verif Require Import AsymProofs2.
From Verif Require Import Num Base Spec Outcome NNModel VecR SpecGeom SpecCalc SpecSites SpecCont NNProofs NNSpecProofs NNComplete NNInvariance Props_NN CompareModel CalcModel CalcProofs CalcProofs2 Props_Calc
  SitesModel SitesProofs SitesExpand Props_Sites SymmetryProofs Props_Symmetry Props_Asym Props_Geo ContProofs
  RoundModel SpecRound RoundSum RoundProofs RoundGeom RoundTop RoundCalc RoundBinary Props_Round RoundSitesModel SpecRoundSites RoundSites RoundSites2 RoundSites3.
Import ListNotations.
Open Scope R_scope.
Notation length := List.length.

(** Crystals and operations for which rounding errors change no comparison: the cell, the sites
    and the symmetry operations are the numbers given to the code. *)
Record readable (ar : arith) (u eta s tol : R) (dims : nat) (cell asym : list (list R)) (types : list nat) (ops : list operation) : Prop := {
  rd_float : float_like u eta ar;
  rd_u : u <= 1 / 10000;
  rd_eta : eta <= u / 10;
  rd_eta_cell : eta <= u * cell_size cell / 10;
  rd_s : 0 <= s;
  rd_tol : tol < 1 / 3;
  rd_dims : (1 <= dims <= 4)%nat;
  rd_cell : length cell = dims;
  rd_cell_len : Forall (fun r => length r = dims) cell;
  rd_ops : ops <> [];
  rd_ops_ok : Forall (operation_ok dims) ops;
  rd_asym : asym <> [];
  rd_asym_len : Forall (fun p => length p = dims) asym;
  rd_types : length types = length asym;
  rd_size : images_within s asym ops;
  rd_decided : decided_sites tol (22 * u * (s + 1)) asym ops
}.

Section Read.
  Variables (ar : arith) (u eta s tol : R) (dims : nat) (cell asym : list (list R)) (types : list nat) (ops : list operation) (uniquify : bool).
  Hypothesis RD : readable ar u eta s tol dims cell asym types ops.
  Let N := num_of ar.
  Let Rel := near_image u s dims asym ops.

  Lemma rd_u0 : 0 <= u. Proof. apply (fl_u _ _ _ (rd_float _ _ _ _ _ _ _ _ _ _ RD)). Qed.
  Lemma rd_tol0 : 0 <= tol < 1.
  Proof.
    destruct (rd_decided _ _ _ _ _ _ _ _ _ _ RD) as [H _]. pose proof (rd_tol _ _ _ _ _ _ _ _ _ _ RD). pose proof (rd_s _ _ _ _ _ _ _ _ _ _ RD). pose proof rd_u0. assert (0 <= u * s) by nra. lra.
  Qed.

  Lemma finish_alike : exists cs cs' warn frac frac',
    finish mod1 tol uniquify cell asym types ops = Done (cs, warn) /\ @finish R N (np_mod1 ar) tol uniquify cell asym types ops = Done (cs', warn) /\
    cs_types cs' = cs_types cs /\ ps_cell (cs_set cs) = cell /\ ps_cell (cs_set cs') = cell /\ ps_asym (cs_set cs') = ps_asym (cs_set cs) /\ ps_mult (cs_set cs') = ps_mult (cs_set cs) /\
    ps_motif (cs_set cs) = map (cartesian cell) frac /\ ps_motif (cs_set cs') = map (@to_cartesian R N cell) frac' /\ Forall2 Rel frac frac'.
  Proof.
    destruct RD as [FL Hu He HeL Hs Ht Hd Hc Hcl Ho Hops Ha Hasym Hty HS HD] eqn:Q. clear Q. pose proof rd_u0 as u0. pose proof rd_tol0 as Ht0.
    destruct (C46_total dims tol uniquify cell asym types ops Ht0 Hops Ha Hasym Hty) as ([cs warn] & E).
    pose proof (alike_expand ar tol Rel (site_neq_same ar u eta FL Hu s Hs He tol Ht dims asym ops HD) mod1 (np_mod1 ar) asym ops
      (fun g q Hg Hq => image_near ar u eta FL Hu s Hs He dims asym ops g q Hops Hasym ltac:(lia) HS Hg Hq) uniquify) as AL.
    unfold finish in E |- *. fold N in AL. destruct (expand_asym_unit mod1 tol uniquify asym ops) as [[[frac invs] w]| | |] eqn:X; try discriminate.
    destruct (@expand_asym_unit R N (np_mod1 ar) tol uniquify asym ops) as [[[frac' invs'] w']| | |]; try (destruct AL; fail). destruct AL as (F & E1 & E2). cbn [fst snd] in F, E1, E2. subst invs' w'.
    cbn [obind] in E |- *. destruct (np_unique_counts invs) as [vals mult]. destruct (take types invs) as [ts| | |]; try discriminate. cbn [obind] in E |- *. injection E as <- <-.
    eexists _, _, w, frac, frac'. split; [reflexivity|]. split; [reflexivity|]. cbn [cs_types cs_set ps_cell ps_asym ps_mult ps_motif]. do 5 (split; [reflexivity|]). split; [|split; [reflexivity|exact F]].
    apply map_ext_in. intros f Hf. apply to_cartesian_ok. assert (P : exists f', Rel f f'). { clear - F Hf. induction F as [|x y l l' H F IH]; [destruct Hf|]. destruct Hf as [->|Hf]; eauto. }
    destruct P as (f' & _ & L & _). rewrite Hc. exact L.
  Qed.

  Lemma moved_points : forall frac frac', Forall2 Rel frac frac' ->
    exists shift, moved_by dims cell (15 * u * (s + 1) * cell_size cell) (map (cartesian cell) frac) (map (@to_cartesian R N cell) frac') (fun i => i) shift.
  Proof.
    destruct RD as [FL Hu He HeL Hs Ht Hd Hc Hcl Ho Hops Ha Hasym Hty HS HD] eqn:Q. clear Q. pose proof rd_u0 as u0. intros frac frac' F.
    assert (C : forall n, (n <= length frac)%nat -> exists shift : nat -> list Z, forall i, (i < n)%nat -> length (shift i) = dims /\
      edist (nth i (map (cartesian cell) frac) []) (ppoint dims (map (@to_cartesian R N cell) frac') cell (shift i, i)) <= 15 * u * (s + 1) * cell_size cell).
    { induction n as [|n IH]; intros Hn; [exists (fun _ => []); intros; lia|]. destruct IH as (shift & IH); [lia|].
      pose proof (F2_nth _ _ _ _ _ [] [] F n ltac:(lia)) as (_ & Lf & Uf & Lf' & Bf & Cf).
      destruct (cart_moved ar u eta s dims cell FL Hu Hs ltac:(lia) Hc Hcl HeL (nth n frac []) (nth n frac' []) Lf Lf' Bf Cf) as (z & Lz & Nz).
      exists (fun i => if Nat.eqb i n then z else shift i). intros i Hi. destruct (Nat.eqb_spec i n) as [->|Ne]; [|apply IH; lia]. split; [exact Lz|].
      rewrite (nth_map' _ _ _ _ _ []) by lia. eapply Rle_trans; [|exact Nz]. right. rewrite edist_sym, <- dist_edist. unfold dist. f_equal.
        apply vec_ext; [rewrite vsub_length, ppoint_length; unfold cartesian; rewrite !map_length, !seq_length; lia|]. intros j Hj. rewrite vsub_length, ppoint_length in Hj. unfold vsub.
        assert (Hj' : (j < dims)%nat) by lia. rewrite (map2_nth _ _ _ _ _ _ _ 0 0) by (rewrite ?ppoint_length; unfold cartesian; rewrite ?map_length, ?seq_length; lia).
        rewrite (nth_map_seq (fun j => nth j (@to_cartesian R (num_of ar) cell (nth n frac' [])) 0 + lattice_coord cell z j - comb_coord cell (nth n frac []) j)) by auto.
        unfold ppoint. rewrite (nth_map_seq (fun j => _ + lattice_coord cell (fst (z, n)) j)) by auto. cbn [fst snd]. unfold cartesian. rewrite (nth_map_seq (comb_coord cell (nth n frac []))) by lia.
        rewrite (nth_map' _ _ _ _ _ []) by (rewrite <- (F2_len _ _ _ _ _ F); lia). reflexivity. }
    destruct (C (length frac) (le_n _)) as (shift & H). exists shift. split; [rewrite map_id, !map_length, (F2_len _ _ _ _ _ F); apply Permutation_refl|].
    intros i Hi. rewrite map_length in Hi. apply H. auto.
  Qed.
End Read.

(** ** The same sites *)

(** With rounded operations the readers return the same types, positions and multiplicities of the
    sites and give the same warnings as with exact ones, and every point is within
    15 u (s + 1) L of a lattice translate of the exact point, for a cell of size L. *)
Theorem C80_same_sites : forall ar u eta s tol dims cell asym types ops uniquify, readable ar u eta s tol dims cell asym types ops ->
  exists cs cs' warn,
    finish mod1 tol uniquify cell asym types ops = Done (cs, warn) /\
    @finish R (num_of ar) (np_mod1 ar) tol uniquify cell asym types ops = Done (cs', warn) /\
    cs_types cs' = cs_types cs /\ ps_cell (cs_set cs') = ps_cell (cs_set cs) /\ ps_asym (cs_set cs') = ps_asym (cs_set cs) /\ ps_mult (cs_set cs') = ps_mult (cs_set cs) /\
    exists shift, moved_by dims cell (15 * u * (s + 1) * cell_size cell) (ps_motif (cs_set cs)) (ps_motif (cs_set cs')) (fun i => i) shift.
Proof.
  intros ar u eta s tol dims cell asym types ops uniquify RD. destruct (finish_alike _ _ _ _ _ _ _ _ _ _ uniquify RD) as (cs & cs' & warn & frac & frac' & E & E' & ET & EC & EC' & EA & EM & M & M' & F).
  exists cs, cs', warn. do 2 (split; [assumption|]). split; [assumption|]. split; [congruence|]. do 2 (split; [assumption|]). rewrite M, M'. eapply moved_points; eauto.
Qed.

(** ** Their AMD *)
Lemma float_like_le : forall u u' eta ar, u <= u' -> float_like u eta ar -> float_like u' eta ar.
Proof.
  intros u u' eta ar H [F1 F2 F3 F4 F5 F6 F7 F8 F9 F10 F11 F12]. pose proof Rabs_pos as P.
  assert (W : forall x y, Rabs x <= u * Rabs y -> Rabs x <= u' * Rabs y) by (intros x y Q; specialize (P y); nra).
  split; auto; try lra.
  - intros x y. specialize (F5 x y). specialize (P (x * y)). nra.
  - intros x y H1 H2. assert (u * y <= 1) by nra. specialize (F8 x y H1 H0). specialize (P (x / y)). nra.
  - intros x Hx. specialize (F9 x Hx). pose proof (sqrt_pos x). nra.
  - intros l. eapply sum_within_le; eauto.
  - intros xs ys L. destruct (F12 xs ys L) as (ps & Lp & Hp & HS). exists ps. split; [auto|]. split; [|eapply sum_within_le; eauto].
    intros i Hi. destruct (Hp i Hi) as (A & B & C). split; [|split; auto]. specialize (P (nth i xs 0 * nth i ys 0)). nra.
Qed.

Lemma choose_rows : forall A B (Q : A -> B -> Prop) l, (forall a, In a l -> exists b, Q a b) -> exists m, Forall2 Q l m.
Proof. intros A B Q l. induction l as [|a l IH]; intros H; [exists []; auto|]. destruct (H a (or_introl eq_refl)) as (b & Hb). destruct IH as (m & Hm); [intros; apply H; right; auto|]. exists (b :: m). auto. Qed.

Lemma sq_fold : forall y, dot y y = fold_right (fun a s => a * a + s) 0 y.
Proof. induction y as [|a y IH]; [reflexivity|]. change (dot (a :: y) (a :: y)) with (a * a + dot y y). rewrite IH. reflexivity. Qed.
Lemma F2_of_nth : forall A B (Q : A -> B -> Prop) da db l m, length l = length m -> (forall i, (i < length l)%nat -> Q (nth i l da) (nth i m db)) -> Forall2 Q l m.
Proof. intros A B Q da db l. induction l as [|a l IH]; intros [|b m] E H; try discriminate; constructor; [apply (H 0%nat); cbn; lia|]. apply IH; [cbn in E; lia|]. intros i Hi. apply (H (S i)). cbn. lia. Qed.

Section ReadAmd.
  Variables (ar : arith) (u eta s tol w : R) (dims : nat) (cell asym : list (list R)) (types : list nat) (ops : list operation) (uniquify : bool).
  Hypothesis RD : readable ar u eta s tol dims cell asym types ops.
  Hypothesis HW : inverse_within w dims cell.
  Hypothesis Hdom : half_dominant dims cell.
  Hypothesis Hrep : representable_dots ar.
  Let L := cell_size cell.
  Let v := 24 * u * (1 + 13 * L * w).
  Let N := num_of ar.
  Let Rel := near_image u s dims asym ops.

  Lemma w_pos : 0 <= w.
  Proof. destruct HW as (dual & (D1 & _ & _) & FW). pose proof (rd_dims _ _ _ _ _ _ _ _ _ _ RD). destruct dual as [|d dual]; [cbn in D1; lia|]. inversion FW as [|? ? W _]; subst. eapply Rle_trans; [apply sqrt_pos|exact W]. Qed.
  Lemma size_pos : 0 <= L.
  Proof. apply (cell_size_pos dims); [apply (rd_cell _ _ _ _ _ _ _ _ _ _ RD)|apply (rd_cell_len _ _ _ _ _ _ _ _ _ _ RD)]. Qed.

  Lemma rounded_spread : forall frac frac', Forall2 Rel frac frac' -> v <= 1 / 10000 -> spread_within (v / 8) dims cell (map (@to_cartesian R N cell) frac').
  Proof.
    destruct RD as [FL Hu He HeL Hs Ht Hd Hc Hcl Ho Hops Ha Hasym Hty HS HD] eqn:Q. clear Q. pose proof (fl_u _ _ _ FL) as u0. intros frac frac' F Hv. split; [exact Hdom|].
    pose proof w_pos as W0. pose proof size_pos as L0. assert (LW : 0 <= L * w) by (apply Rmult_le_pos; auto). assert (ULW : 0 <= u * (L * w)) by (apply Rmult_le_pos; auto).
    assert (C : forall n, (n <= length frac')%nat -> exists x : nat -> list R, forall i, (i < n)%nat -> length (x i) = dims /\ nth i (map (@to_cartesian R N cell) frac') [] = map (comb_coord cell (x i)) (seq 0 dims) /\
      forall r, (r < dims)%nat -> - (61 / 10 * u * L * w) <= nth r (x i) 0 <= 1 + u + 61 / 10 * u * L * w).
    { pose proof (F2_len _ _ _ _ _ F) as LF. induction n as [|n IH]; intros Hn; [exists (fun _ => []); intros; lia|]. destruct IH as (x & IH); [lia|].
      pose proof (F2_nth _ _ _ _ _ [] [] F n ltac:(lia)) as (_ & Lf & Uf & Lf' & Bf & Cf).
      destruct (cart_frac ar u eta w dims cell FL Hu ltac:(lia) Hc Hcl HeL (nth n frac []) (nth n frac' []) Lf Lf' Bf HW) as (y & Ly & Ey & By).
      exists (fun i => if Nat.eqb i n then y else x i). intros i Hi. destruct (Nat.eqb_spec i n) as [->|Ne]; [|apply IH; lia]. split; [exact Ly|]. split; [|exact By].
      rewrite (nth_map' _ _ _ _ _ []) by lia. exact Ey. }
    destruct (C (length frac') (le_n _)) as (x & H). exists (v / 24), x. unfold v in *. split; [lra|]. split.
    - intros i Hi. specialize (Hdom i Hi). eapply Rle_trans; [exact Hdom|]. set (t := 24 * u * (1 + 13 * L * w)) in *. assert (T0 : 0 <= t) by (unfold t; lra).
      replace ((1 - 2 * (t / 24) + t / 8) / (2 * (1 + t / 24))) with (1 / 2) by (field; lra). lra.
    - rewrite map_length. split; [intros i Hi; split; apply H; auto|]. intros i i' j Hi Hi' Hj. destruct (H i Hi) as (_ & _ & B1). destruct (H i' Hi') as (_ & _ & B2). specialize (B1 j Hj). specialize (B2 j Hj).
      apply Rabs_le. lra.
  Qed.

  Variable k : nat.
  Hypothesis Hv : v <= 1 / 10000.
  Hypothesis He2 : eta <= (u * L) * (u * L).

  Theorem read_amd : exists cs cs' warn exact rounded fuel0,
    finish mod1 tol uniquify cell asym types ops = Done (cs, warn) /\
    @finish R N (np_mod1 ar) tol uniquify cell asym types ops = Done (cs', warn) /\ length (ps_motif (cs_set cs')) = length (ps_motif (cs_set cs)) /\ length exact = k /\
    (INR (length (ps_motif (cs_set cs))) * v <= 1 / 100 -> forall fuel, (fuel0 <= fuel)%nat ->
      AMD fuel (cs_set cs) k = Done exact /\ @AMD R N fuel (cs_set cs') k = Done rounded /\
      Forall2 (fun a c => Rabs (c - a) <= 30 * u * (s + 1) * L + (110 + 3 * INR (length (ps_motif (cs_set cs)))) * v * (a + 30 * u * (s + 1) * L + 2 * L)) exact rounded).
  Proof.
    destruct (finish_alike _ _ _ _ _ _ _ _ _ _ uniquify RD) as (cs & cs' & warn & frac & frac' & E & E' & _ & EC & EC' & EA & EM & M & M' & F).
    destruct RD as [FL Hu He HeL Hs Ht Hd Hc Hcl Ho Hops Ha Hasym Hty HS HD] eqn:Q. clear Q. pose proof (fl_u _ _ _ FL) as u0. pose proof (rd_tol0 _ _ _ _ _ _ _ _ _ _ RD) as Ht0.
    assert (NS : nonsingular dims cell) by (destruct HW as (dual & DB & _); exists dual; auto).
    destruct (C67_wf dims tol uniquify cell asym types ops cs warn ltac:(lia) Ht0 Ho Hops Ha Hasym Hc Hcl E) as (Wf & In_ & _ & _).
    pose proof w_pos as W0. pose proof size_pos as L0. assert (LW : 0 <= L * w) by (apply Rmult_le_pos; auto). assert (ULW : 0 <= u * (L * w)) by (apply Rmult_le_pos; auto). assert (UL : 0 <= u * L) by (apply Rmult_le_pos; auto). assert (US : 0 <= u * s) by (apply Rmult_le_pos; auto).
    assert (Uv : 24 * u <= v) by (unfold v; lra).
    assert (LM : length (ps_motif (cs_set cs')) = length (ps_motif (cs_set cs))) by (rewrite M, M', !map_length; symmetry; apply (F2_len _ _ _ _ _ F)).
    assert (EP : positions_of (cs_set cs') = positions_of (cs_set cs)) by (unfold positions_of; rewrite EA, EM, LM; reflexivity).
    assert (ECt : counts_of (cs_set cs') = counts_of (cs_set cs)) by (unfold counts_of; rewrite EA, EM, LM; reflexivity).
    assert (OK' : pset_ok dims (ps_motif (cs_set cs')) (ps_cell (cs_set cs'))).
    { rewrite EC'. split; auto; [lia| |].
      - pose proof (ok_motif _ _ _ (wf_ok _ _ Wf)) as NE. destruct (ps_motif (cs_set cs')); [|discriminate]. destruct (ps_motif (cs_set cs)); [congruence|discriminate].
      - rewrite M'. apply Forall_forall. intros p Hp. apply in_map_iff in Hp as (f & <- & _). unfold to_cartesian. rewrite map_length, seq_length. exact Hc. }
    assert (Wf' : pset_wf dims (cs_set cs')).
    { destruct Wf as [W1 W2 W3 W4 W5]. split; auto; rewrite ?EP, ?ECt, ?LM; auto. }
    assert (HP : Forall (fun f' => length f' = dims /\ Forall (fun a => 0 <= a <= 1 + u) f') frac').
    { clear - F. induction F as [|a b l l' (_ & _ & _ & L1 & B & _) F IH]; constructor; auto. }
    assert (MW : motif_within ar (2 * L) (ps_motif (cs_set cs'))).
    { rewrite M'. unfold motif_within. apply Forall_forall. intros p Hp. apply in_map_iff in Hp as (f' & <- & Hf'). rewrite Forall_forall in HP. destruct (HP f' Hf') as [Lf' Bf'].
      split; [unfold to_cartesian; apply Forall_forall; intros x Hx; apply in_map_iff in Hx as (j & <- & _); apply Hrep|].
      pose proof (cart_norm ar u eta dims cell FL Hu ltac:(lia) Hc Hcl HeL f' f' Lf' Lf' Bf') as NM. fold L in NM. unfold norm in NM. rewrite sq_fold in NM. exact NM. }
    assert (AF : arithmetic_for ar v eta (2 * L)).
    { split; [apply (float_like_le u); [lra|exact FL]|]. split; [exact Hv|]. split; [lra|]. assert (ULv : u * L <= v * (2 * L)) by (assert (u * L <= v * L) by (apply Rmult_le_compat_r; lra); assert (0 <= v * L) by lra; lra). fold L in HeL. split; [lra|].
      eapply Rle_trans; [exact He2|]. apply Rmult_le_compat; auto. }
    assert (SP : spread_within (v / 8) dims (ps_cell (cs_set cs')) (ps_motif (cs_set cs'))) by (rewrite EC', M'; eapply rounded_spread; eauto).
    assert (SP0 : spread dims (ps_cell (cs_set cs)) (ps_motif (cs_set cs))) by (rewrite EC; apply in_cell_spread; auto).
    assert (Hdom' : half_dominant dims (ps_cell (cs_set cs'))) by (rewrite EC'; auto).
    assert (NS0 : nonsingular dims (ps_cell (cs_set cs))) by (rewrite EC; auto). assert (NS' : nonsingular dims (ps_cell (cs_set cs'))) by (rewrite EC'; auto).
    destruct (C09_terminates dims _ _ (points_of (cs_set cs)) k (wf_ok _ _ Wf) NS0 (points_incl _ _ Wf) (points_nonempty _ _ Wf)) as (rows & f0 & H0).
    destruct (C74_returns_rounded ar v eta (2 * L) dims _ _ (points_of (cs_set cs')) k AF OK' ltac:(lia) Hdom' NS' MW (points_incl _ _ Wf') (points_nonempty _ _ Wf')) as (rows' & f1 & H1).
    assert (A0 : forall fuel, (f0 <= fuel)%nat -> AMD fuel (cs_set cs) k = Done (amd_of (cs_set cs) k rows)).
    { intros fuel Hf. rewrite (AMD_run dims _ Wf). destruct (H0 fuel) as [X _]. rewrite (X Hf). reflexivity. }
    set (b' := map (fun j => @ndiv R N (@ndot R N (@col_of R N j rows') (map (@nofnat R N) (counts_of (cs_set cs')))) (@nsum R N (map (@nofnat R N) (counts_of (cs_set cs'))))) (seq 1 k)).
    assert (A1 : forall fuel, (f1 <= fuel)%nat -> @AMD R N fuel (cs_set cs') k = Done b').
    { intros fuel Hf. unfold AMD. rewrite (query_eq dims _ Wf'). cbn [obind]. pose proof (H1 fuel Hf) as X. fold N in X. rewrite X. cbn [obind]. unfold average_columns_except_first.
      pose proof (F2_len _ _ _ _ _ (C74_rows_rounded ar v eta (2 * L) dims _ _ _ k fuel rows' AF OK' ltac:(lia) SP MW (points_incl _ _ Wf') (points_nonempty _ _ Wf') X)) as LL.
      rewrite (points_length _ _ Wf') in LL. replace (Nat.ltb (length (map (@nofnat R N) (counts_of (cs_set cs')))) (length rows')) with false; [|symmetry; apply Nat.ltb_ge; rewrite map_length; lia].
      replace (S k - 1)%nat with k by lia. reflexivity. }
    exists cs, cs', warn, (amd_of (cs_set cs) k rows), b', (Nat.max f0 f1). do 2 (split; [assumption|]). split; [exact LM|]. split; [unfold amd_of; rewrite map_length, seq_length; auto|]. intros HM fuel Hf.
    pose proof (A0 fuel ltac:(lia)) as R0_. pose proof (A1 fuel ltac:(lia)) as R1_. split; [exact R0_|]. split; [exact R1_|].
    assert (NR : Forall2 (fun p r => nearest_distances dims (ps_motif (cs_set cs)) (ps_cell (cs_set cs)) p (S k) r) (points_of (cs_set cs)) rows).
    { destruct (H0 fuel) as [X _]. eapply (C05_rows_are_nearest dims); [exact (wf_ok _ _ Wf)|lia|exact SP0|exact (points_incl _ _ Wf)|exact (points_nonempty _ _ Wf)|apply X; lia]. }
    assert (NR' : exists rows2, Forall2 (fun p r => nearest_distances dims (ps_motif (cs_set cs')) (ps_cell (cs_set cs')) p (S k) r) (points_of (cs_set cs')) rows2).
    { apply choose_rows. intros p Hp. apply C66_exist; auto. pose proof (points_incl _ _ Wf' _ Hp) as I. pose proof (ok_motif_len _ _ _ OK') as OL. rewrite Forall_forall in OL. apply OL. exact I. }
    destruct NR' as (rows2 & NR').
    destruct AF as (FL' & Hv' & B0 & Ee1 & Ee2).
    assert (HM' : INR (length (ps_motif (cs_set cs'))) * v <= 1 / 100) by (rewrite LM; exact HM).
    pose proof (amd_near ar v eta (2 * L) dims (cs_set cs') FL' Hv' Wf' ltac:(lia) Hdom' SP B0 Ee1 Ee2 MW k fuel rows2 b' HM' NR' R1_) as AN. rewrite LM in AN.
    destruct (moved_points _ _ _ _ _ _ _ _ _ _ RD frac frac' F) as (shift & MV). rewrite <- M, <- M' in MV.
    assert (RC : forall j, (j < k)%nat -> Rabs (nth j (amd_of (cs_set cs') k rows2) 0 - nth j (amd_of (cs_set cs) k rows) 0) <= 30 * u * (s + 1) * L).
    { intros j Hj. unfold amd_of. rewrite !(nth_map_seq (wmean _ _)) by auto. rewrite ECt. destruct (counts_INR_pos _ _ Wf) as [CP CN].
      pose proof (F2_len _ _ _ _ _ NR) as LR. pose proof (F2_len _ _ _ _ _ NR') as LR'. rewrite (points_length _ _ Wf) in LR. rewrite (points_length _ _ Wf') in LR'. rewrite ECt in LR'.
      assert (X : - (30 * u * (s + 1) * L) <= wmean (map INR (counts_of (cs_set cs))) (map (@tl R) rows2) j - wmean (map INR (counts_of (cs_set cs))) (map (@tl R) rows) j <= 30 * u * (s + 1) * L); [|apply Rabs_le; exact X].
      apply wmean_band; auto; try (rewrite !map_length; auto). intros r r' Hr.
      assert (EX : exists i, (i < length rows)%nat /\ r = tl (nth i rows []) /\ r' = tl (nth i rows2 [])).
      { apply (In_nth _ _ ([], [])) in Hr as (i & Hi & Ei). rewrite combine_length, !map_length in Hi. rewrite combine_nth in Ei by (rewrite !map_length; lia). exists i. split; [lia|]. injection Ei as <- <-.
        split; [apply (nth_map' _ _ (@tl R) rows i [] [])|apply (nth_map' _ _ (@tl R) rows2 i [] [])]; lia. }
      destruct EX as (i & Hi & -> & ->). pose proof (F2_nth _ _ _ _ _ [] [] NR i) as N1. pose proof (F2_nth _ _ _ _ _ [] [] NR' i) as N2. cbv beta in N1, N2. rewrite (points_length _ _ Wf) in N1. rewrite (points_length _ _ Wf') in N2. rewrite ECt in N2.
      specialize (N1 ltac:(lia)). specialize (N2 ltac:(lia)). unfold points_of in N1, N2. rewrite EP in N2. pose proof (wf_len _ _ Wf) as WL.
      rewrite (nth_map' _ _ _ _ _ 0%nat) in N1 by lia. rewrite (nth_map' _ _ _ _ _ 0%nat) in N2 by lia. rewrite EC in N1. rewrite EC' in N2.
      assert (Hp : (nth i (positions_of (cs_set cs)) 0 < length (ps_motif (cs_set cs)))%nat) by (pose proof (wf_range _ _ Wf) as WR; rewrite Forall_forall in WR; apply WR, nth_In; lia).
      pose proof (wf_ok _ _ Wf) as OK. rewrite EC in OK. rewrite EC' in OK'.
      pose proof (moved_nearest_both dims cell _ _ _ (fun i => i) shift (nth i (positions_of (cs_set cs)) 0%nat) (S k) _ _ OK OK' MV Hp N1 N2 (S j) ltac:(lia)) as D. fold L in D.
      assert (TL : forall (l : list R), nth (S j) l 0 = nth j (tl l) 0) by (intros [|z l]; [destruct j; reflexivity|reflexivity]). rewrite !TL in D. apply Rabs_le_both in D. lra. }
    assert (LE : length (amd_of (cs_set cs) k rows) = k) by (unfold amd_of; rewrite map_length, seq_length; auto). assert (LE' : length (amd_of (cs_set cs') k rows2) = k) by (unfold amd_of; rewrite map_length, seq_length; auto).
    assert (Lb : length b' = k) by (unfold b'; rewrite map_length, seq_length; auto).
    apply (F2_of_nth _ _ _ 0 0); [lia|]. intros j Hj. rewrite LE in Hj. specialize (RC j Hj).
    pose proof (F2_nth _ _ _ _ _ 0 0 AN j ltac:(lia)) as D. cbv beta in D. set (a := nth j (amd_of (cs_set cs) k rows) 0) in *. set (a2 := nth j (amd_of (cs_set cs') k rows2) 0) in *. set (c := nth j b' 0) in *.
    set (m := 110 + 3 * INR (length (ps_motif (cs_set cs)))) in *. assert (Hm0 : 0 <= m * v). { apply Rmult_le_pos; [unfold m; pose proof (pos_INR (length (ps_motif (cs_set cs)))); lra|lra]. }
    replace (c - a) with ((c - a2) + (a2 - a)) by ring. eapply Rle_trans; [apply Rabs_triang|]. apply Rabs_le_both in RC as RC'.
    assert (m * v * (a2 + 2 * L) <= m * v * (a + 30 * u * (s + 1) * L + 2 * L)) by (apply Rmult_le_compat_l; lra). lra.
  Qed.
End ReadAmd.

(** A crystal is read and its AMD is computed, with rounded operations throughout: every entry is
    within 30 u (s + 1) L of the exact one, up to the error of the neighbour search and the
    averages, for a cell of size L with an inverse of size w. *)
Theorem C80_amd_rounded : forall ar u eta s tol w dims cell asym types ops uniquify k,
  readable ar u eta s tol dims cell asym types ops -> inverse_within w dims cell -> half_dominant dims cell -> representable_dots ar ->
  let L := cell_size cell in let v := 24 * u * (1 + 13 * L * w) in
  v <= 1 / 10000 -> eta <= (u * L) * (u * L) ->
  exists cs cs' warn exact rounded fuel0,
    finish mod1 tol uniquify cell asym types ops = Done (cs, warn) /\
    @finish R (num_of ar) (np_mod1 ar) tol uniquify cell asym types ops = Done (cs', warn) /\ length exact = k /\
    let m := INR (length (ps_motif (cs_set cs))) in
    (m * v <= 1 / 100 -> forall fuel, (fuel0 <= fuel)%nat ->
      AMD fuel (cs_set cs) k = Done exact /\ @AMD R (num_of ar) fuel (cs_set cs') k = Done rounded /\
      Forall2 (fun a c => Rabs (c - a) <= 30 * u * (s + 1) * L + (110 + 3 * m) * v * (a + 30 * u * (s + 1) * L + 2 * L)) exact rounded).
Proof.
  intros ar u eta s tol w dims cell asym types ops uniquify k RD HW HD HR L v Hv He.
  destruct (read_amd ar u eta s tol w dims cell asym types ops uniquify RD HW HD HR k Hv He) as (cs & cs' & warn & a & c & f & E & E' & _ & La & H).
  exists cs, cs', warn, a, c, f. do 3 (split; [assumption|]). exact H.
Qed.

(** ** binary64 *)
Lemma nearest_even_bound : forall t, Rabs t < IZR (2 ^ 53) -> (Z.abs (nearest_even t) <= 2 ^ 53)%Z.
Proof.
  intros t H. pose proof (nearest_even_err t) as E. apply Rabs_le_both in E. apply Rabs_def2 in H. set (z := nearest_even t) in *.
  assert (A : IZR z < IZR (2 ^ 53 + 1)) by (rewrite plus_IZR; lra). assert (B : IZR (- (2 ^ 53) - 1) < IZR z) by (rewrite minus_IZR, opp_IZR; lra). apply lt_IZR in A, B. lia.
Qed.
Lemma format_of : forall e x, x <> 0 -> (lead x - 52 <= e)%Z -> exists z g, (Z.abs z < 2 ^ 53)%Z /\ round_at e x = IZR z * powerRZ 2 g.
Proof.
  intros e x Hx He. unfold round_at. assert (B : Rabs (x / powerRZ 2 e) < IZR (2 ^ 53)).
  { destruct (lead_spec x Hx) as [_ B]. pose proof (two_pos e) as P. unfold Rdiv. rewrite Rabs_mult, (Rabs_right (/ powerRZ 2 e)) by (left; apply Rinv_0_lt_compat; auto). rewrite <- two_nat by lia.
    apply Rmult_lt_reg_r with (powerRZ 2 e); auto. rewrite Rmult_assoc, Rinv_l, Rmult_1_r, <- two_add by lra. eapply Rlt_le_trans; [exact B|]. apply two_le. lia. }
  apply nearest_even_bound in B. set (z := nearest_even (x / powerRZ 2 e)) in *. destruct (Z_lt_le_dec (Z.abs z) (2 ^ 53)) as [C|C]; [exists z, e; auto|].
  assert (Z : (z = 2 ^ 53 \/ z = - 2 ^ 53)%Z) by lia. destruct Z as [-> | ->].
  - exists 1%Z, (53 + e)%Z. split; [reflexivity|]. rewrite two_add, <- two_nat by lia. lra.
  - exists (-1)%Z, (53 + e)%Z. split; [reflexivity|]. rewrite two_add, opp_IZR, <- two_nat by lia. lra.
Qed.
Lemma round53_of_round53 : forall x, round53 (round53 x) = round53 x.
Proof.
  intros x. assert (H : exists z g, (Z.abs z < 2 ^ 53)%Z /\ round53 x = IZR z * powerRZ 2 g).
  { unfold round53. destruct (Req_EM_T x 0) as [X|X]; [exists 0%Z, 0%Z; split; [reflexivity|lra]|]. apply format_of; auto. lia. }
  destruct H as (z & g & Hz & ->). apply round53_format. auto.
Qed.
Lemma round53_of_round64 : forall x, round53 (round64 x) = round64 x.
Proof.
  intros x. assert (H : exists z g, (Z.abs z < 2 ^ 53)%Z /\ round64 x = IZR z * powerRZ 2 g).
  { unfold round64. destruct (Req_EM_T x 0) as [X|X]; [exists 0%Z, 0%Z; split; [reflexivity|lra]|]. apply format_of; auto. lia. }
  destruct H as (z & g & Hz & ->). apply round53_format. auto.
Qed.
Lemma round64_format : forall z g, (Z.abs z < 2 ^ 53)%Z -> (-1074 <= g)%Z -> round64 (IZR z * powerRZ 2 g) = IZR z * powerRZ 2 g.
Proof.
  intros z g H G. unfold round64. destruct (Req_EM_T _ 0) as [E|E]; auto. set (x := IZR z * powerRZ 2 g) in *. destruct (lead_spec x E) as [A _].
  assert (Hg : (lead x < g + 53)%Z).
  { apply two_lt_inv. eapply Rle_lt_trans; [exact A|]. unfold x. rewrite Rabs_mult, (Rabs_right (powerRZ 2 g)) by (left; apply two_pos). rewrite two_add, Rmult_comm. apply Rmult_lt_compat_l; [apply two_pos|].
    rewrite two_nat by lia. rewrite <- abs_IZR. apply IZR_lt. auto. }
  unfold round_at. set (e := Z.max (lead x - 52) (-1074)) in *. assert (X : x / powerRZ 2 e = IZR (z * 2 ^ (g - e))).
  { rewrite mult_IZR, <- two_nat by lia. unfold x. replace g with (e + (g - e))%Z at 1 by ring. rewrite two_add. field. pose proof (two_pos e). lra. }
  rewrite X, nearest_even_IZR, <- X. field. pose proof (two_pos e). lra.
Qed.
Lemma round53_0 : round53 0 = 0. Proof. unfold round53. destruct (Req_EM_T 0 0); [auto|lra]. Qed.

Lemma b64_dots : representable_dots b64.
Proof.
  intros xs ys. unfold representable. cbn [b64 r_add r_dot]. rewrite Rplus_0_r. unfold seq_dot, seq_sum. generalize (map2 (fun x y => round64 (x * y)) xs ys). intros l. 
  assert (H : forall l a, round53 a = a -> round53 (fold_left (fun s x => round53 (s + x)) l a) = fold_left (fun s x => round53 (s + x)) l a).
  { clear. induction l as [|x l IH]; intros a E; cbn; auto. apply IH. apply round53_of_round53. }
  apply H, round53_0.
Qed.
Lemma fast64_dots : representable_dots fast64.
Proof.
  intros xs ys. unfold representable. cbn [fast64 r_add r_dot]. rewrite Rplus_0_r. unfold fused_dot. generalize (combine xs ys). intros l.
  assert (H : forall (l : list (R * R)) a, round53 a = a -> round53 (fold_left (fun s p => round64 (fst p * snd p + s)) l a) = fold_left (fun s p => round64 (fst p * snd p + s)) l a).
  { clear. induction l as [|x l IH]; intros a E; cbn [fold_left]; auto. apply IH. apply round53_of_round64. }
  apply H, round53_0.
Qed.

(** In binary64 a crystal with a cell of size L between 2^-400 and 1000 Angstrom whose inverse is at
    most 1000 in size, with images of sites that are not at the limit of the tolerance. *)
Theorem C80_amd_binary64 : forall u ar s tol w dims cell asym types ops uniquify k, binary64 u ar -> representable_dots ar ->
  0 <= s -> tol < 1 / 3 -> (1 <= dims <= 4)%nat -> length cell = dims -> Forall (fun r => length r = dims) cell -> ops <> [] -> Forall (operation_ok dims) ops ->
  asym <> [] -> Forall (fun p => length p = dims) asym -> length types = length asym -> images_within s asym ops -> decided_sites tol (22 * u * (s + 1)) asym ops ->
  let L := cell_size cell in powerRZ 2 (-400) <= L <= 1000 -> w <= 1000 -> inverse_within w dims cell -> half_dominant dims cell ->
  let v := 24 * u * (1 + 13 * L * w) in
  exists cs cs' warn exact rounded fuel0,
    finish mod1 tol uniquify cell asym types ops = Done (cs, warn) /\
    @finish R (num_of ar) (np_mod1 ar) tol uniquify cell asym types ops = Done (cs', warn) /\ length exact = k /\
    let m := INR (length (ps_motif (cs_set cs))) in
    (m <= 50000 -> forall fuel, (fuel0 <= fuel)%nat ->
      AMD fuel (cs_set cs) k = Done exact /\ @AMD R (num_of ar) fuel (cs_set cs') k = Done rounded /\
      Forall2 (fun a c => Rabs (c - a) <= 30 * u * (s + 1) * L + (110 + 3 * m) * v * (a + 30 * u * (s + 1) * L + 2 * L)) exact rounded).
Proof.
  intros u ar s tol w dims cell asym types ops uniquify k BI HR Hs Ht Hd Hc Hcl Ho Hops Ha Hasym Hty HS HD L HL Hw HW Hdom v.
  pose proof (b64_for u ar L BI ltac:(lra)) as (FL & Hu & L0 & HeL & He2). pose proof (binary64_u u ar BI) as BU. pose proof u64_pos as U0.
  assert (US : u64 <= 1 / 9007199254740992) by (unfold u64; simpl; lra).
  assert (E1 : eta64 <= u64 / 10). { apply Rle_trans with (powerRZ 2 (-4) * u64); [unfold u64, eta64; rewrite <- two_add; apply two_le; lia|simpl; lra]. }
  assert (E2 : eta64 <= u * L / 10).
  { apply Rle_trans with (powerRZ 2 (-4) * (u64 * powerRZ 2 (-400))); [unfold u64, eta64; rewrite <- !two_add; apply two_le; lia|].
    assert (u64 * powerRZ 2 (-400) <= u * L) by (pose proof (two_pos (-400)); apply Rmult_le_compat; lra). pose proof (two_pos (-400)). assert (0 <= u64 * powerRZ 2 (-400)) by (apply Rmult_le_pos; lra). simpl. simpl in *. lra. }
  assert (RD : readable ar u eta64 s tol dims cell asym types ops) by (constructor; auto; lra).
  pose proof (w_pos ar u eta64 s tol w dims cell asym types ops RD HW Hdom) as W0.
  assert (LW : L * w <= 1000 * 1000) by (destruct HL as [_ HL]; clear - HL L0 W0 Hw; clearbody L; apply Rmult_le_compat; [exact L0|exact W0|exact HL|exact Hw]). assert (LW0 : 0 <= L * w) by (apply Rmult_le_pos; lra).
  assert (Hv : v <= 1 / 5000000). { unfold v. apply Rle_trans with (24 * (4 * u64) * (1 + 13 * (1000 * 1000))); [|lra]. apply Rmult_le_compat; lra. }
  assert (v0 : 0 <= v) by (unfold v; apply Rmult_le_pos; lra).
  destruct (C80_amd_rounded ar u eta64 s tol w dims cell asym types ops uniquify k RD HW Hdom HR ltac:(fold L v; lra) He2) as (cs & cs' & warn & a & c & f & E & E' & La & H).
  exists cs, cs', warn, a, c, f. do 3 (split; [assumption|]). intros m Hm. apply H. fold L v m. apply Rle_trans with (50000 * (1 / 5000000)); [|lra]. apply Rmult_le_compat; auto; try lra. apply pos_INR.
Qed.

(** ** Examples *)
(** A sheared cell, a site and its image under the inversion. *)
Definition sheared : list (list R) := [[4; 0]; [1; 4]].
Definition two_ops : list operation := [([[1; 0]; [0; 1]], [0; 0]); ([[-1; 0]; [0; -1]], [0; 0])].
Definition one_site : list (list R) := [[1 / 8; 1 / 3]].

Lemma one_site_within : images_within 1 one_site two_ops.
Proof.
  assert (A1 : Rabs 1 = 1) by (apply Rabs_right; lra). assert (A2 : Rabs (-1) = 1) by (rewrite Rabs_left; lra). assert (A3 : Rabs (1 / 8) = 1 / 8) by (apply Rabs_right; lra). assert (A4 : Rabs (1 / 3) = 1 / 3) by (apply Rabs_right; lra).
  intros p g j [<-|[]] Hg Hj. destruct Hg as [<-|[<-|[]]]; destruct j as [|[|j]]; cbn in Hj; try lia; unfold rdot, rsum; cbn; rewrite ?A1, ?A2, ?A3, ?A4, ?Rabs_R0; lra.
Qed.
Lemma quarter_int : forall n : Z, 1 / 4 <= Rabs (1 / 4 - IZR n) /\ 1 / 4 <= Rabs (- (1 / 4) - IZR n).
Proof.
  intros n. destruct (Z_le_gt_dec n (-1)) as [H|H]; [|destruct (Z.eq_dec n 0) as [->|H']; [|assert (1 <= n)%Z by lia]].
  - apply IZR_le in H. rewrite !Rabs_right by lra. lra.
  - rewrite Rabs_right by lra. rewrite Rabs_left by lra. lra.
  - apply IZR_le in H0. rewrite !Rabs_left by lra. lra.
Qed.
Lemma one_site_decided : forall m, m <= 1 / 1000 -> decided_sites (1 / 1000) m one_site two_ops.
Proof.
  intros m Hm. split; [lra|]. assert (D : forall x, 0 <= 1 / 1000 - m -> x = 0 -> exists n, Rabs (x - IZR n) <= 1 / 1000 - m) by (intros x H ->; exists 0%Z; rewrite Rminus_0_r, Rabs_R0; lra).
  intros p q g h [<-|[]] [<-|[]] [<-|[<-|[]]] [<-|[<-|[]]].
  - left. intros [|[|j]] Hj; cbn in Hj; try lia; apply D; try lra; unfold affine, rdot, rsum; cbn; lra.
  - right. exists 0%nat. split; [cbn; lia|]. intros n. destruct (quarter_int n) as [A _]. replace (nth 0 _ 0 - nth 0 _ 0) with (1 / 4) by (unfold affine, rdot, rsum; cbn; lra). lra.
  - right. exists 0%nat. split; [cbn; lia|]. intros n. destruct (quarter_int n) as [_ A]. replace (nth 0 _ 0 - nth 0 _ 0) with (- (1 / 4)) by (unfold affine, rdot, rsum; cbn; lra). lra.
  - left. intros [|[|j]] Hj; cbn in Hj; try lia; apply D; try lra; unfold affine, rdot, rsum; cbn; lra.
Qed.
Lemma sheared_size : 4 <= cell_size sheared <= 9.
Proof.
  unfold cell_size, rsum, sheared, rdot, rsum. cbn. replace (4 * 4 + (0 * 0 + 0)) with (4 * 4) by lra. rewrite sqrt_square by lra. pose proof (sqrt_pos (1 * 1 + (4 * 4 + 0))).
  assert (sqrt (1 * 1 + (4 * 4 + 0)) <= sqrt (5 * 5)) by (apply sqrt_le_1_alt; lra). rewrite (sqrt_square 5) in H0 by lra. lra.
Qed.
Lemma sheared_inverse : inverse_within 1 2 sheared.
Proof.
  exists [[1 / 4; - (1 / 16)]; [0; 1 / 4]]. split.
  - split; [auto|]. split; [repeat constructor|]. intros [|[|i]] [|[|j]] Hi Hj; try lia; unfold rdot, rsum; cbn; lra.
  - constructor; [|constructor; [|constructor]]; (apply Rle_trans with (sqrt 1); [apply sqrt_le_1_alt; unfold rdot, rsum; cbn; lra|rewrite sqrt_1; lra]).
Qed.

Lemma mod1_value : forall x y n, 0 <= y < 1 -> x = y + IZR n -> mod1 x = y.
Proof.
  intros x y n H ->. destruct (mod1_diff (y + IZR n)) as (k & E). pose proof (mod1_range (y + IZR n)) as B. assert (X : mod1 (y + IZR n) - y = IZR (n + k)) by (rewrite plus_IZR; lra).
  assert (A : IZR (-1) < IZR (n + k) < IZR 1) by lra. destruct A as [A1 A2]. apply lt_IZR in A1, A2. replace (n + k)%Z with 0%Z in X by lia. simpl in X. lra.
Qed.
Lemma one_site_motif : expand_asym_unit mod1 (1 / 1000) true one_site two_ops = Done ([[1 / 8; 1 / 3]; [7 / 8; 2 / 3]], [0%nat; 0%nat], []).
Proof.
  assert (E : expand_sites mod1 one_site two_ops = [[[1 / 8; 1 / 3]; [7 / 8; 2 / 3]]]).
  { cbn. repeat f_equal; [apply (mod1_value _ _ 0)|apply (mod1_value _ _ 0)|apply (mod1_value _ _ (-1))|apply (mod1_value _ _ (-1))]; cbn; lra. }
  assert (D : site_neq (1 / 1000) [1 / 8; 1 / 3] [7 / 8; 2 / 3] = true).
  { apply site_neq_true; [lra|repeat constructor; lra|repeat constructor; lra|reflexivity|]. intros C. destruct (C 0%nat ltac:(cbn; lia)) as (n & Hn). cbn in Hn.
    destruct (quarter_int (n + 1)) as [Q _]. rewrite plus_IZR in Q. replace (1 / 8 - 7 / 8 - IZR n) with (1 / 4 - (IZR n + 1)) in Hn by lra. lra. }
  unfold expand_asym_unit. rewrite E. cbn [reduce_expanded_sites flat_map unique_images enumerate]. unfold reduce_expanded_sites, unique_images, unique_sites. cbn - [site_neq]. rewrite !D. cbn - [site_neq]. rewrite !D. cbn. reflexivity.
Qed.
Lemma one_site_read : exists cs, finish mod1 (1 / 1000) true sheared one_site [6%nat] two_ops = Done (cs, []) /\ length (ps_motif (cs_set cs)) = 2%nat /\ ps_mult (cs_set cs) = Some [2%nat].
Proof. unfold finish. rewrite one_site_motif. cbn [obind]. eexists. split; [reflexivity|]. split; reflexivity. Qed.

(** Reading it in binary64, with all sums and scalar products from left to right, and computing
    k columns of AMD changes no entry a by more than 2^-34 (a + 19). *)
Example C80_case : forall k, exists cs cs' exact rounded fuel0,
  finish mod1 (1 / 1000) true sheared one_site [6%nat] two_ops = Done (cs, []) /\ ps_mult (cs_set cs) = Some [2%nat] /\
  @finish R (num_of b64) (np_mod1 b64) (1 / 1000) true sheared one_site [6%nat] two_ops = Done (cs', []) /\ length exact = k /\
  forall fuel, (fuel0 <= fuel)%nat -> AMD fuel (cs_set cs) k = Done exact /\ @AMD R (num_of b64) fuel (cs_set cs') k = Done rounded /\
    Forall2 (fun a c => Rabs (c - a) <= powerRZ 2 (-34) * (a + 19)) exact rounded.
Proof.
  intros k. destruct one_site_read as (cs0 & E0 & L0 & M0). pose proof sheared_size as SZ.
  assert (U : 0 < u64 <= 1 / 9007199254740992) by (split; [apply u64_pos|unfold u64; simpl; lra]).
  destruct (C80_amd_binary64 u64 b64 1 (1 / 1000) 1 2 sheared one_site [6%nat] two_ops true k) as (cs & cs' & warn & a & c & f & E & E' & La & H).
  - exact b64_binary64.
  - exact b64_dots.
  - lra.
  - lra.
  - lia.
  - reflexivity.
  - repeat constructor.
  - discriminate.
  - repeat (constructor; [split; [reflexivity|split; [repeat constructor|reflexivity]]|]). constructor.
  - discriminate.
  - repeat constructor.
  - reflexivity.
  - exact one_site_within.
  - apply one_site_decided. lra.
  - split; [|lra]. apply Rle_trans with (powerRZ 2 0); [apply two_le; lia|simpl; lra].
  - lra.
  - exact sheared_inverse.
  - destruct shear_wf as (_ & D & _). exact D.
  - rewrite E0 in E. injection E as <- <-. exists cs0, cs', a, c, f. do 4 (split; [assumption|]). intros fuel Hf. rewrite L0 in H. destruct (H ltac:(simpl; lra) fuel Hf) as (A & B & F). split; [exact A|]. split; [exact B|].
    assert (P : Forall (fun d => 0 <= d) a). { destruct (C67_wf 2 (1 / 1000) true sheared one_site [6%nat] two_ops cs0 []) as (Wf & _); auto; try lia; try lra; try discriminate; [repeat (constructor; [split; [reflexivity|split; [repeat constructor|reflexivity]]|]); constructor|repeat constructor|repeat constructor|].
      destruct (C13_amd_monotone _ _ _ _ _ Wf A) as (_ & P & _). exact P. }
    clear - F P SZ U. induction F as [|x y l l' H F IH]; constructor; inversion P; subst; auto. eapply Rle_trans; [exact H|]. set (L := cell_size sheared) in *. set (v := 24 * u64 * (1 + 13 * L * 1)).
    assert (V : 0 <= v <= 2832 * u64) by (unfold v; split; [apply Rmult_le_pos; lra|nra]). replace (110 + 3 * INR 2) with 116 by (simpl; lra).
    assert (S1 : 30 * u64 * (1 + 1) * L <= 540 * u64) by nra. assert (S2 : 30 * u64 * (1 + 1) * L <= 1) by lra.
    assert (T : 116 * v * (x + 30 * u64 * (1 + 1) * L + 2 * L) <= 116 * (2832 * u64) * (x + 1 + 18)) by (apply Rmult_le_compat; try lra; apply Rplus_le_le_0_compat; [apply Rplus_le_le_0_compat|]; nra).
    replace (powerRZ 2 (-34)) with (524288 * u64) by (unfold u64; simpl; lra). assert (0 <= u64 * x) by (apply Rmult_le_pos; lra). lra.
Qed.

(** ** The range of [np.mod] *)
(** In binary64 [np.mod(x, 1)] is the fractional part of x >= 0.  For negative x it differs from it
    by at most one rounding, and is 1 only for x just below an integer. *)
Theorem C81_closed_range : forall u ar x, binary64 u ar ->
  0 <= np_mod1 ar x <= 1 /\ (exists n : Z, Rabs (np_mod1 ar x - x - IZR n) <= u64) /\
  (0 <= x -> np_mod1 ar x = frac_part x) /\ ((exists n : Z, x = IZR n) -> np_mod1 ar x = 0) /\
  (np_mod1 ar x = 1 -> exists n : Z, 0 < IZR n - x <= u64).
Proof.
  intros u ar x BI. assert (U0 := u64_pos). set (r := x - IZR (trunc x)).
  assert (B : -1 < r < 1). { unfold r, trunc. destruct (Rle_dec 0 x) as [P|P]; [destruct (base_Int_part x); lra|]. destruct (base_Int_part (- x)). rewrite opp_IZR. lra. }
  assert (D : r - x = IZR (- trunc x)) by (unfold r; rewrite opp_IZR; lra).
  assert (E : r < 0 -> Rabs (round53 (r + 1) - (r + 1)) <= u64 * (r + 1)).
  { intros N. pose proof (fl_add _ _ _ (b64_float_like u64 b64 b64_binary64) r 1) as E. cbn [b64 r_add] in E. rewrite (Rabs_right (r + 1)) in E by lra. exact E. }
  assert (UB : r < 0 -> u64 * (r + 1) <= u64) by (intros N; nra).
  assert (V : np_mod1 ar x = if Rlt_dec r 0 then round53 (r + 1) else r) by (unfold np_mod1; rewrite (b_add _ _ BI); reflexivity). rewrite V. clear V.
  assert (F : 0 <= x -> r = frac_part x /\ 0 <= r). { intros P. unfold r, trunc, frac_part. destruct (Rle_dec 0 x); [|lra]. destruct (base_Int_part x). lra. }
  assert (I : (exists n : Z, x = IZR n) -> r = 0). { intros (n & Hn). assert (X : r = IZR (n - trunc x)) by (unfold r; rewrite minus_IZR; lra). rewrite X in B. destruct B as [B1 B2]. apply lt_IZR in B1. apply lt_IZR in B2. rewrite X. f_equal. lia. }
  destruct (Rlt_dec r 0) as [N|N].
  - specialize (E N). specialize (UB N). assert (NZ : r + 1 <> 0) by lra. split; [split|split; [|split; [|split]]].
    + apply Rabs_le_both in E. assert (u64 <= 1) by (unfold u64; simpl; lra). nra.
    + unfold round53. destruct (Req_EM_T (r + 1) 0) as [C|_]; [contradiction|]. set (e := (lead (r + 1) - 52)%Z). assert (Le : (e <= 0)%Z).
      { destruct (lead_spec (r + 1) NZ) as [A _]. rewrite Rabs_right in A by lra. assert (lead (r + 1) < 0)%Z by (apply two_lt_inv; simpl (powerRZ 2 0); lra). unfold e. lia. }
      change 1 with (powerRZ 2 0) at 2. rewrite <- (round_at_multiple e 0 Le). apply round_at_mono. simpl. lra.
    + exists (- trunc x + 1)%Z. rewrite plus_IZR, <- D. eapply Rle_trans; [|eapply Rle_trans; [exact E|exact UB]]. right. f_equal. lra.
    + intros P. apply F in P. lra.
    + intros P. apply I in P. lra.
    + intros E1. exists (trunc x). rewrite E1 in E. apply Rabs_le_both in E. unfold r in *. lra.
  - split; [lra|]. split; [exists (- trunc x)%Z; rewrite <- D; replace (r - x - (r - x)) with 0 by lra; rewrite Rabs_R0; lra|]. split; [intros P; apply F, P|]. split; [exact I|]. lra.
Qed.

(** ** Findings *)
(** For a tiny negative coordinate [np.mod(x, 1)] is 1: the reader's motif is not inside the
    half-open cell. *)
Theorem C81_half_open_refuted : exists x, x < 0 /\ np_mod1 b64 x = 1 /\
  exists cs, @finish R (num_of b64) (np_mod1 b64) (1 / 1000) true [[4]] [[x]] [6%nat] [([[1]], [0])] = Done (cs, []) /\ ps_motif (cs_set cs) = [[4]] /\ ~ in_cell 1 [[4]] [4].
Proof.
  set (x := IZR (-1) * powerRZ 2 (-60)). assert (X : - (1 / 1000) < x < 0) by (unfold x; simpl; lra). exists x. split; [lra|].
  assert (M : np_mod1 b64 x = 1).
  { unfold np_mod1, trunc. destruct (Rle_dec 0 x) as [C|_]; [lra|]. assert (I : Int_part (- x) = 0%Z). { destruct (base_Int_part (- x)) as [A B]. assert (P1 : IZR (Int_part (- x)) < IZR 1) by lra. assert (P2 : IZR (-1) < IZR (Int_part (- x))) by lra. apply lt_IZR in P1, P2. lia. }
    rewrite I. cbn [Z.opp]. rewrite Rminus_0_r. destruct (Rlt_dec x 0) as [_|C]; [|lra]. cbn [b64 r_add]. unfold round53. destruct (Req_EM_T (x + 1) 0) as [C|NZ]; [lra|].
    assert (LD : lead (x + 1) = (-1)%Z). { destruct (lead_spec (x + 1) NZ) as [A B]. rewrite Rabs_right in A, B by lra. assert (lead (x + 1) < 0)%Z by (apply two_lt_inv; simpl (powerRZ 2 0); lra).
      assert (-1 < lead (x + 1) + 1)%Z by (apply two_lt_inv; simpl (powerRZ 2 (-1)); lra). lia. }
    rewrite LD. unfold round_at. change (-1 - 52)%Z with (-53)%Z. pose proof (nearest_even_err ((x + 1) / powerRZ 2 (-53))) as Er. apply Rabs_le_both in Er. set (z := nearest_even _) in *.
    
    assert (PP : powerRZ 2 (-53) * IZR (2 ^ 53) = 1) by (rewrite <- two_nat, <- two_add by lia; reflexivity). pose proof (two_pos (-53)) as P53. assert (P60 : powerRZ 2 (-60) = powerRZ 2 (-7) * powerRZ 2 (-53)) by (apply two_split; reflexivity). assert (P7 : powerRZ 2 (-7) = 1 / 128) by (simpl; lra).
    assert (Q : (x + 1) / powerRZ 2 (-53) = IZR (2 ^ 53) - 1 / 128). { unfold x. rewrite P60, P7. apply Rmult_eq_reg_r with (powerRZ 2 (-53)); [|lra]. unfold Rdiv at 1. rewrite Rmult_assoc, Rinv_l, Rmult_1_r by lra. rewrite Rmult_minus_distr_r, (Rmult_comm (IZR (2 ^ 53))), PP. lra. } rewrite Q in Er. assert (Z1 : IZR (2 ^ 53 - 1) < IZR z) by (rewrite minus_IZR; lra). assert (Z2 : IZR z < IZR (2 ^ 53 + 1)) by (rewrite plus_IZR; lra).
    apply lt_IZR in Z1, Z2. replace z with (2 ^ 53)%Z by lia. rewrite Rmult_comm. exact PP. }
  split; [exact M|]. 
  assert (D : @apply_op R (num_of b64) ([[1]], [0]) [x] = [x]).
  { unfold apply_op, np_dot. cbn. unfold seq_dot, seq_sum. cbn. f_equal. rewrite Rmult_1_l, Rplus_0_l, Rplus_0_r. assert (R1 : round64 x = x) by (apply round64_format; [reflexivity|lia]).
    assert (R2 : round53 x = x) by (apply round53_format; reflexivity). rewrite R1, R2, R2. reflexivity. }
  assert (E : @expand_sites R (num_of b64) (np_mod1 b64) [[x]] [([[1]], [0])] = [[[1]]]). { unfold expand_sites. cbn [map]. rewrite D. cbn [map]. rewrite M. reflexivity. }
  unfold finish, expand_asym_unit. rewrite E. cbn. eexists. split; [reflexivity|]. cbn. split.
  - f_equal. unfold to_cartesian, np_dot. cbn. unfold seq_dot, seq_sum. cbn. rewrite Rplus_0_l, Rmult_1_l. f_equal.
    assert (R1 : round64 4 = 4) by (replace 4 with (IZR 4 * powerRZ 2 0) by (simpl; lra); apply round64_format; [reflexivity|lia]).
    rewrite R1. replace 4 with (IZR 4 * powerRZ 2 0) by (simpl; lra). apply round53_format. reflexivity.
  - intros (f & Lf & Bf & Ef). destruct f as [|a [|b f]]; try discriminate. inversion Bf; subst. unfold comb_coord in Ef. cbn in Ef. injection Ef as Ef. lra.
Qed.

Print Assumptions C80_same_sites.
Print Assumptions C80_amd_rounded.
Print Assumptions C80_amd_binary64.
Print Assumptions C81_closed_range.
Print Assumptions C81_half_open_refuted.
