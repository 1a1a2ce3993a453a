(** The rows of distances and the PDD of a crystal read with rounded operations. *)
From Coq Require Import List ZArith Arith Bool Lia Reals Lra Psatz Permutation Sorted.
From Verif Require Import Num Base Spec Outcome CollapseModel NNModel VecR SpecGeom SpecCalc SpecEmd SpecSites SpecCont NNProofs NNSpecProofs NNComplete NNInvariance Props_NN CompareModel CalcModel CalcProofs CalcProofs2 Props_Calc
  EmdTop EmdSym SitesModel SitesProofs SitesExpand Props_Sites SymmetryProofs Props_Symmetry Props_Asym Props_Geo Props_EmdPdd ContProofs
  RoundModel SpecRound RoundSum RoundProofs RoundGeom RoundTop RoundCalc RoundCollapse RoundBinary Props_Round RoundSitesModel SpecRoundSites RoundSites RoundSites2 RoundSites3
  RoundEmdModel RoundEmdPdd Props_RoundEmd Props_RoundSites.
Import ListNotations.
Open Scope R_scope.
Notation length := List.length.

(** What a cell, the sites and the inverse of the cell add to the bound of the coordinates. *)
Definition read_bound (s w D : R) (cell : list (list R)) : R :=
  24 * (1 + 13 * cell_size cell * w) * (D + (s + 3) * cell_size cell).

Section ReadRows.
  Variables (ar : arith) (u eta s tol w : R) (dims : nat) (cell asym : list (list R)) (types : list nat) (ops : list operation) (uniquify : bool).
  Hypothesis RD : readable ar u eta s tol dims cell asym types ops.
  Hypothesis HW : inverse_within w dims cell.
  Hypothesis Hdom : half_dominant dims cell.
  Hypothesis Hrep : representable_dots ar.
  Let L := cell_size cell.
  Let v := 24 * u * (1 + 13 * L * w).
  Let N := num_of ar.
  Variable k : nat.
  Hypothesis Hv : v <= 1 / 10000.
  Hypothesis He2 : eta <= (u * L) * (u * L).

  Definition near_read (d e : R) : Prop := Rabs (e - d) <= 100 * v * (d + (s + 3) * L).

  Lemma read_rows : exists cs cs' warn rows rows' fuel0,
    finish mod1 tol uniquify cell asym types ops = Done (cs, warn) /\
    @finish R N (np_mod1 ar) tol uniquify cell asym types ops = Done (cs', warn) /\
    length (ps_motif (cs_set cs')) = length (ps_motif (cs_set cs)) /\
    pset_wf dims (cs_set cs) /\ pset_wf dims (cs_set cs') /\ nonsingular dims (ps_cell (cs_set cs)) /\
    spread dims (ps_cell (cs_set cs)) (ps_motif (cs_set cs)) /\ counts_of (cs_set cs') = counts_of (cs_set cs) /\
    (forall fuel, (fuel0 <= fuel)%nat ->
      nearest_neighbors fuel (ps_motif (cs_set cs)) (ps_cell (cs_set cs)) (points_of (cs_set cs)) (S k) = Done rows /\
      @nearest_neighbors R N fuel (ps_motif (cs_set cs')) (ps_cell (cs_set cs')) (points_of (cs_set cs')) (S k) = Done rows') /\
    Forall2 (fun p r => nearest_distances dims (ps_motif (cs_set cs)) (ps_cell (cs_set cs)) p (S k) r) (points_of (cs_set cs)) rows /\
    Forall2 (Forall2 near_read) rows rows'.
  Proof.
    destruct (finish_alike _ _ _ _ _ _ _ _ _ _ uniquify RD) as (cs & cs' & warn & frac & frac' & E & E' & _ & EC & EC' & EA & EM & M & M' & F).
    destruct RD as [FL Hu He HeL Hs Ht Hd Hc Hcl Ho Hops Ha Hasym Hty HS HD] eqn:Q. clear Q. pose proof (fl_u _ _ _ FL) as u0. pose proof (rd_tol0 _ _ _ _ _ _ _ _ _ _ RD) as Ht0.
    assert (NS : nonsingular dims cell) by (destruct HW as (dual & DB & _); exists dual; auto).
    destruct (C67_wf dims tol uniquify cell asym types ops cs warn ltac:(lia) Ht0 Ho Hops Ha Hasym Hc Hcl E) as (Wf & In_ & _ & _).
    assert (W0 : 0 <= w) by (eapply w_pos; eauto). assert (L0 : 0 <= L) by (eapply size_pos; eauto). assert (LW : 0 <= L * w) by (apply Rmult_le_pos; auto). assert (ULW : 0 <= u * (L * w)) by (apply Rmult_le_pos; auto). assert (UL : 0 <= u * L) by (apply Rmult_le_pos; auto).
    assert (Uv : 24 * u <= v) by (unfold v; lra).
    assert (LM : length (ps_motif (cs_set cs')) = length (ps_motif (cs_set cs))) by (rewrite M, M', !map_length; symmetry; apply (F2_len _ _ _ _ _ F)).
    assert (EP : positions_of (cs_set cs') = positions_of (cs_set cs)) by (unfold positions_of; rewrite EA, EM, LM; reflexivity).
    assert (ECt : counts_of (cs_set cs') = counts_of (cs_set cs)) by (unfold counts_of; rewrite EA, EM, LM; reflexivity).
    assert (OK' : pset_ok dims (ps_motif (cs_set cs')) (ps_cell (cs_set cs'))).
    { rewrite EC'. split; auto; [lia| |].
      - pose proof (ok_motif _ _ _ (wf_ok _ _ Wf)) as NE. destruct (ps_motif (cs_set cs')); [|discriminate]. destruct (ps_motif (cs_set cs)); [congruence|discriminate].
      - rewrite M'. apply Forall_forall. intros p Hp. apply in_map_iff in Hp as (f & <- & _). unfold to_cartesian. rewrite map_length, seq_length. exact Hc. }
    assert (Wf' : pset_wf dims (cs_set cs')).
    { destruct Wf as [W1 W2 W3 W4 W5]. split; auto; rewrite ?EP, ?ECt, ?LM; auto. }
    assert (HP : Forall (fun f' => length f' = dims /\ Forall (fun a => 0 <= a <= 1 + u) f') frac').
    { clear - F. induction F as [|a b l l' (_ & _ & _ & L1 & B & _) F IH]; constructor; auto. }
    assert (MW : motif_within ar (2 * L) (ps_motif (cs_set cs'))).
    { rewrite M'. unfold motif_within. apply Forall_forall. intros p Hp. apply in_map_iff in Hp as (f' & <- & Hf'). rewrite Forall_forall in HP. destruct (HP f' Hf') as [Lf' Bf'].
      split; [unfold to_cartesian; apply Forall_forall; intros x Hx; apply in_map_iff in Hx as (j & <- & _); apply Hrep|].
      pose proof (cart_norm ar u eta dims cell FL Hu ltac:(lia) Hc Hcl HeL f' f' Lf' Lf' Bf') as NM. fold L in NM. unfold norm in NM. rewrite sq_fold in NM. exact NM. }
    assert (AF : arithmetic_for ar v eta (2 * L)).
    { split; [apply (float_like_le u); [lra|exact FL]|]. split; [exact Hv|]. split; [lra|]. assert (ULv : u * L <= v * (2 * L)) by (assert (u * L <= v * L) by (apply Rmult_le_compat_r; lra); assert (0 <= v * L) by lra; lra). fold L in HeL. split; [lra|].
      eapply Rle_trans; [exact He2|]. apply Rmult_le_compat; auto. }
    assert (SP : spread_within (v / 8) dims (ps_cell (cs_set cs')) (ps_motif (cs_set cs'))) by (rewrite EC', M'; eapply rounded_spread; eauto).
    assert (SP0 : spread dims (ps_cell (cs_set cs)) (ps_motif (cs_set cs))) by (rewrite EC; apply in_cell_spread; auto).
    assert (Hdom' : half_dominant dims (ps_cell (cs_set cs'))) by (rewrite EC'; auto).
    assert (NS0 : nonsingular dims (ps_cell (cs_set cs))) by (rewrite EC; auto). assert (NS' : nonsingular dims (ps_cell (cs_set cs'))) by (rewrite EC'; auto).
    destruct (C09_terminates dims _ _ (points_of (cs_set cs)) k (wf_ok _ _ Wf) NS0 (points_incl _ _ Wf) (points_nonempty _ _ Wf)) as (rows & f0 & H0).
    destruct (C74_returns_rounded ar v eta (2 * L) dims _ _ (points_of (cs_set cs')) k AF OK' ltac:(lia) Hdom' NS' MW (points_incl _ _ Wf') (points_nonempty _ _ Wf')) as (rows' & f1 & H1).
    assert (NR : Forall2 (fun p r => nearest_distances dims (ps_motif (cs_set cs)) (ps_cell (cs_set cs)) p (S k) r) (points_of (cs_set cs)) rows).
    { destruct (H0 f0) as [X _]. eapply (C05_rows_are_nearest dims); [exact (wf_ok _ _ Wf)|lia|exact SP0|exact (points_incl _ _ Wf)|exact (points_nonempty _ _ Wf)|apply X; lia]. }
    assert (NR' : exists rows2, Forall2 (fun p r => nearest_distances dims (ps_motif (cs_set cs')) (ps_cell (cs_set cs')) p (S k) r) (points_of (cs_set cs')) rows2).
    { apply choose_rows. intros p Hp. apply C66_exist; auto. pose proof (points_incl _ _ Wf' _ Hp) as I. pose proof (ok_motif_len _ _ _ OK') as OL. rewrite Forall_forall in OL. apply OL. exact I. }
    destruct NR' as (rows2 & NR').
    destruct AF as (FL' & Hv' & B0 & Ee1 & Ee2).
    pose proof (rows_near ar v eta (2 * L) dims (cs_set cs') FL' Hv' Wf' ltac:(lia) Hdom' SP B0 Ee1 Ee2 MW k f1 rows2 rows' NR' (H1 f1 (le_n _))) as RN.
    destruct (moved_points _ _ _ _ _ _ _ _ _ _ RD frac frac' F) as (shift & MV). rewrite <- M, <- M' in MV.
    exists cs, cs', warn, rows, rows', (Nat.max f0 f1). do 8 (split; [assumption|]). split.
    { intros fuel Hf. split; [apply (H0 fuel); lia|apply H1; lia]. }
    split; [exact NR|]. pose proof (F2_len _ _ _ _ _ NR) as LR. pose proof (F2_len _ _ _ _ _ NR') as LR'. pose proof (F2_len _ _ _ _ _ RN) as LN. rewrite (points_length _ _ Wf) in LR. rewrite (points_length _ _ Wf'), ECt in LR'.
    apply (F2_of_nth _ _ _ [] []); [lia|]. intros i Hi.
    pose proof (F2_nth _ _ _ _ _ [] [] NR i) as N1. pose proof (F2_nth _ _ _ _ _ [] [] NR' i) as N2. cbv beta in N1, N2. rewrite (points_length _ _ Wf) in N1. rewrite (points_length _ _ Wf'), ECt in N2.
    specialize (N1 ltac:(lia)). specialize (N2 ltac:(lia)). unfold points_of in N1, N2. rewrite EP in N2. pose proof (wf_len _ _ Wf) as WL.
    rewrite (nth_map' _ _ _ _ _ 0%nat) in N1 by lia. rewrite (nth_map' _ _ _ _ _ 0%nat) in N2 by lia. rewrite EC in N1. rewrite EC' in N2.
    assert (Hp : (nth i (positions_of (cs_set cs)) 0 < length (ps_motif (cs_set cs)))%nat) by (pose proof (wf_range _ _ Wf) as WR; rewrite Forall_forall in WR; apply WR, nth_In; lia).
    pose proof (wf_ok _ _ Wf) as OK. rewrite EC in OK. rewrite EC' in OK'.
    pose proof (moved_nearest_both dims cell _ _ _ (fun i => i) shift (nth i (positions_of (cs_set cs)) 0%nat) (S k) _ _ OK OK' MV Hp N1 N2) as D. fold L in D.
    pose proof (F2_nth _ _ _ _ _ [] [] RN i ltac:(lia)) as R2. unfold close_rows_of in R2. pose proof (F2_len _ _ _ _ _ R2) as LR2.
    assert (K1 : length (nth i rows []) = S k /\ Forall (fun d => 0 <= d) (nth i rows [])).
    { destruct N1 as (ids & (Ln & _ & _ & En & _) & _). rewrite En, map_length. split; auto. apply Forall_forall. intros d Hd'. apply in_map_iff in Hd' as (a & <- & _). apply sqrt_pos. }
    destruct K1 as [K1 P1]. assert (K2 : length (nth i rows2 []) = S k) by (destruct N2 as (ids & (Ln & _ & _ & En & _) & _); rewrite En, map_length; auto).
    apply (F2_of_nth _ _ _ 0 0); [lia|]. intros j Hj. specialize (D j ltac:(lia)). pose proof (F2_nth _ _ _ _ _ 0 0 R2 j ltac:(lia)) as R3. cbv beta in R3.
    rewrite Forall_forall in P1. pose proof (P1 (nth j (nth i rows []) 0) ltac:(apply nth_In; lia)) as Pd.
    set (d := nth j (nth i rows []) 0) in *. set (d2 := nth j (nth i rows2 []) 0) in *. set (e := nth j (nth i rows' []) 0) in *. unfold near_read.
    assert (SL : 0 <= (s + 1) * L) by (apply Rmult_le_pos; lra). assert (D' : Rabs (d - d2) <= 5 / 4 * v * ((s + 1) * L)).
    { eapply Rle_trans; [exact D|]. replace (2 * (15 * u * (s + 1) * L)) with (30 * u * ((s + 1) * L)) by ring. apply Rmult_le_compat_r; lra. }
    assert (V0 : 0 <= v) by lra. assert (VS : 0 <= v * ((s + 1) * L)) by (apply Rmult_le_pos; auto). assert (VV : v * (v * ((s + 1) * L)) <= 1 / 10000 * (v * ((s + 1) * L))) by (apply Rmult_le_compat_r; lra).
    apply Rabs_le_both in D'. replace (e - d) with ((e - d2) + (d2 - d)) by ring. eapply Rle_trans; [apply Rabs_triang|].
    assert (X : Rabs (d2 - d) <= 5 / 4 * v * ((s + 1) * L)) by (apply Rabs_le; lra).
    assert (Y : 100 * v * (d2 + 2 * L) <= 100 * v * (d + 5 / 4 * v * ((s + 1) * L) + 2 * L)) by (apply Rmult_le_compat_l; lra). nra.
  Qed.
End ReadRows.

(** ** PDD *)
(** The PDD of [ps'] with rounded operations is close to the exact one of [ps]. *)
Definition close_pdds (ar : arith) (ps ps' : pset R) (k : nat) (D : R) (lexsort lexsort' collapse : bool) (tol w del : R) : Prop :=
  exists exact g rounded g' fuel0 p0, (forall fuel, (fuel0 <= fuel)%nat ->
    PDD fuel ps k lexsort collapse tol = Done (exact, g) /\ @PDD R (num_of ar) fuel ps' k lexsort' collapse tol = Done (rounded, g')) /\
    Permutation g g' /\
    Permutation (pdd_array exact) p0 /\ close_matrices w del p0 (pdd_array rounded) /\
    pdd_like k (pdd_array exact) /\ multiples (length (ps_motif ps)) (map fst exact) /\ (length exact <= length (ps_motif ps))%nat /\
    0 <= D /\ Forall (fun r => Forall (fun x => 0 <= x <= D) (snd r)) exact.

(** Rows of [ps'] found with rounded operations which are near those of [ps] give close PDDs. *)
Section NearRows.
  Variables (ar : arith) (u eta D M b : R) (dims : nat) (ps ps' : pset R) (k : nat) (rows rows' : list (list R)) (f0 : nat).
  Hypothesis FL : float_like u eta ar.
  Hypothesis Hu : u <= 1 / 10000.
  Hypothesis bp : 0 <= b.
  Hypothesis He1 : eta <= u * b.
  Hypothesis H4 : (dims <= 4)%nat.
  Hypothesis Wf : pset_wf dims ps.
  Hypothesis Wf' : pset_wf dims ps'.
  Hypothesis SP : spread dims (ps_cell ps) (ps_motif ps).
  Hypothesis EC : counts_of ps' = counts_of ps.
  Hypothesis LM : length (ps_motif ps') = length (ps_motif ps).
  Hypothesis HR : forall fuel, (f0 <= fuel)%nat ->
      nearest_neighbors fuel (ps_motif ps) (ps_cell ps) (points_of ps) (S k) = Done rows /\
      @nearest_neighbors R (num_of ar) fuel (ps_motif ps') (ps_cell ps') (points_of ps') (S k) = Done rows'.
  Hypothesis NR : Forall2 (fun p r => nearest_distances dims (ps_motif ps) (ps_cell ps) p (S k) r) (points_of ps) rows.
  Hypothesis RN : Forall2 (Forall2 (fun d e => Rabs (e - d) <= 100 * u * (d + b))) rows rows'.
  Variables (lexsort lexsort' collapse : bool) (ctol : R).

  Lemma pdd_of_rows : INR (length (ps_motif ps)) <= M -> M <= 10000000 -> M * u <= 1 / 100 -> M * eta <= u ->
    distances_within dims (ps_motif ps) (ps_cell ps) (points_of ps) k D ->
    (collapse = true -> decided dims (ps_motif ps) (ps_cell ps) (points_of ps) k ctol (203 * u * (D + b))) ->
    close_pdds ar ps ps' k D lexsort lexsort' collapse ctol ((5 + 2 * M) * u) ((110 + 3 * M) * u * (D + b)).
  Proof.
    intros HMM HM7 HMu HMe HD' HC. set (m := length (ps_motif ps)) in *.
    pose proof (fl_u _ _ _ FL) as u0. pose proof (fl_eta _ _ _ FL) as e0.
    pose proof (points_length _ _ Wf) as PL. pose proof (wf_pos _ _ Wf) as WP. pose proof (F2_len _ _ _ _ _ NR) as LR. pose proof (F2_len _ _ _ _ _ RN) as LN.
    assert (Hmp : (1 <= m)%nat) by (apply INR_lt; exact (motif_pos dims ps Wf)). assert (M1 : 1 <= INR m) by (apply (le_INR 1); auto).
    assert (Lm : (length rows <= m)%nat).
    { rewrite <- LR, PL. unfold m. rewrite <- (wf_sum _ _ Wf). clear - WP. unfold list_sum. induction WP as [|c l Hc WP IH]; cbn in *; lia. }
    assert (Hr : forall i, (i < length rows)%nat -> length (nth i rows []) = S k /\ Forall (fun d => 0 <= d <= D) (nth i rows [])).
    { intros i Hi. pose proof (F2_nth _ _ _ _ _ [] [] NR i ltac:(lia)) as N1. cbv beta in N1. pose proof (HD' (nth i (points_of ps) []) (nth i rows []) ltac:(apply nth_In; lia) N1) as Y.
      destruct N1 as (ids & (Ln & _ & _ & En & _) & _). split; [rewrite En, map_length; auto|]. rewrite Forall_forall in *. intros d Hd'. split; [|apply Y; auto].
      rewrite En in Hd'. apply in_map_iff in Hd' as (a & <- & _). apply sqrt_pos. }
    assert (D0 : 0 <= D).
    { pose proof (points_nonempty _ _ Wf) as NE. assert (L1 : (0 < length rows)%nat) by (destruct (points_of ps); [congruence|cbn in LR; lia]). destruct (Hr 0%nat L1) as [Z1 Z2]. destruct (nth 0 rows []); [discriminate|]. inversion Z2; subst. lra. }
    assert (HM : INR m * u <= 1 / 100) by (assert (INR m * u <= M * u) by (apply Rmult_le_compat_r; lra); lra).
    assert (HeM : INR m * eta <= u) by (assert (INR m * eta <= M * eta) by (apply Rmult_le_compat_r; lra); lra).
    assert (RN' : Forall2 (near_row u b) (map (@tl R) rows) (map (@tl R) rows')).
    { apply (F2_of_nth _ _ _ [] []); [rewrite !map_length; auto|]. intros i Hi. rewrite map_length in Hi. rewrite !(map_nth (@tl R) _ []).
      pose proof (F2_nth _ _ _ _ _ [] [] RN i ltac:(lia)) as G. cbv beta in G. unfold near_row. destruct G; cbn; auto. }
    set (w' := map (fun c => r_div ar (r_ofZ ar (Z.of_nat c)) (r_ofZ ar (Z.of_nat m))) (counts_of ps)).
    assert (TL : forall l j, nth j (@tl R l) 0 = nth (S j) l 0) by (intros [|y l] [|j]; cbn; auto).
    destruct (collapse_close ar u eta b D m FL Hu bp D0 He1 HM k (weights_of ps) w' (map (@tl R) rows) (map (@tl R) rows') collapse ctol) as (W & V & W' & V' & G & C1 & C2 & L1 & L2 & F1 & F2).
    { rewrite (weights_length _ _ Wf), map_length. lia. }
    { rewrite map_length. auto. }
    { eapply Forall_impl; [|apply (weights_pos _ _ Wf)]. intros z Hz. cbv beta in Hz. lra. }
    { unfold weights_of, w'. apply F2_map_in. intros c0 Hc. rewrite Forall_forall in WP. specialize (WP c0 Hc). pose proof (weight_error ar u eta FL Hu c0 m WP Hmp HM) as X. eapply Rle_trans; [exact X|].
      assert (C1 : 1 <= INR c0) by (apply (le_INR 1); auto). assert (Y : eta <= u * (INR c0 / INR m)); [|fold m; lra].
      apply (Rmult_le_reg_r (INR m)); [lra|]. replace (u * (INR c0 / INR m) * INR m) with (u * INR c0) by (field; lra). assert (u * 1 <= u * INR c0) by (apply Rmult_le_compat_l; lra). lra. }
    { apply Forall_forall. intros r Hrr. apply in_map_iff in Hrr as (r0 & <- & I). apply (In_nth _ _ []) in I as (i & Hi & <-). destruct (Hr i Hi) as [Z1 Z2]. destruct (nth i rows []); [discriminate|]. cbn in *. inversion Z2; subst. split; [lia|auto]. }
    { exact RN'. }
    { intros C. destruct (HC C) as [Q1 Q2]. split; auto. rewrite map_length. intros i j Hij. rewrite !(map_nth (@tl R) rows []).
      destruct (Hr i ltac:(lia)) as [Li _]. destruct (Hr j ltac:(lia)) as [Lj _].
      assert (Lt : length (tl (nth i rows [])) = k) by (destruct (nth i rows []); cbn in *; lia).
      pose proof (F2_nth _ _ _ _ _ [] [] NR i ltac:(lia)) as Ni. pose proof (F2_nth _ _ _ _ _ [] [] NR j ltac:(lia)) as Nj. cbv beta in Ni, Nj.
      destruct (Q2 i j _ _ ltac:(lia) Ni Nj) as [Q|(l & Hl & Q)].
      - left. intros l Hl. rewrite Lt in Hl. rewrite !TL. apply Q. lia.
      - right. exists (l - 1)%nat. rewrite Lt. split; [lia|]. rewrite !TL. replace (S (l - 1)) with l by lia. auto. }
    pose proof (F2_len _ _ _ _ _ F1) as L3. pose proof (F2_len _ _ _ _ _ F2) as L4.
    destruct (assemble_perm NumR W V G lexsort L1 L2) as (l & P1 & P2 & P3). destruct (assemble_perm (num_of ar) W' V' G lexsort' ltac:(lia) ltac:(lia)) as (l' & P1' & P2' & P3').
    exists (map fst l), (map snd l), (map fst l'), (map snd l'), f0.
    assert (ER : forall fuel, (f0 <= fuel)%nat -> PDD fuel ps k lexsort collapse ctol = Done (map fst l, map snd l) /\ @PDD R (num_of ar) fuel ps' k lexsort' collapse ctol = Done (map fst l', map snd l')).
    { intros fuel Hf. destruct (HR fuel Hf) as [X1 X2]. split.
      - rewrite (PDD_run dims ps Wf), X1. cbn [obind]. rewrite C1. f_equal. exact P3.
      - unfold PDD. rewrite (query_eq dims ps' Wf'). cbn [obind]. rewrite X2. cbn [obind]. rewrite EC, LM. fold m.
        match goal with |- context [collapse_rows ?z _ _ _] => change z with w' end. rewrite C2. f_equal. exact P3'. }
    destruct (ER f0 (le_n _)) as [ER1 ER2].
    destruct (pdd_range dims ps k D Wf H4 SP HD' _ _ _ _ _ _ ER1) as [_ RG]. destruct (pdd_multiples dims ps k Wf H4 _ _ _ _ _ _ ER1) as [MU LE].
    assert (PK : pdd_like k (pdd_array (map fst l))) by (apply (C32_pdd_weights _ _ _ _ _ _ _ _ _ Wf) with (2 := ER1); apply le_IZR; rewrite <- INR_IZR_INZ; fold m; lra).
    assert (LG : length (combine W V) = length G) by (rewrite combine_length; lia). assert (LG' : length (combine W' V') = length G) by (rewrite combine_length; lia).
    assert (Q1 : Permutation (map fst l) (combine W V)). { rewrite <- (map_fst_combine _ _ (combine W V) G LG). apply Permutation_map. symmetry. exact P1. }
    assert (Q2 : Permutation (combine W' V') (map fst l')). { rewrite <- (map_fst_combine _ _ (combine W' V') G LG') at 1. apply Permutation_map. exact P1'. }
    assert (SC : forall A B (x : list A) (y : list B), length x = length y -> map snd (combine x y) = y) by (clear; intros A B x; induction x as [|a x IH]; intros [|b y] H; try discriminate; cbn; f_equal; auto).
    assert (Q3 : Permutation (map snd l) (map snd l')).
    { apply perm_trans with G; [|symmetry]; [rewrite <- (SC _ _ (combine W V) G LG) at 1|rewrite <- (SC _ _ (combine W' V') G LG') at 1]; apply Permutation_map; symmetry; auto. }
    set (near := fun x y : R * list R => Rabs (fst y - fst x) <= (5 + 2 * INR m) * u * fst x /\ Forall2 (fun d e => Rabs (e - d) <= (110 + 3 * INR m) * u * (d + b)) (snd x) (snd y)).
    assert (FN : Forall2 near (combine W V) (combine W' V')).
    { clear - F1 F2 L1 L2 L3 L4. assert (LL : length W = length V) by lia. clear L1 L2 L3 L4. revert V V' F2 LL. induction F1 as [|x y W W' H F1 IH]; intros V V' F2 LL; destruct F2 as [|v v' V V' Hv F2]; try discriminate; cbn; constructor; auto. split; auto. }
    destruct (F2_perm_r _ _ _ _ _ _ FN Q2) as (x0 & Q4 & FN1).
    exists (pdd_array x0). split; [exact ER|]. split; [exact Q3|]. assert (Q5 : Permutation (map fst l) x0) by (rewrite Q1; auto). split; [apply Permutation_map; auto|].
    split; [|repeat (split; [assumption|]); assumption].
    assert (RG0 : Forall (fun r => Forall (fun x => 0 <= x <= D) (snd r)) x0) by (apply (perm_forall _ _ (map fst l)); auto).
    assert (WG0 : Forall (fun r => 0 <= fst r) x0).
    { apply (perm_forall _ _ (map fst l)); [auto|]. apply Forall_forall. intros x Hx. pose proof (pl_weight _ _ PK) as W_. rewrite Forall_forall in W_.
      specialize (W_ (fst x :: snd x) ltac:(apply (in_map (fun r => fst r :: snd r) _ _ Hx))). cbn in W_. lra. }
    unfold close_matrices. clear - FN1 RG0 WG0 u0 HMM bp D0. pose proof (pos_INR m) as M0. induction FN1 as [|x y e0 r [N1 N2] F1 IH]; cbn [pdd_array map]; constructor.
    - inversion RG0 as [|? ? X1 X2]; subst. inversion WG0 as [|? ? Y1 Y2]; subst. cbn [nth tl length]. split; [f_equal; symmetry; eapply F2_len; exact N2|]. split.
      + eapply Rle_trans; [exact N1|]. apply Rmult_le_compat_r; auto. apply Rmult_le_compat_r; lra.
      + clear - N2 X1 u0 HMM bp M0 D0. induction N2 as [|a c l l' H N2 IH]; constructor; inversion X1; subst; auto.
        eapply Rle_trans; [exact H|]. apply Rmult_le_compat; try lra; [apply Rmult_le_pos; lra|]. apply Rmult_le_compat_r; lra.
    - inversion RG0; inversion WG0; subst. apply IH; auto.
  Qed.
End NearRows.

Section ReadPdd.
  Variables (ar : arith) (u eta s tol w D M b : R) (dims : nat) (cell asym : list (list R)) (types : list nat) (ops : list operation) (uniquify : bool).
  Hypothesis RD : readable ar u eta s tol dims cell asym types ops.
  Hypothesis HW : inverse_within w dims cell.
  Hypothesis Hdom : half_dominant dims cell.
  Hypothesis Hrep : representable_dots ar.
  Hypothesis Hv : 24 * u * (1 + 13 * cell_size cell * w) <= 1 / 10000.
  Hypothesis He2 : eta <= (u * cell_size cell) * (u * cell_size cell).
  Hypothesis Hb : read_bound s w D cell <= b.
  Variables (k : nat) (lexsort lexsort' collapse : bool) (ctol : R).

  Lemma read_pdd : forall cs warn, finish mod1 tol uniquify cell asym types ops = Done (cs, warn) ->
    INR (length (ps_motif (cs_set cs))) <= M -> M <= 10000000 -> M * u <= 1 / 100 -> M * eta <= u ->
    distances_within dims (ps_motif (cs_set cs)) cell (points_of (cs_set cs)) k D ->
    (collapse = true -> decided dims (ps_motif (cs_set cs)) cell (points_of (cs_set cs)) k ctol (203 * u * (D + b))) ->
    exists cs', @finish R (num_of ar) (np_mod1 ar) tol uniquify cell asym types ops = Done (cs', warn) /\
      length (ps_motif (cs_set cs')) = length (ps_motif (cs_set cs)) /\
      close_pdds ar (cs_set cs) (cs_set cs') k D lexsort lexsort' collapse ctol ((5 + 2 * M) * u) ((110 + 3 * M) * u * (D + b)).
  Proof.
    intros cs warn E HMM HM7 HMu HMe HD HC.
    destruct (read_rows ar u eta s tol w dims cell asym types ops uniquify RD HW Hdom Hrep k Hv He2) as (cs0 & cs' & warn0 & rows & rows' & f0 & E0 & E' & LM & Wf & Wf' & NS & SP & EC & HR & NR & RN).
    rewrite E in E0. injection E0 as <- <-. exists cs'. split; [exact E'|]. split; [exact LM|].
    assert (ECe : ps_cell (cs_set cs) = cell) by (destruct (finish_alike _ _ _ _ _ _ _ _ _ _ uniquify RD) as (c1 & c2 & w1 & fr & fr' & X1 & _ & _ & X2 & _); rewrite E in X1; injection X1 as <- _; exact X2).
    set (ps := cs_set cs) in *. set (ps' := cs_set cs') in *. set (m := length (ps_motif ps)) in *.
    pose proof (rd_float _ _ _ _ _ _ _ _ _ _ RD) as FL. pose proof (rd_u _ _ _ _ _ _ _ _ _ _ RD) as Hu. pose proof (fl_u _ _ _ FL) as u0. pose proof (fl_eta _ _ _ FL) as e0. pose proof (rd_s _ _ _ _ _ _ _ _ _ _ RD) as Hs. pose proof (rd_dims _ _ _ _ _ _ _ _ _ _ RD) as Hd. pose proof (rd_eta_cell _ _ _ _ _ _ _ _ _ _ RD) as HeL.
    assert (H4 : (dims <= 4)%nat) by lia.
    assert (W0 : 0 <= w) by (eapply w_pos; eauto). assert (L0 : 0 <= cell_size cell) by (eapply size_pos; eauto).
    assert (HD' : distances_within dims (ps_motif ps) (ps_cell ps) (points_of ps) k D) by (rewrite ECe; exact HD).
    pose proof (points_length _ _ Wf) as PL. pose proof (wf_pos _ _ Wf) as WP. pose proof (F2_len _ _ _ _ _ NR) as LR. pose proof (F2_len _ _ _ _ _ RN) as LN.
    assert (Hmp : (1 <= m)%nat) by (apply INR_lt; exact (motif_pos dims ps Wf)). assert (M1 : 1 <= INR m) by (apply (le_INR 1); auto).
    assert (Lm : (length rows <= m)%nat).
    { rewrite <- LR, PL. unfold m. rewrite <- (wf_sum _ _ Wf). clear - WP. unfold list_sum. induction WP as [|c l Hc WP IH]; cbn in *; lia. }
    assert (Hr : forall i, (i < length rows)%nat -> length (nth i rows []) = S k /\ Forall (fun d => 0 <= d <= D) (nth i rows [])).
    { intros i Hi. pose proof (F2_nth _ _ _ _ _ [] [] NR i ltac:(lia)) as N1. cbv beta in N1. pose proof (HD' (nth i (points_of ps) []) (nth i rows []) ltac:(apply nth_In; lia) N1) as Y.
      destruct N1 as (ids & (Ln & _ & _ & En & _) & _). split; [rewrite En, map_length; auto|]. rewrite Forall_forall in *. intros d Hd'. split; [|apply Y; auto].
      rewrite En in Hd'. apply in_map_iff in Hd' as (a & <- & _). apply sqrt_pos. }
    assert (D0 : 0 <= D).
    { pose proof (points_nonempty _ _ Wf) as NE. assert (L1 : (0 < length rows)%nat) by (destruct (points_of ps); [congruence|cbn in LR; lia]). destruct (Hr 0%nat L1) as [Z1 Z2]. destruct (nth 0 rows []); [discriminate|]. inversion Z2; subst. lra. }
    set (L := cell_size cell) in *. set (c := 24 * (1 + 13 * L * w)). assert (LW : 0 <= L * w) by (apply Rmult_le_pos; auto). assert (c24 : 24 <= c) by (unfold c; lra).
    assert (SL : 0 <= (s + 3) * L) by (apply Rmult_le_pos; lra). assert (DS : 24 * (D + (s + 3) * L) <= c * (D + (s + 3) * L)) by (apply Rmult_le_compat_r; lra).
    assert (b0 : c * (D + (s + 3) * L) <= b) by exact Hb. assert (Lb : L <= b). { assert (3 * L <= (s + 3) * L) by (apply Rmult_le_compat_r; lra). lra. }
    assert (bp : 0 <= b) by lra.
    assert (He1 : eta <= u * b). { assert (u * L <= u * b) by (apply Rmult_le_compat_l; lra). assert (0 <= u * L) by (apply Rmult_le_pos; auto). fold L in HeL. lra. }
    assert (RN' : Forall2 (Forall2 (fun d e => Rabs (e - d) <= 100 * u * (d + b))) rows rows').
    { apply (F2_of_nth _ _ _ [] []); [auto|]. intros i Hi. destruct (Hr i Hi) as [Z1 Z2]. pose proof (F2_nth _ _ _ _ _ [] [] RN i ltac:(lia)) as R2. cbv beta in R2. clear - R2 Z2 u0 b0 c24 SL D0.
      induction R2 as [|d e l l' H R2 IH]; constructor; inversion Z2 as [|? ? Zd Z2']; subst; auto. unfold near_read in H. fold L in H. eapply Rle_trans; [exact H|].
      replace (100 * (24 * u * (1 + 13 * L * w)) * (d + (s + 3) * L)) with (100 * u * (c * (d + (s + 3) * L))) by (unfold c; ring). apply Rmult_le_compat_l; [lra|].
      assert (c * (d + (s + 3) * L) <= c * (D + (s + 3) * L)) by (apply Rmult_le_compat_l; lra). lra. }
    apply (pdd_of_rows ar u eta D M b dims ps ps' k rows rows' f0); auto. rewrite ECe. exact HC.
  Qed.
End ReadPdd.
