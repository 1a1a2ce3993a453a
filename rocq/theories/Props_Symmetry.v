(** Property C67: from the asymmetric unit of a crystal to its AMD and PDD. *)
From Coq Require Import List ZArith Arith Bool Lia Reals Lra Permutation Sorted.
From Verif Require Import Num Base Outcome NNModel Spec SpecGeom SpecSites SpecCalc SpecSymmetry NNProofs NNSpecProofs NNComplete Props_NN CalcModel CalcProofs CalcProofs2 Props_Calc CalcCanon Props_Inv Props_Geo
  SitesModel SitesProofs SitesExpand Props_Sites BlocksModel SpecBlocks BlocksProofs Props_Blocks SymmetryProofs.
Import ListNotations.
Open Scope R_scope.

Lemma expanded_nonempty : forall dims tol uniquify asym ops frac origin w, tol < 1 -> Forall (operation_ok dims) ops -> Forall (fun p => length p = dims) asym -> asym <> [] -> ops <> [] ->
  expand_asym_unit mod1 tol uniquify asym ops = Done (frac, origin, w) -> frac <> [].
Proof.
  intros dims tol uniquify asym ops frac origin w Ht HO HA Ha Ho X. destruct (expand_form tol asym ops uniquify frac origin w Ha X) as (K & EF & _ & HK).
  assert (L : (0 < length asym)%nat) by (destruct asym; [congruence|cbn; lia]).
  assert (K0 : K 0%nat = fresh tol asym ops 0).
  { destruct HK as [[H _]|[_ H]]; [apply H; auto|]. specialize (H 0%nat L). unfold keeps in H. unfold points in H at 1. cbn [seq flat_map] in H. rewrite H. clear H.
    induction (fresh tol asym ops 0) as [|v l IH]; auto. cbn. f_equal. exact IH. }
  pose proof (fresh_0 dims tol asym ops Ht HO HA 0 Ho L) as F0. rewrite <- K0 in F0. rewrite EF. unfold points. destruct (length asym) as [|m]; [lia|]. cbn [seq flat_map].
  destruct (K 0%nat) as [|v l]; [destruct F0|]. discriminate.
Qed.

Section Crystal.
  Variables (dims : nat) (tol : R) (uniquify : bool) (cell asym : list (list R)) (types : list nat) (ops : list operation) (cs : crystal_set (T := R)).
  Variables (frac : list (list R)) (origin which starts mult : list nat).
  Hypothesis Hdims : (1 <= dims)%nat.
  Hypothesis Htol : 0 <= tol < 1.
  Hypothesis Hops0 : ops <> [].
  Hypothesis Hops : Forall (operation_ok dims) ops.
  Hypothesis Hasym0 : asym <> [].
  Hypothesis Hasym : Forall (fun p => length p = dims) asym.
  Hypothesis Hcell : length cell = dims.
  Hypothesis Hcells : Forall (fun r => length r = dims) cell.
  Hypothesis CV : converted dims tol uniquify cell asym types ops cs frac origin which starts mult.

  (** Every set returned is well formed: a motif in the cell, positions in it, and multiplicities which add up. *)
  Lemma crystal_wf : frac <> [] -> pset_wf dims (cs_set cs) /\ Forall (in_cell dims cell) (ps_motif (cs_set cs)) /\ ps_cell (cs_set cs) = cell.
  Proof.
    intros NE.
    destruct CV as [C1 C2 C3 C4 C5 C6 _ _ _ _]. pose proof (ex_unit _ _ _ _ _ _ _ C5) as EU. pose proof (ex_origin _ _ _ _ _ _ _ C5) as EO. destruct C6 as [R1 R2 R3 R4 R5].
    split; [|split; [|auto]].
    - constructor; unfold positions_of, counts_of; rewrite ?C3, ?C4; auto.
      + constructor; auto; rewrite ?C1; auto; rewrite C2; [destruct frac; [congruence|discriminate]|]. apply Forall_forall. intros p Hp. apply in_map_iff in Hp. destruct Hp as (f & <- & _). unfold cartesian. rewrite map_length, seq_length. auto.
      + rewrite C2, map_length, <- EO. apply Forall_forall. intros s Hs. apply (In_nth _ _ 0%nat) in Hs. destruct Hs as (a & Ha & <-). apply R2. auto.
      + apply Forall_forall. intros c Hc. apply (In_nth _ _ 0%nat) in Hc. destruct Hc as (a & Ha & <-). apply R2. lia.
      + rewrite C2, map_length, <- EO. exact R5.
    - rewrite C2. apply Forall_forall. intros p Hp. apply in_map_iff in Hp. destruct Hp as (f & <- & Hf). rewrite Forall_forall in EU. destruct (EU f Hf) as [E1 E2].
      exists f. split; auto. split; auto. unfold cartesian. rewrite Hcell. auto.
  Qed.

  Hypothesis Hsym : symmetry_group dims cell ops.
  Hypothesis Hsep : separated tol asym ops.

  Lemma separated_transitive : transitive_images tol asym ops.
  Proof. intros p q r g h k Hp Hq Hr Hg Hh Hk C1 C2. apply same_close; [apply Htol|]. apply (same_trans _ (affine h q)); apply Hsep; auto. Qed.

  Lemma crystal_nonempty : frac <> [].
  Proof.
    pose proof (cv_represented _ _ _ _ _ _ _ _ _ _ _ _ _ CV separated_transitive 0%nat 0%nat) as Q.
    destruct Q as (k & Hk & _); [destruct asym; [congruence|cbn; lia]|destruct ops; [congruence|cbn; lia]|]. destruct frac; [cbn in Hk; lia|discriminate].
  Qed.

  (** Motif points from one site have the same surroundings. *)
  Lemma crystal_surroundings : exists rep,
    (forall i, (i < length (ps_motif (cs_set cs)))%nat -> (rep i < length starts)%nat /\ same_surroundings dims (ps_motif (cs_set cs)) cell i (nth (rep i) starts 0%nat)) /\
    (forall a, (a < length starts)%nat -> nth a mult 0%nat = count_occ Nat.eq_dec (map rep (seq 0 (length (ps_motif (cs_set cs))))) a).
  Proof.
    destruct CV as [C1 C2 C3 C4 C5 C6 _ AP RP _]. specialize (RP separated_transitive). pose proof (ex_unit _ _ _ _ _ _ _ C5) as EU. pose proof (ex_origin _ _ _ _ _ _ _ C5) as EO. pose proof (ex_range _ _ _ _ _ _ _ C5) as ER. pose proof (ex_image _ _ _ _ _ _ _ C5) as EI.
    destruct (runs_rep _ _ _ C6) as (rep & H1 & H2). exists rep. rewrite C2, map_length, <- EO. split; [|exact H2].
    intros i Hi. destruct (H1 i Hi) as (A1 & A2 & A3). split; auto. set (j := nth (rep i) starts 0%nat) in *. rewrite EO in Hi, A3. clear H1 H2.
    destruct Hsym as [_ _ SI SC SV SM]. assert (OK : forall g, In g ops -> operation_ok dims g) by (rewrite <- Forall_forall; auto).
    assert (UL : forall k, (k < length frac)%nat -> length (nth k frac []) = dims) by (intros k Hk; rewrite Forall_forall in EU; apply EU, nth_In; auto).
    assert (AL : forall k, (k < length asym)%nat -> length (nth k asym []) = dims) by (intros k Hk; rewrite Forall_forall in Hasym; apply Hasym, nth_In; auto).
    assert (OI : forall w, (w < length ops)%nat -> In (nth w ops ([], [])) ops) by (intros; apply nth_In; auto).
    (* an operation followed by lattice translations maps the set to itself *)
    set (tag := fun k => if uniquify then 0%nat else nth k origin 0%nat).
    assert (IMG : forall g, In g ops -> forall k, (k < length frac)%nat -> exists k', (k' < length frac)%nat /\ tag k' = tag k /\ same_mod1 (nth k' frac []) (affine g (nth k frac []))).
    { intros g Hg k Hk. destruct (ER k Hk) as [E1 E2]. pose proof (EI k Hk) as E3. set (h := nth (nth k which 0%nat) ops ([], [])) in *. assert (Hh : In h ops) by (apply OI; auto). set (s := nth (nth k origin 0%nat) asym []) in *. assert (Ls : length s = dims) by (apply AL; auto).
      destruct (SC g h Hg Hh) as (m & z & Hm & Lz & Em). destruct (In_nth _ _ ([], []) Hm) as (w & Hw & Ew). destruct (RP (nth k origin 0%nat) w E1 Hw) as (k' & K1 & K2 & K3 & K4). assert (K5 : close_mod1 tol (nth k' frac []) (affine m s)) by (rewrite <- Ew; exact K4).
      exists k'. split; auto. split; [unfold tag; destruct uniquify; auto|].
      assert (S1 : same_mod1 (nth k' frac []) (affine m s)).
      { destruct (ER k' K1) as [F1 F2]. pose proof (EI k' K1) as F3. apply (same_trans _ _ _ F3). apply Hsep; auto; [apply nth_In; auto|apply nth_In; auto|]. apply (close_same_l _ _ _ _ F3). auto. }
      apply (same_trans _ _ _ S1). destruct (same_shifted _ _ E3) as (y & Ly & Ey). rewrite Ey. destruct (affine_shifted dims g y (OK g Hg)) as (y' & Ly' & Ey'); [intros; apply SI; auto|rewrite Ly; apply UL; auto|].
      rewrite Ey' by (rewrite affine_length; auto). apply same_sym. eapply same_trans; [apply shifted_same|]. rewrite Em by auto. apply shifted_same. }
    assert (UQ : forall k k', (k < length frac)%nat -> (k' < length frac)%nat -> tag k = tag k' -> same_mod1 (nth k frac []) (nth k' frac []) -> k = k').
    { assert (UQ' : forall k k', (k < k' < length frac)%nat -> tag k = tag k' -> same_mod1 (nth k frac []) (nth k' frac []) -> False).
      { intros k k' Hk Ht S. apply (AP k k' Hk); [|apply same_close; [apply Htol|auto]]. unfold tag in Ht. destruct uniquify; auto. }
      intros k k' Hk Hk' Ht S. destruct (Nat.lt_trichotomy k k') as [L|[L|L]]; auto; exfalso; [apply (UQ' k k'); auto|apply (UQ' k' k); auto; apply same_sym; auto]. }
    (* the operation from point i to point j *)
    destruct (ER i Hi) as [I1 I2]. destruct (ER j A3) as [J1 J2]. pose proof (EI i Hi) as I3. pose proof (EI j A3) as J3. rewrite <- A2 in J3. set (s := nth (nth i origin 0%nat) asym []) in *. assert (Ls : length s = dims) by (apply AL; auto).
    set (gi := nth (nth i which 0%nat) ops ([], [])) in *. set (gj := nth (nth j which 0%nat) ops ([], [])) in *. assert (Hgi : In gi ops) by (apply OI; auto). assert (Hgj : In gj ops) by (apply OI; auto).
    destruct (SV gi Hgi) as (hi & zi & zi' & Hhi & Lzi & Lzi' & Ehi). destruct (SC gj hi Hgj Hhi) as (g & zg & Hg & Lzg & Eg).
    assert (GIJ : same_mod1 (affine g (nth i frac [])) (nth j frac [])).
    { destruct (same_shifted _ _ I3) as (y & Ly & Ey). rewrite UL in Ly by auto. assert (LF : length (nth i frac []) = dims) by auto.
      apply (same_trans _ (affine gj (affine hi (nth i frac [])))); [rewrite Eg by auto; apply same_sym, shifted_same|]. rewrite Ey.
      destruct (affine_shifted dims hi y (OK hi Hhi) (fun a b => SI hi a b Hhi) Ly) as (y1 & L1 & E1). rewrite E1 by (rewrite affine_length; auto). destruct (Ehi s Ls) as [E2 _]. rewrite E2. rewrite (shifted_add dims) by auto.
      destruct (affine_shifted dims gj (zadd dims y1 zi) (OK gj Hgj) (fun a b => SI gj a b Hgj)) as (y2 & L2 & E3); [unfold zadd; rewrite map_length, seq_length; auto|]. rewrite E3 by auto.
      eapply same_trans; [apply shifted_same|]. apply same_sym. exact J3. }
    destruct (same_shifted _ _ GIJ) as (l0 & Ll0 & El0). rewrite affine_length, UL in Ll0 by auto.
    destruct (SV g Hg) as (h & z & z' & Hh & Lz & Lz' & Eh).
    set (G := fun p => shifted (zneg dims l0) (affine g p)). set (H := fun p => shifted (zneg dims z) (affine h (shifted l0 p))).
    assert (GL : forall p, length p = dims -> length (G p) = dims) by (intros p Hp; unfold G; rewrite shifted_length, affine_length; auto).
    assert (HL : forall p, length p = dims -> length (H p) = dims) by (intros p Hp; unfold H; rewrite shifted_length, affine_length, shifted_length; auto).
    assert (HG : forall p, length p = dims -> H (G p) = p).
    { intros p Hp. unfold H, G. rewrite neg_shifted by (rewrite affine_length; auto). destruct (Eh p Hp) as [E _]. rewrite E. apply shifted_neg; auto. }
    assert (GH : forall p, length p = dims -> G (H p) = p).
    { (* both sides differ by a constant, which is zero *)
      assert (CONST : exists c, length c = dims /\ forall p, length p = dims -> G (H p) = shifted c p).
      { destruct (affine_shifted dims g (zneg dims z) (OK g Hg) (fun a b => SI g a b Hg)) as (m & Lm & Em); [unfold zneg; rewrite map_length, seq_length; auto|].
        exists (zadd dims (zadd dims (zadd dims (zneg dims l0) m) z') l0). split; [unfold zadd; rewrite map_length, seq_length; auto|]. intros p Hp. unfold G, H. rewrite Em by (rewrite affine_length, shifted_length; auto).
        destruct (Eh (shifted l0 p)) as [_ E]; [rewrite shifted_length; auto|]. rewrite E. rewrite !(shifted_add dims) by (rewrite ?shifted_length; auto). auto. }
      destruct CONST as (c & Lc & Ec). intros p Hp. rewrite Ec by auto. pose proof (Ec (G p) (GL p Hp)) as E0. rewrite HG in E0 by auto.
      assert (C0 : c = zadd dims c (zneg dims c)).
      { apply (shifted_inj _ _ (G p)); [rewrite (GL p Hp); auto|unfold zadd; rewrite map_length, seq_length, (GL p Hp); auto|]. rewrite <- (shifted_add dims) by (apply GL; auto). rewrite neg_shifted by (apply GL; auto). symmetry. exact E0. }
      rewrite C0, <- (shifted_add dims) by auto. apply neg_shifted. auto. }
    apply (surroundings dims cell frac tag G H i j); auto.
    - intros p q Hp Hq. unfold G.
      assert (T : forall u v, length u = dims -> length v = dims -> edist (cartesian cell (shifted (zneg dims l0) u)) (cartesian cell (shifted (zneg dims l0) v)) = edist (cartesian cell u) (cartesian cell v)).
      { intros u v Hu Hv. unfold edist. f_equal. unfold cartesian. assert (Q : forall n st, sq_dist (map (comb_coord cell (shifted (zneg dims l0) u)) (seq st n)) (map (comb_coord cell (shifted (zneg dims l0) v)) (seq st n)) = sq_dist (map (comb_coord cell u) (seq st n)) (map (comb_coord cell v) (seq st n))); [|apply Q].
        induction n as [|n IH]; intros st; auto. cbn [seq map sq_dist]. rewrite IH. rewrite !comb_shifted by congruence. f_equal. ring. }
      rewrite T by (rewrite affine_length; auto). apply SM; auto.
    - intros k l Hk Hl. destruct (IMG g Hg k Hk) as (k' & K1 & K2 & K3). exists k'. split; auto. split; auto. unfold G. destruct (affine_shifted dims g l (OK g Hg) (fun a b => SI g a b Hg) Hl) as (m & Lm & Em). rewrite Em by auto.
      apply (same_trans _ _ _ K3). apply same_sym. eapply same_trans; [apply shifted_same|apply shifted_same].
    - intros k l Hk Hl. destruct (IMG h Hh k Hk) as (k' & K1 & K2 & K3). exists k'. split; auto. split; auto. unfold H. rewrite (shifted_add dims) by auto. destruct (affine_shifted dims h (zadd dims l0 l) (OK h Hh) (fun a b => SI h a b Hh)) as (m & Lm & Em); [unfold zadd; rewrite map_length, seq_length; auto|]. rewrite Em by auto.
      apply (same_trans _ _ _ K3). apply same_sym. eapply same_trans; [apply shifted_same|apply shifted_same].
    - unfold G. rewrite El0. apply shifted_neg. auto.
  Qed.
End Crystal.

(** ** C67 *)

(** Every set returned by the expansion of an asymmetric unit is well formed, whatever the operations: so what is
    proved of AMD and PDD of well formed sets holds of it; on a cell with volume AMD returns. *)
Theorem C67_wf : forall dims tol uniquify cell asym types ops cs warn, (1 <= dims)%nat -> 0 <= tol < 1 -> ops <> [] -> Forall (operation_ok dims) ops ->
  asym <> [] -> Forall (fun p => length p = dims) asym -> length cell = dims -> Forall (fun r => length r = dims) cell ->
  finish mod1 tol uniquify cell asym types ops = Done (cs, warn) ->
  pset_wf dims (cs_set cs) /\ Forall (in_cell dims cell) (ps_motif (cs_set cs)) /\ ps_cell (cs_set cs) = cell /\
  (nonsingular dims cell -> forall k, exists a fuel0, forall fuel, (fuel0 <= fuel)%nat -> AMD fuel (cs_set cs) k = Done a).
Proof.
  intros dims tol uniquify cell asym types ops cs warn Hd Ht Ho Hops Ha Hasym Hc Hcs Hrun.
  destruct (C46_expansion dims tol uniquify cell asym types ops cs warn Ht Ho Hops Ha Hasym Hc Hrun) as (frac & origin & which & starts & mult & CV).
  assert (NE : frac <> []).
  { pose proof (cv_motif _ _ _ _ _ _ _ _ _ _ _ _ _ CV) as CM. unfold finish in Hrun. destruct (expand_asym_unit mod1 tol uniquify asym ops) as [[[f o] w]| | |] eqn:X; try discriminate. cbn [obind] in Hrun. destruct (np_unique_counts o) as [vs ms]. destruct (take types o); try discriminate. cbn [obind] in Hrun.
    injection Hrun as <- _. cbn in CM. apply (expanded_nonempty dims) in X; auto; [|apply Ht]. intros ->. destruct f; [congruence|discriminate]. }
  destruct (crystal_wf dims tol uniquify cell asym types ops cs frac origin which starts mult Hd Hc Hcs CV NE) as (W & I & E).
  split; auto. split; auto. split; auto. intros NS k. destruct (C13_amd_total dims (cs_set cs) k W) as (a & f0 & H); [rewrite E; auto|].
  exists a, f0. intros fuel Hf. apply H. auto.
Qed.

Definition all_motif (ps : pset R) : pset R := {| ps_motif := ps_motif ps; ps_cell := ps_cell ps; ps_asym := None; ps_mult := None |}.

Section Whole.
  Variables (dims : nat) (tol : R) (uniquify : bool) (cell asym : list (list R)) (types : list nat) (ops : list operation) (cs : crystal_set (T := R)).
  Variables (frac : list (list R)) (origin which starts mult : list nat).
  Hypothesis H4 : (dims <= 4)%nat.
  Hypothesis Htol : 0 <= tol < 1.
  Hypothesis HC : crystal dims tol cell asym ops.
  Hypothesis Hdom : half_dominant dims cell.
  Hypothesis CV : converted dims tol uniquify cell asym types ops cs frac origin which starts mult.

  Lemma whole_facts : frac <> [] /\ pset_wf dims (cs_set cs) /\ Forall (in_cell dims cell) (ps_motif (cs_set cs)) /\ cs_set cs = with_asym (ps_motif (cs_set cs)) cell starts mult /\
    all_motif (cs_set cs) = whole_motif (ps_motif (cs_set cs)) cell /\ pset_ok dims (ps_motif (cs_set cs)) cell.
  Proof.
    destruct HC as [D1 D2 D3 D4 D5 D6 D7 D8]. assert (NE : frac <> []) by (eapply (crystal_nonempty dims tol uniquify cell asym types ops cs frac origin which starts mult); eauto; [eapply sg_some; eauto|eapply sg_ok; eauto]).
    destruct (crystal_wf dims tol uniquify cell asym types ops cs frac origin which starts mult D1 D2 D3 CV NE) as (W & I & E).
    split; auto. split; auto. split; auto. pose proof (cv_asym _ _ _ _ _ _ _ _ _ _ _ _ _ CV) as EA. pose proof (cv_mult _ _ _ _ _ _ _ _ _ _ _ _ _ CV) as EM.
    pose proof (wf_ok _ _ W) as OK. unfold all_motif. destruct (cs_set cs) as [m c a u]. cbn in *. unfold with_asym, whole_motif. rewrite E in *. rewrite EA, EM. auto.
  Qed.

  Lemma whole_amd : forall fuel fuel' k a a', AMD fuel (all_motif (cs_set cs)) k = Done a -> AMD fuel' (cs_set cs) k = Done a' -> a = a'.
  Proof.
    intros fuel fuel' k a a' E1 E2. destruct whole_facts as (_ & W & I & EW & EA & OK). apply (in_cell_spread _ _ _ Hdom) in I. destruct HC as [D1 D2 D3 D4 D5 D6 D7 D8].
    destruct (crystal_surroundings dims tol uniquify cell asym types ops cs frac origin which starts mult Htol (sg_ok _ _ _ D7) D6 D2 CV D7 D8) as (rep & R1 & R2).
    rewrite EW in W, E2. rewrite EA in E1. eapply C21_asym_amd; eauto.
  Qed.
  Lemma whole_pdd_weights : forall fuel fuel' k lexsort lexsort' t pdd g pdd' g' r,
    PDD fuel (all_motif (cs_set cs)) k lexsort false t = Done (pdd, g) -> PDD fuel' (cs_set cs) k lexsort' false t = Done (pdd', g') -> row_weight pdd r = row_weight pdd' r.
  Proof.
    intros fuel fuel' k lx lx' t pdd g pdd' g' r E1 E2. destruct whole_facts as (_ & W & I & EW & EA & OK). apply (in_cell_spread _ _ _ Hdom) in I. destruct HC as [D1 D2 D3 D4 D5 D6 D7 D8].
    destruct (crystal_surroundings dims tol uniquify cell asym types ops cs frac origin which starts mult Htol (sg_ok _ _ _ D7) D6 D2 CV D7 D8) as (rep & R1 & R2).
    rewrite EW in W, E2. rewrite EA in E1. eapply C21_asym_pdd_weights; eauto.
  Qed.
  Lemma whole_pdd : forall fuel fuel' k t pdd g pdd' g' full idx, 0 <= t ->
    PDD fuel (all_motif (cs_set cs)) k true true t = Done (pdd, g) -> PDD fuel' (cs_set cs) k true true t = Done (pdd', g') ->
    PDD fuel (all_motif (cs_set cs)) k false false t = Done (full, idx) ->
    (forall u v, In u (map snd full) -> In v (map snd full) -> close_rows t u v -> u = v) -> pdd = pdd'.
  Proof.
    intros fuel fuel' k t pdd g pdd' g' full idx Ht E1 E2 E3 HS. destruct whole_facts as (_ & W & I & EW & EA & OK). apply (in_cell_spread _ _ _ Hdom) in I. destruct HC as [D1 D2 D3 D4 D5 D6 D7 D8].
    destruct (crystal_surroundings dims tol uniquify cell asym types ops cs frac origin which starts mult Htol (sg_ok _ _ _ D7) D6 D2 CV D7 D8) as (rep & R1 & R2).
    rewrite EW in W, E2. rewrite EA in E1, E3. eapply C21_asym_pdd; eauto.
  Qed.
End Whole.

(** The asymmetric unit with its multiplicities gives what the whole motif gives: AMD, the weight of every row of
    the uncollapsed PDD, and the collapsed lexicographically sorted PDD when rows within its tolerance are equal. *)
Theorem C67_amd : forall dims tol uniquify cell asym types ops cs warn fuel fuel' k a a', (dims <= 4)%nat -> 0 <= tol < 1 -> crystal dims tol cell asym ops -> half_dominant dims cell ->
  finish mod1 tol uniquify cell asym types ops = Done (cs, warn) ->
  AMD fuel (cs_set cs) k = Done a -> AMD fuel' (all_motif (cs_set cs)) k = Done a' -> a = a'.
Proof.
  intros dims tol uniquify cell asym types ops cs warn fuel fuel' k a a' H4 Ht HC HD HR E1 E2. destruct HC as [D1 D2 D3 D4 D5 D6 D7 D8] eqn:Q. clear Q.
  destruct (C46_expansion dims tol uniquify cell asym types ops cs warn Ht (sg_some _ _ _ D7) (sg_ok _ _ _ D7) D5 D6 D2 HR) as (frac & origin & which & starts & mult & CV).
  symmetry. eapply (whole_amd dims tol uniquify cell asym types ops cs); eauto.
Qed.
Theorem C67_pdd : forall dims tol uniquify cell asym types ops cs warn, (dims <= 4)%nat -> 0 <= tol < 1 -> crystal dims tol cell asym ops -> half_dominant dims cell ->
  finish mod1 tol uniquify cell asym types ops = Done (cs, warn) ->
  (forall fuel fuel' k lexsort lexsort' t pdd g pdd' g' r,
    PDD fuel (cs_set cs) k lexsort false t = Done (pdd, g) -> PDD fuel' (all_motif (cs_set cs)) k lexsort' false t = Done (pdd', g') -> row_weight pdd r = row_weight pdd' r) /\
  (forall fuel fuel' k t pdd g pdd' g' full idx, 0 <= t ->
    PDD fuel (cs_set cs) k true true t = Done (pdd, g) -> PDD fuel' (all_motif (cs_set cs)) k true true t = Done (pdd', g') ->
    PDD fuel' (all_motif (cs_set cs)) k false false t = Done (full, idx) ->
    (forall u v, In u (map snd full) -> In v (map snd full) -> close_rows t u v -> u = v) -> pdd = pdd').
Proof.
  intros dims tol uniquify cell asym types ops cs warn H4 Ht HC HD HR. destruct HC as [D1 D2 D3 D4 D5 D6 D7 D8] eqn:Q. clear Q.
  destruct (C46_expansion dims tol uniquify cell asym types ops cs warn Ht (sg_some _ _ _ D7) (sg_ok _ _ _ D7) D5 D6 D2 HR) as (frac & origin & which & starts & mult & CV). split; intros.
  - symmetry. eapply (whole_pdd_weights dims tol uniquify cell asym types ops cs); eauto.
  - symmetry. eapply (whole_pdd dims tol uniquify cell asym types ops cs); eauto.
Qed.

Lemma expanded_NoDup : forall dims tol uniquify cell asym types ops cs frac origin which starts mult, 0 <= tol -> Forall (fun p => length p = dims) asym ->
  uniquify = true \/ disjoint_orbits tol asym ops -> converted dims tol uniquify cell asym types ops cs frac origin which starts mult -> NoDup frac.
Proof.
  intros dims tol uniquify cell asym types ops cs frac origin which starts mult Ht HA HU CV. apply (NoDup_nth frac []).
  assert (Q : forall k l, (k < l < length frac)%nat -> nth k frac [] <> nth l frac []).
  { intros k l Hkl E. pose proof (cv_apart _ _ _ _ _ _ _ _ _ _ _ _ _ CV k l Hkl) as AP. assert (C : close_mod1 tol (nth k frac []) (nth l frac [])) by (rewrite E; apply close_refl; auto).
    destruct HU as [->|HU]; [apply AP; auto|]. destruct (Nat.eq_dec (nth k origin 0%nat) (nth l origin 0%nat)) as [EO|NO]; [apply AP; auto|].
    destruct (cv_points _ _ _ _ _ _ _ _ _ _ _ _ _ CV) as [_ _ _ ER EI _ _]. destruct (ER k ltac:(lia)) as [R1 R2]. destruct (ER l ltac:(lia)) as [R3 R4]. pose proof (EI k ltac:(lia)) as I1. pose proof (EI l ltac:(lia)) as I2. rewrite E in I1.
    assert (S : same_mod1 (affine (nth (nth k which 0%nat) ops ([], [])) (nth (nth k origin 0%nat) asym [])) (affine (nth (nth l which 0%nat) ops ([], [])) (nth (nth l origin 0%nat) asym []))) by (eapply same_trans; [apply same_sym, I1|exact I2]).
    destruct (Nat.lt_gt_cases (nth k origin 0%nat) (nth l origin 0%nat)) as [O _]. destruct (O NO) as [L|L].
    - eapply (HU (nth k origin 0%nat) (nth l origin 0%nat)); [split; [exact L|auto]|apply (nth_In ops ([], []) R2)|apply (nth_In ops ([], []) R4)|]. apply same_close; auto.
    - eapply (HU (nth l origin 0%nat) (nth k origin 0%nat)); [split; [exact L|auto]|apply (nth_In ops ([], []) R4)|apply (nth_In ops ([], []) R2)|]. apply same_close; auto. apply same_sym. auto. }
  intros k l Hk Hl E. destruct (Nat.lt_trichotomy k l) as [L|[L|L]]; auto; exfalso; [apply (Q k l); auto|apply (Q l k); auto].
Qed.

Lemma expanded_incl : forall dims tol u u' cell asym asym' types types' ops ops' cs cs' frac frac' origin origin' which which' starts starts' mult mult',
  0 <= tol < 1 -> crystal dims tol cell asym' ops' -> covered asym ops asym' ops' ->
  converted dims tol u cell asym types ops cs frac origin which starts mult -> converted dims tol u' cell asym' types' ops' cs' frac' origin' which' starts' mult' -> incl frac frac'.
Proof.
  intros dims tol u u' cell asym asym' types types' ops ops' cs cs' frac frac' origin origin' which which' starts starts' mult mult' Ht HC HV CV CV' f Hf.
  destruct (In_nth _ _ [] Hf) as (k & Hk & <-). destruct (cv_points _ _ _ _ _ _ _ _ _ _ _ _ _ CV) as [_ _ EU ER EI _ _]. destruct (cv_points _ _ _ _ _ _ _ _ _ _ _ _ _ CV') as [_ _ EU' ER' EI' _ _].
  destruct (ER k Hk) as [R1 R2]. destruct (HV (nth (nth k origin 0%nat) asym []) (nth (nth k which 0%nat) ops ([], []))) as (q & h & Hq & Hh & S); [apply nth_In; auto|apply (nth_In ops ([], []) R2)|].
  destruct (In_nth _ _ [] Hq) as (i & Hi & Ei). destruct (In_nth _ _ ([], []) Hh) as (w & Hw & Ew).
  destruct (cv_represented _ _ _ _ _ _ _ _ _ _ _ _ _ CV' (separated_transitive tol asym' ops' Ht (cr_separated _ _ _ _ _ HC)) i w Hi Hw) as (k' & K1 & _ & _ & K4).
  assert (K5 : close_mod1 tol (nth k' frac' []) (affine h q)) by (rewrite <- Ew, <- Ei; exact K4). destruct (ER' k' K1) as [F1 F2]. pose proof (EI' k' K1) as F3.
  assert (S1 : same_mod1 (nth k' frac' []) (affine h q)).
  { apply (same_trans _ _ _ F3). apply (cr_separated _ _ _ _ _ HC); auto; [apply nth_In; auto|apply (nth_In ops' ([], []) F2)|]. apply (close_same_l _ _ _ _ F3). auto. }
  replace (nth k frac []) with (nth k' frac' []); [apply nth_In; auto|]. rewrite Forall_forall in EU, EU'. apply unit_unique; [apply EU', nth_In; auto|apply EU, nth_In; auto|].
  apply (same_trans _ _ _ S1). apply same_sym. apply (same_trans _ _ _ (EI k Hk)). exact S.
Qed.

(** Two conversions of descriptions of one crystal. *)
Lemma same_conversions : forall dims tol u u' cell asym asym' types types' ops ops' cs cs' frac frac' origin origin' which which' starts starts' mult mult',
  (dims <= 4)%nat -> 0 <= tol < 1 -> half_dominant dims cell -> crystal dims tol cell asym ops -> crystal dims tol cell asym' ops' ->
  covered asym ops asym' ops' -> covered asym' ops' asym ops -> u = true \/ disjoint_orbits tol asym ops -> u' = true \/ disjoint_orbits tol asym' ops' ->
  converted dims tol u cell asym types ops cs frac origin which starts mult -> converted dims tol u' cell asym' types' ops' cs' frac' origin' which' starts' mult' ->
  Permutation (ps_motif (cs_set cs)) (ps_motif (cs_set cs')) /\
  (forall fuel fuel' k a a', AMD fuel (cs_set cs) k = Done a -> AMD fuel' (cs_set cs') k = Done a' -> a = a') /\
  (forall fuel fuel' k lexsort lexsort' t pdd g pdd' g' r,
    PDD fuel (cs_set cs) k lexsort false t = Done (pdd, g) -> PDD fuel' (cs_set cs') k lexsort' false t = Done (pdd', g') -> row_weight pdd r = row_weight pdd' r).
Proof.
  intros dims tol u u' cell asym asym' types types' ops ops' cs cs' frac frac' origin origin' which which' starts starts' mult mult' H4 Ht HD HC HC' V V' U U' CV CV'.
  assert (P : Permutation frac frac').
  { apply NoDup_Permutation.
    - exact (expanded_NoDup _ _ _ _ _ _ _ _ _ _ _ _ _ (proj1 Ht) (cr_sites _ _ _ _ _ HC) U CV).
    - exact (expanded_NoDup _ _ _ _ _ _ _ _ _ _ _ _ _ (proj1 Ht) (cr_sites _ _ _ _ _ HC') U' CV').
    - intros f. split; intros Hf; [exact (expanded_incl _ _ _ _ _ _ _ _ _ _ _ _ _ _ _ _ _ _ _ _ _ _ _ Ht HC' V CV CV' f Hf)|exact (expanded_incl _ _ _ _ _ _ _ _ _ _ _ _ _ _ _ _ _ _ _ _ _ _ _ Ht HC V' CV' CV f Hf)]. }
  assert (PM : Permutation (ps_motif (cs_set cs)) (ps_motif (cs_set cs'))).
  { rewrite (cv_motif _ _ _ _ _ _ _ _ _ _ _ _ _ CV), (cv_motif _ _ _ _ _ _ _ _ _ _ _ _ _ CV'). apply Permutation_map. auto. }
  split; auto. destruct (whole_facts dims tol u cell asym types ops cs frac origin which starts mult Ht HC CV) as (_ & W & I & EW & EA & OK).
  destruct (whole_facts dims tol u' cell asym' types' ops' cs' frac' origin' which' starts' mult' Ht HC' CV') as (_ & W' & I' & EW' & EA' & OK').
  assert (SAME : forall fuel k, AMD fuel (all_motif (cs_set cs)) k = AMD fuel (all_motif (cs_set cs')) k).
  { intros fuel k. rewrite EA, EA'. unfold whole_motif. apply (C12_amd_reordering dims); auto. }
  split.
  - intros fuel fuel' k a a' E E'. destruct (C13_amd_total dims (all_motif (cs_set cs)) k) as (b & f0 & H); [rewrite EA; apply pset_wf_no_asym; auto|rewrite EA; apply HC|].
    assert (B : AMD f0 (all_motif (cs_set cs)) k = Done b) by (apply H; auto). assert (B' : AMD f0 (all_motif (cs_set cs')) k = Done b) by (rewrite <- SAME; auto).
    transitivity b; [symmetry; eapply (whole_amd dims tol u cell asym types ops cs); eauto|eapply (whole_amd dims tol u' cell asym' types' ops' cs'); eauto].
  - intros fuel fuel' k lx lx' t pdd g pdd' g' r E E'.
    assert (B : exists f0 p q, PDD f0 (all_motif (cs_set cs)) k true false t = Done (p, q)).
    { assert (WA : pset_wf dims (whole_motif (ps_motif (cs_set cs)) cell)) by (apply pset_wf_no_asym; auto).
      destruct (C09_terminates dims (ps_motif (cs_set cs)) cell (points_of (whole_motif (ps_motif (cs_set cs)) cell)) k OK (cr_volume _ _ _ _ _ HC) (points_incl _ _ WA) (points_nonempty _ _ WA)) as (rows & f0 & H).
      exists f0. rewrite EA, (PDD_run dims _ WA). cbn [whole_motif ps_motif ps_cell]. destruct (H f0) as [H1 _]. rewrite H1 by auto. cbn [obind].
      destruct (assemble (collapse_rows (weights_of (whole_motif (ps_motif (cs_set cs)) cell)) (map (tl (A:=R)) rows) false t) true) as [p q]. exists p, q. auto. }
    destruct B as (f0 & p & q & B). pose proof B as B2. rewrite EA in B2. destruct (C12_pdd_reordering dims _ _ _ _ _ _ _ _ _ OK PM B2) as (p' & q' & B' & _ & EP). rewrite <- (EP eq_refl) in B'.
    change (PDD f0 (whole_motif (ps_motif (cs_set cs')) cell) k true false t = Done (p, q')) in B'. rewrite <- EA' in B'.
    transitivity (row_weight p r); [symmetry; eapply (whole_pdd_weights dims tol u cell asym types ops cs); eauto|eapply (whole_pdd_weights dims tol u' cell asym' types' ops' cs'); eauto].
Qed.

(** The result does not depend on how the crystal is described: its symmetry group with few sites, a subgroup
    with more, or all sites and the identity. *)
Theorem C67_description : forall dims tol u u' cell asym asym' types types' ops ops' cs cs' warn warn',
  (dims <= 4)%nat -> 0 <= tol < 1 -> half_dominant dims cell -> crystal dims tol cell asym ops -> crystal dims tol cell asym' ops' ->
  covered asym ops asym' ops' -> covered asym' ops' asym ops -> u = true \/ disjoint_orbits tol asym ops -> u' = true \/ disjoint_orbits tol asym' ops' ->
  finish mod1 tol u cell asym types ops = Done (cs, warn) -> finish mod1 tol u' cell asym' types' ops' = Done (cs', warn') ->
  Permutation (ps_motif (cs_set cs)) (ps_motif (cs_set cs')) /\
  (forall fuel fuel' k a a', AMD fuel (cs_set cs) k = Done a -> AMD fuel' (cs_set cs') k = Done a' -> a = a') /\
  (forall fuel fuel' k lexsort lexsort' t pdd g pdd' g' r,
    PDD fuel (cs_set cs) k lexsort false t = Done (pdd, g) -> PDD fuel' (cs_set cs') k lexsort' false t = Done (pdd', g') -> row_weight pdd r = row_weight pdd' r).
Proof.
  intros dims tol u u' cell asym asym' types types' ops ops' cs cs' warn warn' H4 Ht HD HC HC' V V' U U' E E'.
  destruct HC as [D1 D2 D3 D4 D5 D6 D7 D8] eqn:Q. clear Q. destruct HC' as [F1 F2 F3 F4 F5 F6 F7 F8] eqn:Q. clear Q.
  destruct (C46_expansion dims tol u cell asym types ops cs warn Ht (sg_some _ _ _ D7) (sg_ok _ _ _ D7) D5 D6 D2 E) as (frac & origin & which & starts & mult & CV).
  destruct (C46_expansion dims tol u' cell asym' types' ops' cs' warn' Ht (sg_some _ _ _ F7) (sg_ok _ _ _ F7) F5 F6 F2 E') as (frac' & origin' & which' & starts' & mult' & CV').
  exact (same_conversions dims tol u u' cell asym asym' types types' ops ops' cs cs' frac frac' origin origin' which which' starts starts' mult mult' H4 Ht HD HC HC' V V' U U' CV CV').
Qed.

(** *** The converters *)
Definition sites_of (kept : list atom) : list (list R) := map (fun a => map frac_part (at_coords a)) kept.

Lemma affine_same : forall dims cell ops g p q, symmetry_group dims cell ops -> In g ops -> length p = dims -> length q = dims -> same_mod1 p q -> same_mod1 (affine g p) (affine g q).
Proof.
  intros dims cell ops g p q [_ S2 S3 _ _ _] Hg Hp Hq HS. destruct (same_shifted p q HS) as (z & Lz & ->). rewrite Forall_forall in S2.
  destruct (affine_shifted dims g z (S2 g Hg) (fun a b => S3 g a b Hg)) as (m & Lm & Em); [congruence|]. rewrite Em by auto. apply shifted_same.
Qed.
(** One of the operations is the identity, up to lattice translations. *)
Lemma identity_operation : forall dims cell ops, symmetry_group dims cell ops -> exists e, In e ops /\ forall p, length p = dims -> same_mod1 (affine e p) p.
Proof.
  intros dims cell ops [S1 _ _ S4 S5 _]. destruct ops as [|g ops']; [congruence|]. set (ops := g :: ops') in *. assert (Hg : In g ops) by (left; auto).
  destruct (S5 g Hg) as (h & z & z' & Hh & _ & _ & E). destruct (S4 h g Hh Hg) as (e & y & He & _ & E'). exists e. split; auto. intros p Hp. destruct (E p Hp) as [E1 _].
  apply (same_trans _ (affine h (affine g p))); [rewrite E' by auto; apply same_sym, shifted_same|rewrite E1; apply shifted_same].
Qed.
Lemma covered_trans : forall a1 o1 a2 o2 a3 o3, covered a1 o1 a2 o2 -> covered a2 o2 a3 o3 -> covered a1 o1 a3 o3.
Proof.
  intros a1 o1 a2 o2 a3 o3 H1 H2 p g Hp Hg. destruct (H1 p g Hp Hg) as (q & h & Hq & Hh & E). destruct (H2 q h Hq Hh) as (r & k & Hr & Hk & E').
  exists r, k. split; auto. split; auto. eapply same_trans; eauto.
Qed.
Lemma close_dec : forall tol p q, tol < 1 -> length p = length q -> {close_mod1 tol p q} + {~ close_mod1 tol p q}.
Proof.
  intros tol p q Ht HL. destruct (site_neq tol (map mod1 p) (map mod1 q)) eqn:E.
  - right. intros C. apply (close_mod tol p q HL) in C. apply site_neq_ok in C; auto; [congruence|apply mod1_same|apply mod1_same|rewrite !map_length; auto].
  - left. apply (close_mod tol p q HL). apply site_neq_ok; auto; [apply mod1_same|apply mod1_same|rewrite !map_length; auto].
Qed.

Lemma selected_crystal : forall tol d cell ops kept sel, 0 <= tol < 1 -> crystal 3 tol cell (sites_of kept) ops -> StronglySorted lt sel ->
  (forall i, In i sel <-> (i < length kept)%nat /\ (d = AllSites \/ forall j, (j < i)%nat -> ~ close_mod1 tol (at_coords (nth j kept no_atom)) (at_coords (nth i kept no_atom)))) ->
  let asym := map (fun i => map frac_part (at_coords (nth i kept no_atom))) sel in
  crystal 3 tol cell asym ops /\ covered (sites_of kept) ops asym ops /\ covered asym ops (sites_of kept) ops /\
  (disjoint_orbits tol (sites_of kept) ops -> disjoint_orbits tol asym ops).
Proof.
  intros tol d cell ops kept sel Ht HC HS Hsel asym.
  assert (NS : forall i, (i < length kept)%nat -> nth i (sites_of kept) [] = map frac_part (at_coords (nth i kept no_atom))).
  { intros i Hi. unfold sites_of. rewrite (nth_map' _ _ _ _ _ no_atom) by auto. auto. }
  assert (LS : length (sites_of kept) = length kept) by apply map_length.
  assert (IN : incl asym (sites_of kept)).
  { intros p Hp. apply in_map_iff in Hp. destruct Hp as (i & <- & Hi). apply Hsel in Hi. destruct Hi as [Hi _]. rewrite <- NS by auto. apply nth_In. lia. }
  assert (L3 : forall i, (i < length kept)%nat -> length (at_coords (nth i kept no_atom)) = 3%nat).
  { intros i Hi. pose proof (cr_sites _ _ _ _ _ HC) as Q. rewrite Forall_forall in Q. specialize (Q (nth i (sites_of kept) [])). rewrite NS, map_length in Q by auto. apply Q. rewrite <- NS by auto. apply nth_In. lia. }
  assert (REP : forall n i, (i < n)%nat -> (i < length kept)%nat -> exists j, In j sel /\ same_mod1 (map frac_part (at_coords (nth i kept no_atom))) (map frac_part (at_coords (nth j kept no_atom)))).
  { induction n as [|n IH]; intros i Hn Hi; [lia|].
    assert (DEC : d = AllSites \/ (forall j, (j < i)%nat -> ~ close_mod1 tol (at_coords (nth j kept no_atom)) (at_coords (nth i kept no_atom))) \/ exists j, (j < i)%nat /\ close_mod1 tol (at_coords (nth j kept no_atom)) (at_coords (nth i kept no_atom))).
    { right. assert (D : forall m, (m <= i)%nat -> (forall j, (j < m)%nat -> ~ close_mod1 tol (at_coords (nth j kept no_atom)) (at_coords (nth i kept no_atom))) \/ exists j, (j < m)%nat /\ close_mod1 tol (at_coords (nth j kept no_atom)) (at_coords (nth i kept no_atom))); [|apply (D i); auto].
      induction m as [|m IHm]; intros Hm; [left; intros; lia|]. destruct IHm as [Q|(j & Hj & Q)]; [lia| |right; exists j; split; auto].
      destruct (close_dec tol (at_coords (nth m kept no_atom)) (at_coords (nth i kept no_atom)) (proj2 Ht)) as [C|C]; [rewrite !L3 by lia; auto|right; exists m; auto|]. left. intros j Hj. destruct (Nat.eq_dec j m) as [->|]; auto. apply Q. lia. }
    destruct DEC as [D|[D|(j & Hj & C)]]; [exists i; split; [apply Hsel; auto|apply same_refl]|exists i; split; [apply Hsel; auto|apply same_refl]|].
    assert (SM : same_mod1 (map frac_part (at_coords (nth j kept no_atom))) (map frac_part (at_coords (nth i kept no_atom)))).
    { destruct (identity_operation _ _ _ (cr_group _ _ _ _ _ HC)) as (e & He & E). rewrite <- !NS by lia. pose proof (cr_sites _ _ _ _ _ HC) as Q. rewrite Forall_forall in Q.
      assert (Ij : In (nth j (sites_of kept) []) (sites_of kept)) by (apply nth_In; lia). assert (Ii : In (nth i (sites_of kept) []) (sites_of kept)) by (apply nth_In; lia).
      pose proof (E _ (Q _ Ij)) as E1. pose proof (E _ (Q _ Ii)) as E2. apply (same_trans _ _ _ (same_sym _ _ E1)). refine (same_trans _ _ _ _ E2). apply (cr_separated _ _ _ _ _ HC); auto.
      apply (close_same_l _ _ _ _ (same_sym _ _ E1)). apply (close_same _ _ _ _ (same_sym _ _ E2)); [rewrite (Q _ Ij), (Q _ Ii); auto|]. rewrite !NS by lia. apply (close_mod tol); auto. rewrite !L3 by lia. auto. }
    destruct (IH j ltac:(lia) ltac:(lia)) as (s & Hs & E). exists s. split; auto. apply (same_trans _ _ _ (same_sym _ _ SM)). exact E. }
  assert (COV : covered (sites_of kept) ops asym ops).
  { intros p g Hp Hg. destruct (In_nth _ _ [] Hp) as (i & Hi & <-). rewrite LS in Hi. destruct (REP (S i) i ltac:(lia) Hi) as (j & Hj & E). exists (map frac_part (at_coords (nth j kept no_atom))), g. split; [apply (in_map (fun i => map frac_part (at_coords (nth i kept no_atom)))); auto|]. split; auto.
    assert (Hjl : (j < length kept)%nat) by (apply Hsel; auto). rewrite NS by auto. apply (affine_same 3 cell ops); auto; [apply HC|rewrite map_length; auto|rewrite map_length; auto]. }
  destruct HC as [D1 D2 D3 D4 D5 D6 D7 D8]. split; [|split; [exact COV|split]].
  - constructor; auto.
    + destruct (sites_of kept) as [|p l] eqn:Q; [congruence|]. destruct ops as [|g ops']; [destruct (sg_some _ _ _ D7); auto|]. destruct (COV p g (or_introl eq_refl) (or_introl eq_refl)) as (q & _ & Hq & _). intros E. rewrite E in Hq. destruct Hq.
    + rewrite Forall_forall in D6 |- *. intros p Hp. apply D6, IN, Hp.
    + intros p q g h Hp Hq. apply D8; apply IN; auto.
  - intros p g Hp Hg. exists p, g. split; [apply IN; auto|]. split; auto. apply same_refl.
  - intros DO a b g h Hab Hg Hh. assert (LA : length asym = length sel) by apply map_length.
    assert (NA : forall a, (a < length sel)%nat -> (nth a sel 0 < length kept)%nat /\ nth a asym [] = nth (nth a sel 0%nat) (sites_of kept) []).
    { intros c Hc. assert (I : (nth c sel 0 < length kept)%nat) by (apply Hsel, nth_In; auto). split; auto. rewrite NS by auto. unfold asym. rewrite (nth_map' _ _ _ _ _ 0%nat) by auto. auto. }
    destruct (NA a ltac:(lia)) as [A1 ->]. destruct (NA b ltac:(lia)) as [B1 ->]. apply DO; auto. split; [|lia].
    clear - HS Hab LA. rewrite LA in Hab. clear LA. revert a b Hab. induction HS as [|x l HS IH F]; intros a b Hab; [cbn in Hab; lia|]. destruct b as [|b]; [lia|]. destruct a as [|a]; cbn [nth].
    + rewrite Forall_forall in F. apply F, nth_In. cbn in Hab. lia.
    + apply IH. cbn in Hab. lia.
Qed.

(** What is read (by C47: with gemmi, ase or pymatgen) from two blocks which describe one crystal has the same
    motif up to order, and the same AMD and PDD. *)
Theorem C67_readers : forall tol d d' cell ops ops' kept kept' cs cs', 0 <= tol < 1 -> half_dominant 3 cell ->
  crystal 3 tol cell (sites_of kept) ops -> crystal 3 tol cell (sites_of kept') ops' ->
  covered (sites_of kept) ops (sites_of kept') ops' -> covered (sites_of kept') ops' (sites_of kept) ops ->
  (d = AllSites -> disjoint_orbits tol (sites_of kept) ops) -> (d' = AllSites -> disjoint_orbits tol (sites_of kept') ops') ->
  reads tol d cell ops kept cs -> reads tol d' cell ops' kept' cs' ->
  Permutation (ps_motif (cs_set cs)) (ps_motif (cs_set cs')) /\
  (forall fuel fuel' k a a', AMD fuel (cs_set cs) k = Done a -> AMD fuel' (cs_set cs') k = Done a' -> a = a') /\
  (forall fuel fuel' k lexsort lexsort' t pdd g pdd' g' r,
    PDD fuel (cs_set cs) k lexsort false t = Done (pdd, g) -> PDD fuel' (cs_set cs') k lexsort' false t = Done (pdd', g') -> row_weight pdd r = row_weight pdd' r).
Proof.
  intros tol d d' cell ops ops' kept kept' cs cs' Ht HD HC HC' V V' DO DO' (sel & frac & origin & which & starts & mult & Q1 & Q2 & CV) (sel' & frac' & origin' & which' & starts' & mult' & Q1' & Q2' & CV').
  destruct (selected_crystal tol d cell ops kept sel Ht HC Q1 Q2) as (K1 & K2 & K3 & K4). destruct (selected_crystal tol d' cell ops' kept' sel' Ht HC' Q1' Q2') as (K1' & K2' & K3' & K4').
  refine (same_conversions 3 tol _ _ cell _ _ _ _ ops ops' cs cs' _ _ _ _ _ _ _ _ _ _ _ Ht HD K1 K1' _ _ _ _ CV CV').
  - lia.
  - apply (covered_trans _ _ _ _ _ _ K3). apply (covered_trans _ _ _ _ _ _ V). exact K2'.
  - apply (covered_trans _ _ _ _ _ _ K3'). apply (covered_trans _ _ _ _ _ _ V'). exact K2.
  - destruct d; auto.
  - destruct d'; auto.
Qed.

(** *** A case: a cubic cell with sites at 0 and 1/4 and the inversion, or with all three points and no symmetry. *)
Definition inversion : operation := ([[-1; 0; 0]; [0; -1; 0]; [0; 0; -1]], [0; 0; 0]).
Definition two_sites : list (list R) := [[0; 0; 0]; [1 / 4; 1 / 4; 1 / 4]].
Definition three_sites : list (list R) := [[0; 0; 0]; [1 / 4; 1 / 4; 1 / 4]; [3 / 4; 3 / 4; 3 / 4]].

Ltac triple p Hp := destruct p as [|?x [|?y [|?z [|? p]]]]; try discriminate Hp; clear Hp.
Ltac vec3 := unfold affine, shifted, identity, inversion, unit_cell; cbn -[IZR]; repeat (apply f_equal2; [ring|]); try reflexivity.
Lemma id_affine : forall p, length p = 3%nat -> affine identity p = p.
Proof. intros p Hp. triple p Hp. vec3. Qed.
Lemma inv_affine : forall p, length p = 3%nat -> affine inversion p = map Ropp p.
Proof. intros p Hp. triple p Hp. vec3. Qed.
Lemma zero_shift : forall p, length p = 3%nat -> shifted [0; 0; 0]%Z p = p.
Proof. intros p Hp. triple p Hp. vec3. Qed.
Lemma opp_opp : forall p, map Ropp (map Ropp p) = p.
Proof. intros p. rewrite map_map. rewrite <- (map_id p) at 2. apply map_ext. intros; ring. Qed.
Lemma operation_ok3 : forall g, In g [identity; inversion] -> operation_ok 3 g.
Proof. intros g [<-|[<-|[]]]; repeat (split; auto); repeat constructor. Qed.
Lemma operation_integer : forall g i j, In g [identity; inversion] -> exists z : Z, nth i (nth j (fst g) []) 0 = IZR z.
Proof.
  intros g i j [<-|[<-|[]]]; destruct j as [|[|[|j]]]; destruct i as [|[|[|i]]]; cbn -[IZR];
    first [exists 0%Z; reflexivity|exists 1%Z; reflexivity|exists (-1)%Z; reflexivity|exists 0%Z; destruct i; reflexivity|exists 0%Z; destruct j; reflexivity|exists 0%Z; destruct j, i; reflexivity].
Qed.
Lemma operation_isometry : forall g p q, In g [identity; inversion] -> length p = 3%nat -> length q = 3%nat ->
  edist (cartesian unit_cell (affine g p)) (cartesian unit_cell (affine g q)) = edist (cartesian unit_cell p) (cartesian unit_cell q).
Proof.
  intros g p q [<-|[<-|[]]] Hp Hq; [rewrite !id_affine; auto|]. rewrite !inv_affine by auto. triple p Hp. triple q Hq. unfold edist, cartesian, comb_coord, unit_cell, rsum. cbn. f_equal. ring.
Qed.
Lemma inversion_group : symmetry_group 3 unit_cell [identity; inversion].
Proof.
  constructor; [discriminate|apply Forall_forall, operation_ok3|intros g i j; apply operation_integer| | |apply operation_isometry].
  - intros g h Hg Hh. exists (if Req_EM_T (nth 0 (nth 0 (fst g) []) 0) (nth 0 (nth 0 (fst h) []) 0) then identity else inversion), [0; 0; 0]%Z.
    assert (ML : forall p, length (map Ropp p) = length p) by (intros; apply map_length).
    destruct Hg as [<-|[<-|[]]], Hh as [<-|[<-|[]]]; cbn -[IZR affine shifted]; destruct (Req_EM_T _ _) as [E|E]; try (exfalso; lra);
      (split; [cbn; auto|split; [auto|]]; intros p Hp); rewrite ?id_affine, ?inv_affine, ?zero_shift, ?opp_opp; rewrite ?id_affine, ?inv_affine, ?ML, ?opp_opp; auto.
  - intros g Hg. exists g, [0; 0; 0]%Z, [0; 0; 0]%Z. split; auto. split; auto. split; auto. intros p Hp. assert (ML : forall p, length (map Ropp p) = length p) by (intros; apply map_length).
    destruct Hg as [<-|[<-|[]]]; rewrite ?id_affine, ?inv_affine, ?zero_shift; rewrite ?id_affine, ?inv_affine, ?ML, ?opp_opp; auto.
Qed.
Lemma identity_group : symmetry_group 3 unit_cell [identity].
Proof.
  constructor; [discriminate| | | | |].
  - apply Forall_forall. intros g Hg. apply operation_ok3. cbn in *. tauto.
  - intros g i j Hg. apply operation_integer. cbn in *. tauto.
  - intros g h [<-|[]] [<-|[]]. exists identity, [0; 0; 0]%Z. split; [left; auto|]. split; auto. intros p Hp. rewrite zero_shift by (rewrite !id_affine; auto). rewrite !id_affine; auto. rewrite id_affine; auto.
  - intros g [<-|[]]. exists identity, [0; 0; 0]%Z, [0; 0; 0]%Z. split; [left; auto|]. split; auto. split; auto. intros p Hp. rewrite !zero_shift by auto. rewrite !id_affine; auto. rewrite id_affine; auto.
  - intros g p q Hg. apply operation_isometry. cbn in *. tauto.
Qed.

(** Points whose coordinates are quarters are equal or apart. *)
Definition quarters (p : list R) : Prop := Forall (fun x => exists m : Z, x = IZR m / 4) p.
Lemma quarters_separated : forall tol p q, tol < 1 / 4 -> quarters p -> quarters q -> length p = length q -> close_mod1 tol p q -> same_mod1 p q.
Proof.
  intros tol p q Ht Hp Hq HL C. split; auto. intros j Hj. destruct (C j Hj) as [n Hn]. exists n. unfold quarters in *. rewrite Forall_forall in Hp, Hq.
  destruct (Hp (nth j p 0)) as [a Ea]; [apply nth_In; auto|]. destruct (Hq (nth j q 0)) as [b Eb]; [apply nth_In; lia|]. rewrite Ea, Eb in *.
  assert (E : (-1 < a - b - 4 * n < 1)%Z). { split; apply lt_IZR; rewrite !minus_IZR, mult_IZR; assert (B : Rabs (IZR a / 4 - IZR b / 4 - IZR n) < 1 / 4) by lra; apply Rabs_def2 in B; lra. }
  assert (E' : a = (b + 4 * n)%Z) by lia. rewrite E', plus_IZR, mult_IZR. lra.
Qed.
Lemma images_quarters : forall p g, In p three_sites -> In g [identity; inversion] -> quarters (affine g p) /\ length (affine g p) = 3%nat.
Proof.
  intros p g Hp Hg. assert (HL : length p = 3%nat) by (destruct Hp as [<-|[<-|[<-|[]]]]; auto). split; [|rewrite affine_length; auto].
  destruct Hg as [<-|[<-|[]]]; [rewrite id_affine by auto|rewrite inv_affine by auto]; destruct Hp as [<-|[<-|[<-|[]]]]; cbn [map]; repeat (constructor; [first [exists 0%Z; lra|exists 1%Z; lra|exists 3%Z; lra|exists (-1)%Z; lra|exists (-3)%Z; lra]|]); constructor.
Qed.
Lemma unit_nonsingular : nonsingular 3 unit_cell.
Proof. exists unit_cell. split; [auto|]. split; [repeat constructor|]. intros [|[|[|i]]] [|[|[|j]]] Hi Hj; try lia; cbn; lra. Qed.
Lemma unit_dominant : half_dominant 3 unit_cell.
Proof.
  assert (Z : forall x, x = 0 -> Rabs x = 0) by (intros x ->; apply Rabs_R0).
  intros [|[|[|i]]] Hi; try lia; unfold rsum; cbn; repeat match goal with |- context [Rabs ?x] => rewrite (Z x) by ring end; lra.
Qed.
Lemma three_images : forall p q, In p three_sites -> In q three_sites -> length p = 3%nat /\ length q = 3%nat.
Proof. intros p q Hp Hq. destruct Hp as [<-|[<-|[<-|[]]]], Hq as [<-|[<-|[<-|[]]]]; auto. Qed.
Lemma in_three : incl two_sites three_sites.
Proof. intros p [<-|[<-|[]]]; cbn; auto. Qed.
Lemma with_inversion : crystal 3 (1 / 1000) unit_cell two_sites [identity; inversion].
Proof.
  constructor; auto; try (repeat constructor; fail); [apply unit_nonsingular|discriminate|apply inversion_group|].
  intros p q g h Hp Hq Hg Hh C. destruct (images_quarters p g (in_three _ Hp) Hg) as [Q1 L1]. destruct (images_quarters q h (in_three _ Hq) Hh) as [Q2 L2].
  apply (quarters_separated (1 / 1000)); auto; [lra|congruence].
Qed.
Lemma without_symmetry : crystal 3 (1 / 1000) unit_cell three_sites [identity].
Proof.
  constructor; auto; try (repeat constructor; fail); [apply unit_nonsingular|discriminate|apply identity_group|].
  intros p q g h Hp Hq Hg Hh C. destruct (images_quarters p g Hp) as [Q1 L1]; [cbn in *; tauto|]. destruct (images_quarters q h Hq) as [Q2 L2]; [cbn in *; tauto|].
  apply (quarters_separated (1 / 1000)); auto; [lra|congruence].
Qed.
Lemma quarter_same : same_mod1 [3 / 4; 3 / 4; 3 / 4] (map Ropp [1 / 4; 1 / 4; 1 / 4]).
Proof. split; auto. intros [|[|[|j]]] Hj; cbn in *; try lia; exists 1%Z; lra. Qed.
Lemma two_cover_three : covered three_sites [identity] two_sites [identity; inversion].
Proof.
  intros p g [<-|[<-|[<-|[]]]] [<-|[]]; rewrite id_affine by auto.
  - exists [0; 0; 0], identity. rewrite id_affine by auto. cbn; auto using same_refl.
  - exists [1 / 4; 1 / 4; 1 / 4], identity. rewrite id_affine by auto. cbn; auto using same_refl.
  - exists [1 / 4; 1 / 4; 1 / 4], inversion. rewrite inv_affine by auto. split; [cbn; auto|]. split; [cbn; auto|]. apply quarter_same.
Qed.
Lemma three_cover_two : covered two_sites [identity; inversion] three_sites [identity].
Proof.
  intros p g [<-|[<-|[]]] [<-|[<-|[]]]; rewrite ?id_affine, ?inv_affine by auto.
  - exists [0; 0; 0], identity. rewrite id_affine by auto. cbn; auto using same_refl.
  - exists [0; 0; 0], identity. rewrite id_affine by auto. split; [cbn; auto|]. split; [cbn; auto|]. cbn [map]. rewrite Ropp_0. apply same_refl.
  - exists [1 / 4; 1 / 4; 1 / 4], identity. rewrite id_affine by auto. cbn; auto using same_refl.
  - exists [3 / 4; 3 / 4; 3 / 4], identity. rewrite id_affine by auto. split; [cbn; auto|]. split; [cbn; auto|]. apply same_sym, quarter_same.
Qed.

Example C67_case : half_dominant 3 unit_cell /\ crystal 3 (1 / 1000) unit_cell two_sites [identity; inversion] /\ crystal 3 (1 / 1000) unit_cell three_sites [identity] /\
  covered two_sites [identity; inversion] three_sites [identity] /\ covered three_sites [identity] two_sites [identity; inversion] /\
  (exists cs warn cs' warn', finish mod1 (1 / 1000) true unit_cell two_sites [6; 8]%nat [identity; inversion] = Done (cs, warn) /\
    finish mod1 (1 / 1000) true unit_cell three_sites [6; 8; 8]%nat [identity] = Done (cs', warn') /\
    forall k, exists a fuel0, forall fuel, (fuel0 <= fuel)%nat -> AMD fuel (cs_set cs) k = Done a /\ AMD fuel (cs_set cs') k = Done a).
Proof.
  split; [apply unit_dominant|]. split; [apply with_inversion|]. split; [apply without_symmetry|]. split; [apply three_cover_two|]. split; [apply two_cover_three|].
  pose proof with_inversion as C. pose proof without_symmetry as C'. assert (T : 0 <= 1 / 1000 < 1) by lra.
  destruct (C46_total 3 (1 / 1000) true unit_cell two_sites [6; 8]%nat [identity; inversion]) as ([cs warn] & E); try solve [auto|lra|apply C|apply (cr_group _ _ _ _ _ C)|cbn; lia].
  destruct (C46_total 3 (1 / 1000) true unit_cell three_sites [6; 8; 8]%nat [identity]) as ([cs' warn'] & E'); try solve [auto|lra|apply C'|apply (cr_group _ _ _ _ _ C')|cbn; lia].
  exists cs, warn, cs', warn'. split; auto. split; auto. intros k.
  destruct (C67_wf 3 (1 / 1000) true unit_cell two_sites _ [identity; inversion] cs warn ltac:(lia) T ltac:(discriminate) (sg_ok _ _ _ (cr_group _ _ _ _ _ C)) ltac:(discriminate) (cr_sites _ _ _ _ _ C) eq_refl (cr_cells _ _ _ _ _ C) E) as (_ & _ & _ & H).
  destruct (C67_wf 3 (1 / 1000) true unit_cell three_sites _ [identity] cs' warn' ltac:(lia) T ltac:(discriminate) (sg_ok _ _ _ (cr_group _ _ _ _ _ C')) ltac:(discriminate) (cr_sites _ _ _ _ _ C') eq_refl (cr_cells _ _ _ _ _ C') E') as (_ & _ & _ & H').
  destruct (H unit_nonsingular k) as (a & f & Q). destruct (H' unit_nonsingular k) as (a' & f' & Q'). exists a, (Nat.max f f'). intros fuel Hf. split; [apply Q; lia|].
  destruct (C67_description 3 (1 / 1000) true true unit_cell two_sites three_sites _ _ _ _ cs cs' warn warn' ltac:(lia) T unit_dominant C C' three_cover_two two_cover_three (or_introl eq_refl) (or_introl eq_refl) E E') as (_ & D & _).
  rewrite (D fuel fuel k a a'); [apply Q'; lia|apply Q; lia|apply Q'; lia].
Qed.

Print Assumptions C67_wf.
Print Assumptions C67_amd.
Print Assumptions C67_pdd.
Print Assumptions C67_description.
Print Assumptions C67_readers.
Print Assumptions C67_case.
