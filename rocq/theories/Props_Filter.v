(** Property C90: comparing AMDs first loses no similar crystals, with rounded operations. *)
From Coq Require Import String List ZArith Arith Bool Lia Reals Lra Psatz Permutation Sorted.
From Verif Require Import Num Base Spec Outcome Condensed CollapseModel NNModel VecR Sums SpecGeom SpecCalc SpecEmd SpecEmd64 SpecSites SpecCont SpecDeform SpecCell NNProofs NNSpecProofs NNComplete NNInvariance Props_NN CompareModel SpecCompare CompareProofs CompareNear Props_Matrix CalcModel CalcProofs CalcProofs2 Props_Calc
  EmdModel EmdReal EmdSym EmdTop Props_Emd Props_EmdPdd SitesModel SitesProofs SitesExpand Props_Sites SpecSymmetry SymmetryProofs Props_Symmetry Props_Geo Props_Finite Props_Asym
  RoundModel SpecRound RoundSum RoundProofs RoundGeom RoundTop RoundCalc RoundCollapse RoundBinary Props_Round RoundSitesModel SpecRoundSites RoundSites RoundSites2 RoundSites3
  RoundEmdModel RoundEmd RoundEmdTop RoundEmdArgs RoundEmdPdd Props_RoundEmd Props_RoundSites ContProofs Props_Cont DeformProofs Props_Deform SpecRoundCell UtilsModel Props_Utils DominantProofs RoundCellModel RoundCell RoundCell2 Props_RoundCell ReadRows Props_ReadEmd Props_ParEmd Props_RoundAmd.
Import ListNotations.
Open Scope string_scope.
Open Scope R_scope.
Open Scope list_scope.
Notation length := List.length.

(** What is promised of an entry for PDDs that collapse is enough for its AMD. *)
Lemma stated_amd : forall ar rdeg rcos rsin s l D b k collapse tol tol' e cell cs, stated ar rdeg rcos rsin s l D b k collapse tol e cell cs -> stated ar rdeg rcos rsin s l D b k false tol' e cell cs.
Proof. intros ar rdeg rcos rsin s l D b k collapse tol tol' e cell cs []. constructor; auto. discriminate. Qed.

Lemma stated_wf : forall ar rdeg rcos rsin s l D b k collapse tol e cell cs, 0 <= s -> stated ar rdeg rcos rsin s l D b k collapse tol e cell cs -> pset_wf 3 (cs_set cs).
Proof.
  intros ar rdeg rcos rsin s l D b k collapse tol e cell cs Hs ST.
  assert (T : 0 <= en_tol e < 1).
  { pose proof (st_tol _ _ _ _ _ _ _ _ _ _ _ _ _ _ ST). destruct (st_sites _ _ _ _ _ _ _ _ _ _ _ _ _ _ ST) as [D0 _]. pose proof u64_pos. assert (0 <= 22 * u64 * (s + 1)) by (repeat apply Rmult_le_pos; lra). lra. }
  destruct ST as [[LS VS] _ _ _ _ _ _ _ Ho Hops Hne Hasym _ _ _ _ (warn & X) _ _].
  destruct (C67_wf 3 (en_tol e) (en_uniquify e) cell (en_asym e) (en_types e) (en_ops e) cs warn ltac:(lia) T Ho Hops Hne Hasym LS VS X) as (Wf & _). exact Wf.
Qed.

(** The AMD is near the average of the rows, and the same if nothing is collapsed. *)
Lemma average_slack : forall dims ps k fuel lexsort collapse tol pdd groups a j, pset_wf dims ps -> (collapse = true -> 0 <= tol) -> (j < k)%nat ->
  PDD fuel ps k lexsort collapse tol = Done (pdd, groups) -> AMD fuel ps k = Done a -> Rabs (row_mean (pdd_array pdd) j - nth j a 0) <= slack collapse tol.
Proof.
  intros dims ps k fuel lexsort collapse tol pdd groups a j W Ht Hj E A.
  destruct (C14_pdd_is_distribution _ _ _ _ _ _ _ _ _ W E) as ((HF & HS) & _).
  assert (HF' : Forall (fun p : R * list R => length (snd p) = k) pdd) by (eapply Forall_impl; [|exact HF]; cbn; tauto).
  rewrite <- (wmean_row k pdd j HF' HS Hj). unfold slack. destruct collapse.
  - destruct (C15_average_close _ _ _ _ _ _ _ _ _ _ W (Ht eq_refl) Hj E) as (a' & A' & H). rewrite A in A'. injection A' as <-. exact H.
  - rewrite (C15_average_exact _ _ _ _ _ _ _ _ _ W (or_introl eq_refl) E) in A. injection A as <-. rewrite Rminus_diag_eq, Rabs_R0 by auto. lra.
Qed.

(** Exact AMDs differ by at most the cost of any plan between exact PDDs. *)
Lemma amds_below_plan : forall dims ps1 ps2 k fuel l1 l2 c1 c2 tol1 tol2 p1 g1 p2 g2 a1 a2 d Y j, pset_wf dims ps1 -> pset_wf dims ps2 -> (c1 = true -> 0 <= tol1) -> (c2 = true -> 0 <= tol2) ->
  PDD fuel ps1 k l1 c1 tol1 = Done (p1, g1) -> PDD fuel ps2 k l2 c2 tol2 = Done (p2, g2) -> AMD fuel ps1 k = Done a1 -> AMD fuel ps2 k = Done a2 ->
  row_distance k (pdd_array p1) (pdd_array p2) d -> coupling (length p1) (length p2) (fun i => mx (pdd_array p1) i 0) (fun j => mx (pdd_array p2) j 0) Y -> (j < k)%nat ->
  Rabs (nth j a1 0 - nth j a2 0) <= transport_cost (length p1) (length p2) d Y + (slack c1 tol1 + slack c2 tol2).
Proof.
  intros dims ps1 ps2 k fuel l1 l2 c1 c2 tol1 tol2 p1 g1 p2 g2 a1 a2 d Y j W1 W2 T1 T2 E1 E2 A1 A2 RD CY Hj.
  pose proof (average_slack _ _ _ _ _ _ _ _ _ _ _ W1 T1 Hj E1 A1) as S1. pose proof (average_slack _ _ _ _ _ _ _ _ _ _ _ W2 T2 Hj E2 A2) as S2.
  assert (K : forall ps l c t p g, pset_wf dims ps -> PDD fuel ps k l c t = Done (p, g) -> Forall (fun r => length r = S k) (pdd_array p)).
  { intros ps l c t p g W E. destruct (C14_pdd_is_distribution _ _ _ _ _ _ _ _ _ W E) as ((HF & _) & _). unfold pdd_array. apply Forall_map. eapply Forall_impl; [|exact HF]. cbn. intros ? (_ & -> & _). auto. }
  pose proof (C30_average_below_any_plan k (pdd_array p1) (pdd_array p2) d Y j (K _ _ _ _ _ _ W1 E1) (K _ _ _ _ _ _ W2 E2) RD Hj) as Q.
  assert (LA : forall q : list (R * list R), length (pdd_array q) = length q) by (intros; apply map_length). rewrite !LA in Q. specialize (Q CY).
  revert S1 S2 Q. set (x := row_mean (pdd_array p1) j). set (y := row_mean (pdd_array p2) j). set (t := transport_cost _ _ _ _). clearbody x y t. intros S1 S2 Q.
  apply Rabs_le.  revert S1 S2 Q. unfold Rabs. repeat destruct Rcase_abs; intros; lra.
Qed.

(** Errors of the distances of AMDs and of the Earth mover's distance together. *)
Definition filter_error (M D b : R) : R := (M + 2) * (D + 1) / 10000000 + 15 * (D + b) / 1000000000000.

Lemma stated_nth : forall (P : entry -> list (list R) * @crystal_set R -> Prop) es ccs i e, Forall2 P es ccs -> nth_error es i = Some e -> exists cc, nth_error ccs i = Some cc /\ P e cc.
Proof. intros P es ccs i e F. revert i. induction F as [|e0 cc es ccs H F IH]; intros [|i] E; cbn in E; try discriminate; [injection E as ->; exists cc; auto|apply IH, E]. Qed.

Lemma exact_distance : forall k u v, length u = k -> length v = k -> exists d, is_chebyshev k u v d.
Proof. intros k u v Hu Hv. exists (cheb u v). apply cheb_spec; auto. Qed.

(** The exact distance of AMDs and the computed Earth mover's distance. *)
Lemma pair_bound : forall ar rdeg rcos rsin cast s l D b k l1 l2 c1 c2 tol1 tol2 M e1 e2 cell1 cell2 cs1 cs2 a1 a2 d f0, binary64 u64 ar -> representable_dots ar -> trig_like u64 rdeg rcos rsin -> truncates cast -> 0 <= s -> 0 <= D -> 0 <= b -> D + b <= 100000000000 ->
  0 <= M <= 5000 -> M * M * (D + 1) <= 10000000000 -> (1 <= k)%nat -> (c1 = true -> 0 <= tol1) -> (c2 = true -> 0 <= tol2) ->
  stated ar rdeg rcos rsin s l D b k c1 tol1 e1 cell1 cs1 -> stated ar rdeg rcos rsin s l D b k c2 tol2 e2 cell2 cs2 -> INR (length (ps_motif (cs_set cs1))) <= M -> INR (length (ps_motif (cs_set cs2))) <= M ->
  (forall fuel, (f0 <= fuel)%nat -> AMD fuel (cs_set cs1) k = Done a1 /\ AMD fuel (cs_set cs2) k = Done a2) -> is_chebyshev k a1 a2 d ->
  exists v plan fuel1, (forall fuel, (fuel1 <= fuel)%nat -> compare_entries ar rdeg rcos rsin cast fuel e1 e2 k l1 l2 c1 c2 tol1 tol2 = Done (v, plan)) /\
    forall x, Rabs (x - d) <= 3 * amd_error M D b -> x <= v + (slack c1 tol1 + slack c2 tol2) + filter_error M D b.
Proof.
  intros ar rdeg rcos rsin cast s l D b k l1 l2 c1 c2 tol1 tol2 M e1 e2 cell1 cell2 cs1 cs2 a1 a2 d f0 BI HR TG HT Hs HD Hb HDb HM HMD Hk T1 T2 ST1 ST2 M1 M2 HA CD.
  set (m1 := INR (length (ps_motif (cs_set cs1)))) in *. set (m2 := INR (length (ps_motif (cs_set cs2)))) in *. assert (P1 : 0 <= m1) by apply pos_INR. assert (P2 : 0 <= m2) by apply pos_INR.
  assert (PM : m1 * m2 <= M * M) by (apply Rmult_le_compat; auto).
  destruct (C87_entries_binary64 ar rdeg rcos rsin cast s l D b k l1 l2 l1 l2 c1 c2 tol1 tol2 e1 e2 cell1 cell2 cs1 cs2 BI HR TG HT Hs HDb ST1 ST2 ltac:(fold m1; lra) ltac:(fold m2; lra)) as (p1 & g1 & p2 & g2 & v & plan & f1 & HP & HW).
  { fold m1 m2. eapply Rle_trans; [|exact HMD]. apply Rmult_le_compat_r; lra. }
  exists v, plan, f1. split; [intros fuel Hf; apply (HP fuel Hf)|].
  set (fu := Nat.max f0 f1). destruct (HP fu ltac:(lia)) as (Q1 & Q2 & _). destruct (HA fu ltac:(lia)) as (B1 & B2).
  pose proof (stated_wf _ _ _ _ _ _ _ _ _ _ _ _ _ _ Hs ST1) as W1. pose proof (stated_wf _ _ _ _ _ _ _ _ _ _ _ _ _ _ Hs ST2) as W2.
  assert (K : forall ps l c t p g, pset_wf 3 ps -> PDD fu ps k l c t = Done (p, g) -> Forall (fun r => length r = S k) (pdd_array p)).
  { intros ps l' c t p g W E'. destruct (C14_pdd_is_distribution _ _ _ _ _ _ _ _ _ W E') as ((HF' & _) & _). unfold pdd_array. apply Forall_map. eapply Forall_impl; [|exact HF']. cbn. intros ? (_ & -> & _). auto. }
  pose proof (K _ _ _ _ _ _ W1 Q1) as K1. pose proof (K _ _ _ _ _ _ W2 Q2) as K2.
  set (dd := fun i j => cheb (tl (nth i (pdd_array p1) [])) (tl (nth j (pdd_array p2) []))).
  assert (RD : row_distance k (pdd_array p1) (pdd_array p2) dd).
  { rewrite Forall_forall in K1, K2. intros i0 i' Hi Hi'. pose proof (K1 _ (nth_In _ [] Hi)) as X. pose proof (K2 _ (nth_In _ [] Hi')) as X'.
    apply cheb_spec; [destruct (nth i0 (pdd_array p1) [])|destruct (nth i' (pdd_array p2) [])]; simpl in *; lia. }
  destruct (HW dd RD) as [_ (Y & CY & HY)].
  assert (DB : d <= transport_cost (length p1) (length p2) dd Y + (slack c1 tol1 + slack c2 tol2)).
  { destruct CD as [_ [Z | (t & Ht & Z)]]; rewrite Z.
    - pose proof (amds_below_plan _ _ _ _ _ _ _ _ _ _ _ _ _ _ _ _ _ _ _ 0%nat W1 W2 T1 T2 Q1 Q2 B1 B2 RD CY ltac:(lia)) as X. eapply Rle_trans; [apply Rabs_pos|exact X].
    - apply (amds_below_plan _ _ _ _ _ _ _ _ _ _ _ _ _ _ _ _ _ _ _ t W1 W2 T1 T2 Q1 Q2 B1 B2 RD CY Ht). }
  fold m1 m2 in HY. assert (U : 0 < u64 <= 1 / 9007199254740992) by (split; [apply u64_pos|unfold u64; simpl; lra]).
  assert (AE : 3 * amd_error M D b <= 11 * (D + b) / 1000000000000).
  { unfold amd_error. assert (X : (110 + 3 * M) * u64 <= 15110 / 9007199254740992) by (apply Rle_trans with (15110 * u64); [apply Rmult_le_compat_r; lra|lra]).
    assert (X3 : (110 + 3 * M) * u64 * (D + 2 * b) <= 15110 / 9007199254740992 * (D + 2 * b)) by (apply Rmult_le_compat_r; lra). lra. }
  assert (EE : 5 * (m1 + m2 + 3) * (D + 1) / 100000000 <= (M + 2) * (D + 1) / 10000000).
  { assert (X : (m1 + m2 + 3) * (D + 1) <= (2 * (M + 2)) * (D + 1)) by (apply Rmult_le_compat_r; lra). lra. }
  intros x V1. unfold filter_error. pose proof (Rle_abs (x - d)). lra.
Qed.

(** In the matrix of distances of AMDs no entry exceeds the Earth mover's distance of the two
    crystals by more than collapsing and rounding errors, everything in binary64: two crystals
    at Earth mover's distance t are found at distance t and these errors of their AMDs. *)
Theorem C90_filter : forall ar rdeg rcos rsin cast s l D b k c1 c2 tol1 tol2 M es ccs es2 ccs2, binary64 u64 ar -> representable_dots ar -> trig_like u64 rdeg rcos rsin -> truncates cast -> 0 <= s -> 0 <= D -> 0 <= b -> D + b <= 100000000000 ->
  0 <= M <= 5000 -> M * M * (D + 1) <= 10000000000 -> (1 <= k)%nat -> (c1 = true -> 0 <= tol1) -> (c2 = true -> 0 <= tol2) ->
  Forall2 (fun e cc => stated ar rdeg rcos rsin s l D b k c1 tol1 e (fst cc) (snd cc) /\ INR (length (ps_motif (cs_set (snd cc)))) <= M) es ccs ->
  Forall2 (fun e cc => stated ar rdeg rcos rsin s l D b k c2 tol2 e (fst cc) (snd cc) /\ INR (length (ps_motif (cs_set (snd cc)))) <= M) es2 ccs2 ->
  exists amds amds2 fuel0, (forall fuel, (fuel0 <= fuel)%nat -> entries_amds ar rdeg rcos rsin fuel k es = Done amds /\ entries_amds ar rdeg rcos rsin fuel k es2 = Done amds2) /\
    forall om junk low, has_shape (length es) (length es2) junk ->
    exists dm, @AMD_cdist R (num_of ar) om junk (array_of k amds) (array_of k amds2) "chebyshev" low = Done dm /\ has_shape (length es) (length es2) dm /\
      forall i j e1 e2 l1 l2, nth_error es i = Some e1 -> nth_error es2 j = Some e2 ->
      exists v plan fuel1, (forall fuel, (fuel1 <= fuel)%nat -> compare_entries ar rdeg rcos rsin cast fuel e1 e2 k l1 l2 c1 c2 tol1 tol2 = Done (v, plan)) /\
        0 <= mx dm i j <= v + (slack c1 tol1 + slack c2 tol2) + filter_error M D b.
Proof.
  intros ar rdeg rcos rsin cast s l D b k c1 c2 tol1 tol2 M es ccs es2 ccs2 BI HR TG HT Hs HD Hb HDb HM HMD Hk T1 T2 F F2.
  assert (G : forall c tol (es : list entry) ccs, Forall2 (fun e cc => stated ar rdeg rcos rsin s l D b k c tol e (fst cc) (snd cc) /\ INR (length (ps_motif (cs_set (snd cc)))) <= M) es ccs ->
    Forall2 (fun e cc => stated ar rdeg rcos rsin s l D b k false 0 e (fst cc) (snd cc) /\ INR (length (ps_motif (cs_set (snd cc)))) <= M) es ccs).
  { clear. intros c tol es ccs F. induction F as [|e cc es ccs [X Y] F IH]; constructor; auto. split; auto. eapply stated_amd; eauto. }
  destruct (C88_amds ar rdeg rcos rsin s l D b k 0 M es ccs BI HR TG Hs ltac:(lra) (G _ _ _ _ F)) as (ex & ro & f & H & [Y1 X1] & _).
  destruct (C88_amds ar rdeg rcos rsin s l D b k 0 M es2 ccs2 BI HR TG Hs ltac:(lra) (G _ _ _ _ F2)) as (ex2 & ro2 & f2 & H2 & [Y2 X2] & _).
  destruct (C88_entries_cdist ar rdeg rcos rsin s l D b k 0 M es ccs es2 ccs2 BI HR TG Hs ltac:(lra) HD Hb Hk (G _ _ _ _ F) (G _ _ _ _ F2)) as (exact & amds & exact2 & amds2 & f0 & HF & HC).
  exists amds, amds2, f0. split; [intros fuel Hf; destruct (HF fuel Hf) as (_ & A & _ & B); auto|].
  intros om junk low HJ. destruct (HC om junk low HJ) as (dm & E & SH & HV). exists dm. split; [exact E|]. split; [exact SH|].
  intros i j e1 e2 l1 l2 N1 N2. destruct (stated_nth _ _ _ _ _ F N1) as ([cell1 cs1] & C1 & ST1 & M1). destruct (stated_nth _ _ _ _ _ F2 N2) as ([cell2 cs2] & C2 & ST2 & M2). cbn [fst snd] in ST1, M1, ST2, M2.
  pose proof (RoundCalc.F2_len _ _ _ _ _ F) as LF. pose proof (RoundCalc.F2_len _ _ _ _ _ F2) as LF2.
  assert (I : (i < length es)%nat) by (apply nth_error_Some; congruence). assert (J : (j < length es2)%nat) by (apply nth_error_Some; congruence).
  assert (EQ : ex = exact /\ ex2 = exact2).
  { set (g := Nat.max f0 (Nat.max f f2)). destruct (HF g ltac:(lia)) as (Z1 & _ & Z2 & _). destruct (H g ltac:(lia)) as [Z3 _]. destruct (H2 g ltac:(lia)) as [Z4 _]. rewrite Z1 in Z3. rewrite Z2 in Z4. injection Z3 as ->. injection Z4 as ->. auto. }
  destruct EQ as [-> ->]. rewrite Forall_forall in X1, X2. assert (LN1 : length (nth i exact []) = k) by (apply X1, nth_In; lia). assert (LN2 : length (nth j exact2 []) = k) by (apply X2, nth_In; lia).
  destruct (exact_distance k (nth i exact []) (nth j exact2 []) LN1 LN2) as (d & CD). destruct (HV i j d I J CD) as [V0 V1].
  destruct (pair_bound ar rdeg rcos rsin cast s l D b k l1 l2 c1 c2 tol1 tol2 M e1 e2 cell1 cell2 cs1 cs2 (nth i exact []) (nth j exact2 []) d f0) as (v & plan & f1 & HP & Q); auto.
  { intros fuel Hf. destruct (HF fuel Hf) as (A1 & _ & A2 & _). unfold exact_amds in A1, A2. pose proof (omap_nth _ _ _ _ _ i (cell1, cs1) [] A1 ltac:(lia)) as B1. pose proof (omap_nth _ _ _ _ _ j (cell2, cs2) [] A2 ltac:(lia)) as B2.
    rewrite (nth_error_nth _ _ _ C1) in B1. rewrite (nth_error_nth _ _ _ C2) in B2. auto. }
  exists v, plan, f1. split; [exact HP|]. split; [exact V0|apply Q, V1].
Qed.

(** The same for the condensed matrix of one collection. *)
Theorem C90_filter_one : forall ar rdeg rcos rsin cast s l D b k c tol M es ccs, binary64 u64 ar -> representable_dots ar -> trig_like u64 rdeg rcos rsin -> truncates cast -> 0 <= s -> 0 <= D -> 0 <= b -> D + b <= 100000000000 ->
  0 <= M <= 5000 -> M * M * (D + 1) <= 10000000000 -> (1 <= k)%nat -> (c = true -> 0 <= tol) ->
  Forall2 (fun e cc => stated ar rdeg rcos rsin s l D b k c tol e (fst cc) (snd cc) /\ INR (length (ps_motif (cs_set (snd cc)))) <= M) es ccs ->
  exists amds fuel0, (forall fuel, (fuel0 <= fuel)%nat -> entries_amds ar rdeg rcos rsin fuel k es = Done amds) /\
    let m := length es in forall om junk low, (2 * length junk = m * (m - 1))%nat ->
    exists cdm, @AMD_pdist R (num_of ar) om junk (array_of k amds) "chebyshev" low = Done cdm /\ (2 * length cdm = m * (m - 1))%nat /\
      forall i j e1 e2 l1 l2, (i < j)%nat -> nth_error es i = Some e1 -> nth_error es j = Some e2 ->
      exists v plan fuel1, (forall fuel, (fuel1 <= fuel)%nat -> compare_entries ar rdeg rcos rsin cast fuel e1 e2 k l1 l2 c c tol tol = Done (v, plan)) /\
        0 <= nth (SpecCompare.before m i j) cdm 0 <= v + 2 * slack c tol + filter_error M D b.
Proof.
  intros ar rdeg rcos rsin cast s l D b k c tol M es ccs BI HR TG HT Hs HD Hb HDb HM HMD Hk T F.
  assert (F' : Forall2 (fun e cc => stated ar rdeg rcos rsin s l D b k false 0 e (fst cc) (snd cc) /\ INR (length (ps_motif (cs_set (snd cc)))) <= M) es ccs).
  { clear - F. induction F as [|e cc es ccs [X Y] F IH]; constructor; auto. split; auto. eapply stated_amd; eauto. }
  destruct (C88_amds ar rdeg rcos rsin s l D b k 0 M es ccs BI HR TG Hs ltac:(lra) F') as (ex & ro & f & H & [Y1 X1] & _).
  destruct (C88_entries_pdist ar rdeg rcos rsin s l D b k 0 M es ccs BI HR TG Hs ltac:(lra) HD Hb Hk F') as (exact & amds & f0 & HF & HC).
  exists amds, f0. split; [intros fuel Hf; apply (HF fuel Hf)|]. intros m om junk low HJ. destruct (HC om junk low HJ) as (cdm & E & SH & HV). fold m in SH, HV. exists cdm. split; [exact E|]. split; [exact SH|].
  intros i j e1 e2 l1 l2 Hij N1 N2. destruct (stated_nth _ _ _ _ _ F N1) as ([cell1 cs1] & C1 & ST1 & M1). destruct (stated_nth _ _ _ _ _ F N2) as ([cell2 cs2] & C2 & ST2 & M2). cbn [fst snd] in ST1, M1, ST2, M2.
  pose proof (RoundCalc.F2_len _ _ _ _ _ F) as LF. assert (I : (i < length es)%nat) by (apply nth_error_Some; congruence). assert (J : (j < length es)%nat) by (apply nth_error_Some; congruence).
  assert (EQ : ex = exact). { set (g := Nat.max f0 f). destruct (HF g ltac:(lia)) as (Z1 & _). destruct (H g ltac:(lia)) as [Z3 _]. rewrite Z1 in Z3. injection Z3 as ->. auto. }
  subst ex. rewrite Forall_forall in X1. assert (LN1 : length (nth i exact []) = k) by (apply X1, nth_In; lia). assert (LN2 : length (nth j exact []) = k) by (apply X1, nth_In; lia).
  destruct (exact_distance k (nth i exact []) (nth j exact []) LN1 LN2) as (d & CD). destruct (HV i j d ltac:(unfold m; lia) CD) as [V0 V1].
  destruct (pair_bound ar rdeg rcos rsin cast s l D b k l1 l2 c c tol tol M e1 e2 cell1 cell2 cs1 cs2 (nth i exact []) (nth j exact []) d f0) as (v & plan & f1 & HP & Q); auto.
  { intros fuel Hf. destruct (HF fuel Hf) as (A1 & _). unfold exact_amds in A1. pose proof (omap_nth _ _ _ _ _ i (cell1, cs1) [] A1 ltac:(lia)) as B1. pose proof (omap_nth _ _ _ _ _ j (cell2, cs2) [] A1 ltac:(lia)) as B2.
    rewrite (nth_error_nth _ _ _ C1) in B1. rewrite (nth_error_nth _ _ _ C2) in B2. auto. }
  exists v, plan, f1. split; [exact HP|]. split; [exact V0|]. specialize (Q _ V1). lra.
Qed.

(** ** The monoclinic crystal of C87, with and without its inversion *)
Example C90_case : exists amds amds2 fuel0, (forall fuel, (fuel0 <= fuel)%nat -> entries_amds b64 deg64 cos64 sin64 fuel 2 [symmetric_entry; plain_entry] = Done amds /\ entries_amds b64 deg64 cos64 sin64 fuel 2 [plain_entry] = Done amds2) /\
  forall om junk low, has_shape 2 1 junk -> exists dm, @AMD_cdist R (num_of b64) om junk (array_of 2 amds) (array_of 2 amds2) "chebyshev" low = Done dm /\
    exists v plan fuel1, (forall fuel, (fuel1 <= fuel)%nat -> compare_entries b64 deg64 cos64 sin64 Int_part fuel symmetric_entry plain_entry 2 true true false false 0 0 = Done (v, plan)) /\ mx dm 0 0 <= v + 6 / 1000000.
Proof.
  assert (E1 : exists cs, read_exactly (with_cell symmetric_entry monoclinic) = Done (cs, []) /\ length (ps_motif (cs_set cs)) = 2%nat).
  { unfold read_exactly, finish. cbn [with_cell symmetric_entry en_tol en_asym en_types en_ops en_uniquify ct_tol ct_cell ct_ops ct_asym ct_types ct_uniquify]. rewrite space_site_motif. cbn [obind]. eexists. split; reflexivity. }
  assert (E2 : exists cs, read_exactly (with_cell plain_entry monoclinic) = Done (cs, []) /\ length (ps_motif (cs_set cs)) = 2%nat).
  { unfold read_exactly, finish. cbn [with_cell plain_entry en_tol en_asym en_types en_ops en_uniquify ct_tol ct_cell ct_ops ct_asym ct_types ct_uniquify]. rewrite space_sites_motif. cbn [obind]. eexists. split; reflexivity. }
  destruct E1 as (cs1 & E1 & L1). destruct E2 as (cs2 & E2 & L2).
  destruct (C90_filter b64 deg64 cos64 sin64 Int_part 1 4 4 220000 2 false false 0 0 2 [symmetric_entry; plain_entry] [(monoclinic, cs1); (monoclinic, cs2)] [plain_entry] [(monoclinic, cs2)] b64_binary64 b64_dots trig64 Int_part_truncates)
    as (amds & amds2 & f & H & P); try lra; try lia; try discriminate.
  - constructor; [|constructor; [|constructor]]; cbn [fst snd]; (split; [|unfold vec in *; rewrite ?L1, ?L2; simpl; lra]).
    + exact (mono_stated _ _ (or_introl eq_refl) E1).
    + exact (mono_stated _ _ (or_intror eq_refl) E2).
  - constructor; [|constructor]; cbn [fst snd]; (split; [|unfold vec in *; rewrite ?L1, ?L2; simpl; lra]). exact (mono_stated _ _ (or_intror eq_refl) E2).
  - exists amds, amds2, f. split; [exact H|]. intros om junk low Hj. destruct (P om junk low Hj) as (dm & A & _ & B). exists dm. split; [exact A|].
    destruct (B 0%nat 0%nat symmetric_entry plain_entry true true eq_refl eq_refl) as (v & plan & f1 & C & Q). exists v, plan, f1. split; [exact C|]. unfold slack, filter_error in Q. lra.
Qed.

Print Assumptions C90_filter.
Print Assumptions C90_filter_one.
