(** Property C91: matrices of Earth mover's distances and the neighbours found in them, with rounded operations. *)
From Coq Require Import String List ZArith Arith Bool Lia Reals Lra Psatz Permutation Sorted.
From Verif Require Import Num Base Spec Outcome Condensed CollapseModel NNModel VecR Sums SpecGeom SpecCalc SpecEmd SpecEmd64 SpecSites SpecCont SpecDeform SpecCell NNProofs NNSpecProofs NNComplete NNInvariance Props_NN CompareModel SpecCompare CompareProofs CompareNear Props_Matrix CalcModel CalcProofs CalcProofs2 Props_Calc
  EmdModel EmdReal EmdSym EmdTop Props_Emd Props_EmdPdd SitesModel SitesProofs SitesExpand Props_Sites SpecSymmetry SymmetryProofs Props_Symmetry Props_Geo Props_Finite Props_Asym
  RoundModel SpecRound RoundSum RoundProofs RoundGeom RoundTop RoundCalc RoundCollapse RoundBinary Props_Round RoundSitesModel SpecRoundSites RoundSites RoundSites2 RoundSites3
  RoundEmdModel RoundEmd RoundEmdTop RoundEmdArgs RoundEmdPdd Props_RoundEmd Props_RoundSites ContProofs Props_Cont DeformProofs Props_Deform SpecRoundCell UtilsModel Props_Utils DominantProofs RoundCellModel RoundCell RoundCell2 Props_RoundCell ReadRows Props_ReadEmd Props_ParEmd Props_RoundAmd Props_Filter.
Import ListNotations.
Open Scope string_scope.
Open Scope R_scope.
Open Scope list_scope.
Notation length := List.length.

(** The exact Earth mover's distance: the greatest number below the costs of all plans. *)
Definition least_cost (n1 n2 : nat) (a b : nat -> R) (c : nat -> nat -> R) (x : R) : Prop :=
  (forall Y, coupling n1 n2 a b Y -> x <= transport_cost n1 n2 c Y) /\ (forall y, (forall Y, coupling n1 n2 a b Y -> y <= transport_cost n1 n2 c Y) -> y <= x).

(** [x] is the exact distance of the exact PDDs of two crystals. *)
Definition crystal_distance (k : nat) (c1 c2 : bool) (tol1 tol2 : R) (ps1 ps2 : pset R) (x : R) : Prop :=
  exists p1 g1 p2 g2 fuel0, (forall fuel, (fuel0 <= fuel)%nat -> PDD fuel ps1 k false c1 tol1 = Done (p1, g1) /\ PDD fuel ps2 k false c2 tol2 = Done (p2, g2)) /\
    forall d, row_distance k (pdd_array p1) (pdd_array p2) d ->
      least_cost (length p1) (length p2) (fun i => mx (pdd_array p1) i 0) (fun j => mx (pdd_array p2) j 0) d x.

Lemma within_least : forall n1 n2 a b c eps v x, emd_within n1 n2 a b c eps v -> least_cost n1 n2 a b c x -> Rabs (v - x) <= eps.
Proof.
  intros n1 n2 a b c eps v x [H1 (Y & CY & HY)] [L1 L2]. specialize (L1 Y CY). assert (v - eps <= x) by (apply L2; intros Z CZ; specialize (H1 Z CZ); lra). apply Rabs_le. lra.
Qed.

Lemma least_exists : forall n1 n2 a b c eps v, emd_within n1 n2 a b c eps v -> exists x, least_cost n1 n2 a b c x.
Proof.
  intros n1 n2 a b c eps v [H1 (Y & CY & HY)].
  destruct (completeness (fun y => forall Z, coupling n1 n2 a b Z -> y <= transport_cost n1 n2 c Z)) as (x & U & L).
  - exists (transport_cost n1 n2 c Y). intros y Hy. apply Hy, CY.
  - exists (v - eps). intros Z CZ. specialize (H1 Z CZ). lra.
  - exists x. split; [intros Z CZ; apply L; intros y Hy; apply Hy, CZ|intros y Hy; apply U, Hy].
Qed.

Lemma shape_ext : forall n m (a a' : list (list R)), has_shape n m a -> has_shape n m a' -> (forall i j, (i < n)%nat -> (j < m)%nat -> mx a i j = mx a' i j) -> a = a'.
Proof.
  intros n m a a' [L1 S1] [L2 S2] H. rewrite Forall_forall in S1, S2. apply (nth_ext a a' [] []); [congruence|]. intros i Hi. assert (A : length (nth i a []) = m) by (apply S1, nth_In, Hi). assert (A' : length (nth i a' []) = m) by (apply S2, nth_In; congruence).
  apply (nth_ext _ _ 0 0); [congruence|]. intros j Hj. apply H; congruence.
Qed.

(** ** The PDDs of a list of crystals *)
(** The crystals are read and their PDDs computed; then PDD_cdist (compare.py lines 438-514) calls
    EMD for each pair. *)
Definition entries_pdds (ar : arith) (rdeg rcos rsin : R -> R) (fuel k : nat) (lex collapse : bool) (tol : R) (es : list entry) : outcome (list (list (list R))) :=
  omap (fun e => x <- read_entry ar rdeg rcos rsin e ;; a <- @PDD R (num_of ar) fuel (cs_set (fst x)) k lex collapse tol ;; Done (pdd_array (fst a))) es.
Definition emd_of (ar : arith) (cast : R -> Z) (fuel : nat) (metric : string) (p q : list (list R)) : outcome R :=
  r <- EMD_r ar cast fuel p q ;; Done (fst r).

Section Lists.
  Variables (ar : arith) (rdeg rcos rsin : R -> R) (cast : R -> Z) (s l D b M : R) (k : nat).
  Hypothesis BI : binary64 u64 ar.
  Hypothesis HR : representable_dots ar.
  Hypothesis TG : trig_like u64 rdeg rcos rsin.
  Hypothesis HT : truncates cast.
  Hypothesis Hs : 0 <= s.
  Hypothesis HD : 0 <= D.
  Hypothesis HDb : D + b <= 100000000000.
  Hypothesis HM : 0 <= M <= 5000.
  Hypothesis HMD : M * M * (D + 1) <= 10000000000.

  Definition listed (c : bool) (tol : R) : list entry -> list (list (list R) * @crystal_set R) -> Prop :=
    Forall2 (fun e cc => stated ar rdeg rcos rsin s l D b k c tol e (fst cc) (snd cc) /\ INR (length (ps_motif (cs_set (snd cc)))) <= M).

  Lemma pdds_run : forall lex c tol es ccs, listed c tol es ccs -> exists pdds f0, length pdds = length es /\ (forall fuel, (f0 <= fuel)%nat -> entries_pdds ar rdeg rcos rsin fuel k lex c tol es = Done pdds) /\
    forall i e, nth_error es i = Some e -> exists cs' warn rounded g', read_entry ar rdeg rcos rsin e = Done (cs', warn) /\ nth_error pdds i = Some (pdd_array rounded) /\
      forall fuel, (f0 <= fuel)%nat -> @PDD R (num_of ar) fuel (cs_set cs') k lex c tol = Done (rounded, g').
  Proof.
    intros lex c tol es ccs F. induction F as [|e cc es ccs [ST Hm] F IH].
    - exists [], 0%nat. split; [auto|]. split; [auto|]. intros [|i] e E; discriminate.
    - destruct IH as (pdds & f0 & L & H & N).
      destruct (C87_pdd_binary64 ar rdeg rcos rsin s l D b k lex lex c tol e (fst cc) (snd cc) BI HR TG Hs ST ltac:(lra)) as (cs' & warn & ex & g & ro & g' & f1 & p0 & _ & E & HP & _).
      exists (pdd_array ro :: pdds), (Nat.max f0 f1). split; [simpl; auto|]. split.
      + intros fuel Hf. destruct (HP fuel ltac:(lia)) as [_ HP']. unfold entries_pdds in *. cbn [omap]. rewrite E. cbn [obind fst]. rewrite HP'. cbn [obind fst]. rewrite (H fuel ltac:(lia)). reflexivity.
      + intros [|i] e' E'; cbn [nth_error] in *.
        * injection E' as <-. exists cs', warn, ro, g'. split; [auto|]. split; [auto|]. intros fuel Hf. apply HP. lia.
        * destruct (N i e' E') as (cs0 & w0 & r0 & g0 & A & B & C). exists cs0, w0, r0, g0. split; [auto|]. split; [auto|]. intros fuel Hf. apply C. lia.
  Qed.

  Definition emd_error : R := (M + 2) * (D + 1) / 10000000 + 4 * (D + b) / 1000000000000.

  (** One pair. *)
  Lemma pair_emd : forall lex1 lex2 c1 c2 tol1 tol2 e1 e2 cell1 cell2 cs1 cs2 cs1' w1 r1 g1 cs2' w2 r2 g2 f0,
    stated ar rdeg rcos rsin s l D b k c1 tol1 e1 cell1 cs1 -> stated ar rdeg rcos rsin s l D b k c2 tol2 e2 cell2 cs2 -> INR (length (ps_motif (cs_set cs1))) <= M -> INR (length (ps_motif (cs_set cs2))) <= M ->
    read_entry ar rdeg rcos rsin e1 = Done (cs1', w1) -> read_entry ar rdeg rcos rsin e2 = Done (cs2', w2) ->
    (forall fuel, (f0 <= fuel)%nat -> @PDD R (num_of ar) fuel (cs_set cs1') k lex1 c1 tol1 = Done (r1, g1) /\ @PDD R (num_of ar) fuel (cs_set cs2') k lex2 c2 tol2 = Done (r2, g2)) ->
    exists v F, (forall fuel, (F <= fuel)%nat -> emd_of ar cast fuel "chebyshev" (pdd_array r1) (pdd_array r2) = Done v) /\ (exists x, crystal_distance k c1 c2 tol1 tol2 (cs_set cs1) (cs_set cs2) x) /\
      forall x, crystal_distance k c1 c2 tol1 tol2 (cs_set cs1) (cs_set cs2) x -> Rabs (v - x) <= emd_error.
  Proof.
    intros lex1 lex2 c1 c2 tol1 tol2 e1 e2 cell1 cell2 cs1 cs2 cs1' w1 r1 g1 cs2' w2 r2 g2 f0 ST1 ST2 M1 M2 E1 E2 HP.
    set (m1 := INR (length (ps_motif (cs_set cs1)))) in *. set (m2 := INR (length (ps_motif (cs_set cs2)))) in *. assert (P1 : 0 <= m1) by apply pos_INR. assert (P2 : 0 <= m2) by apply pos_INR.
    assert (PM : m1 * m2 <= M * M) by (apply Rmult_le_compat; auto).
    destruct (C87_entries_binary64 ar rdeg rcos rsin cast s l D b k false false lex1 lex2 c1 c2 tol1 tol2 e1 e2 cell1 cell2 cs1 cs2 BI HR TG HT Hs HDb ST1 ST2 ltac:(fold m1; lra) ltac:(fold m2; lra)) as (p1 & h1 & p2 & h2 & v & plan & f1 & HC & HW).
    { fold m1 m2. eapply Rle_trans; [|exact HMD]. apply Rmult_le_compat_r; lra. }
    exists v, (Nat.max f0 f1). split.
    { intros fuel Hf. destruct (HC fuel ltac:(lia)) as (_ & _ & Q). destruct (HP fuel ltac:(lia)) as [Q1 Q2]. unfold compare_entries in Q. rewrite E1, E2 in Q. cbn [obind fst] in Q. unfold pipeline in Q. rewrite Q1, Q2 in Q. cbn [obind fst] in Q. unfold emd_of. rewrite Q. reflexivity. }
    assert (B0 : 5 * (m1 + m2 + 3) * (D + 1) / 100000000 + 4 * (D + b) / 1000000000000 <= emd_error).
    { unfold emd_error. assert (X : (m1 + m2 + 3) * (D + 1) <= (2 * (M + 2)) * (D + 1)) by (apply Rmult_le_compat_r; lra). lra. }
    fold m1 m2 in HW.
    assert (K : forall fuel ps c t p g, pset_wf 3 ps -> PDD fuel ps k false c t = Done (p, g) -> Forall (fun r => length r = S k) (pdd_array p)).
    { intros fuel ps c t p g W E'. destruct (C14_pdd_is_distribution _ _ _ _ _ _ _ _ _ W E') as ((HF' & _) & _). unfold pdd_array. apply Forall_map. eapply Forall_impl; [|exact HF']. cbn. intros ? (_ & -> & _). auto. }
    destruct (HC f1 (le_n _)) as (Q1 & Q2 & _). pose proof (K _ _ _ _ _ _ (stated_wf _ _ _ _ _ _ _ _ _ _ _ _ _ _ Hs ST1) Q1) as K1. pose proof (K _ _ _ _ _ _ (stated_wf _ _ _ _ _ _ _ _ _ _ _ _ _ _ Hs ST2) Q2) as K2.
    set (dd := fun i j => cheb (tl (nth i (pdd_array p1) [])) (tl (nth j (pdd_array p2) []))).
    assert (RD : row_distance k (pdd_array p1) (pdd_array p2) dd).
    { rewrite Forall_forall in K1, K2. intros i0 i' Hi Hi'. pose proof (K1 _ (nth_In _ [] Hi)) as X. pose proof (K2 _ (nth_In _ [] Hi')) as X'.
      apply cheb_spec; [destruct (nth i0 (pdd_array p1) [])|destruct (nth i' (pdd_array p2) [])]; simpl in *; lia. }
    assert (LA : forall q : list (R * list R), length (pdd_array q) = length q) by (intros; apply map_length).
    split.
    - destruct (least_exists _ _ _ _ _ _ _ (HW dd RD)) as (x & LX). exists x, p1, h1, p2, h2, f1. split; [intros fuel Hf; destruct (HC fuel Hf) as (A & B & _); auto|].
      intros d Hd. assert (EQ : forall i j, (i < length p1)%nat -> (j < length p2)%nat -> d i j = dd i j).
      { intros i j Hi Hj. apply (chebyshev_unique k (tl (nth i (pdd_array p1) [])) (tl (nth j (pdd_array p2) []))); [apply Hd|apply RD]; rewrite LA; auto. }
      assert (TC : forall Y, transport_cost (length p1) (length p2) d Y = transport_cost (length p1) (length p2) dd Y) by (intros Y; unfold transport_cost; apply Sum_ext; intros i Hi; apply Sum_ext; intros j Hj; rewrite EQ; auto).
      destruct LX as [X1 X2]. split; [intros Y CY; rewrite TC; auto|intros y Hy; apply X2; intros Y CY; rewrite <- TC; auto].
    - intros x (p1' & h1' & p2' & h2' & f2 & HC' & HX). set (fu := Nat.max f1 f2). destruct (HC fu ltac:(lia)) as (A1 & A2 & _). destruct (HC' fu ltac:(lia)) as (B1 & B2). rewrite A1 in B1. rewrite A2 in B2. injection B1 as <- <-. injection B2 as <- <-.
      eapply Rle_trans; [exact (within_least _ _ _ _ _ _ _ _ (HW dd RD) (HX dd RD))|exact B0].
  Qed.

  Lemma finite_values : forall A (a0 : A) n (Q : nat -> A -> nat -> Prop), (forall i v f f', Q i v f -> (f <= f')%nat -> Q i v f') -> (forall i, (i < n)%nat -> exists v f, Q i v f) -> exists V F, forall i, (i < n)%nat -> Q i (V i) F.
  Proof.
    intros A a0 n Q Mo. induction n as [|n IH]; intros H.
    - exists (fun _ => a0), 0%nat. lia.
    - destruct IH as (V & F & HV); [intros i Hi; apply H; lia|]. destruct (H n ltac:(lia)) as (v & f & Hv). exists (fun i => if (i =? n)%nat then v else V i), (Nat.max F f). intros i Hi.
      destruct (Nat.eqb_spec i n) as [->|N]; [apply (Mo n v f); auto; lia|apply (Mo i (V i) F); [apply HV; lia|lia]].
  Qed.

  (** All pairs. *)
  Lemma table_near : forall lex1 lex2 c1 c2 tol1 tol2 es ccs es2 ccs2, listed c1 tol1 es ccs -> listed c2 tol2 es2 ccs2 ->
    exists pdds pdds2 V f0, length pdds = length es /\ length pdds2 = length es2 /\
      (forall fuel, (f0 <= fuel)%nat -> entries_pdds ar rdeg rcos rsin fuel k lex1 c1 tol1 es = Done pdds /\ entries_pdds ar rdeg rcos rsin fuel k lex2 c2 tol2 es2 = Done pdds2 /\
        forall i j p q, nth_error pdds i = Some p -> nth_error pdds2 j = Some q -> emd_of ar cast fuel "chebyshev" p q = Done (V i j)) /\
      forall i j cc cc2, nth_error ccs i = Some cc -> nth_error ccs2 j = Some cc2 -> (exists x, crystal_distance k c1 c2 tol1 tol2 (cs_set (snd cc)) (cs_set (snd cc2)) x) /\
        forall x, crystal_distance k c1 c2 tol1 tol2 (cs_set (snd cc)) (cs_set (snd cc2)) x -> Rabs (V i j - x) <= emd_error.
  Proof.
    intros lex1 lex2 c1 c2 tol1 tol2 es ccs es2 ccs2 F1 F2.
    destruct (pdds_run lex1 _ _ _ _ F1) as (pdds & f1 & L1 & H1 & N1). destruct (pdds_run lex2 _ _ _ _ F2) as (pdds2 & f2 & L2 & H2 & N2).
    pose proof (RoundCalc.F2_len _ _ _ _ _ F1) as LF1. pose proof (RoundCalc.F2_len _ _ _ _ _ F2) as LF2.
    set (Q := fun i j v F => forall p q, nth_error pdds i = Some p -> nth_error pdds2 j = Some q -> (forall fuel, (F <= fuel)%nat -> emd_of ar cast fuel "chebyshev" p q = Done v) /\
      forall cc cc2, nth_error ccs i = Some cc -> nth_error ccs2 j = Some cc2 -> (exists x, crystal_distance k c1 c2 tol1 tol2 (cs_set (snd cc)) (cs_set (snd cc2)) x) /\ forall x, crystal_distance k c1 c2 tol1 tol2 (cs_set (snd cc)) (cs_set (snd cc2)) x -> Rabs (v - x) <= emd_error).
    assert (MO : forall i j v F F', Q i j v F -> (F <= F')%nat -> Q i j v F').
    { intros i j v F F' H HF p q Ep Eq. destruct (H p q Ep Eq) as [A B]. split; [intros fuel Hf; apply A; lia|exact B]. }
    assert (HQ : forall i, (i < length es)%nat -> exists V F, forall j, (j < length es2)%nat -> Q i j (V j) F).
    { intros i Hi. apply (finite_values _ 0 (length es2) (Q i) (MO i)). intros j Hj.
      destruct (nth_error es i) as [e1|] eqn:E1; [|apply nth_error_None in E1; lia]. destruct (nth_error es2 j) as [e2|] eqn:E2; [|apply nth_error_None in E2; lia].
      destruct (stated_nth _ _ _ _ _ F1 E1) as ([cell1 cs1] & C1 & ST1 & M1). destruct (stated_nth _ _ _ _ _ F2 E2) as ([cell2 cs2] & C2 & ST2 & M2). cbn [fst snd] in ST1, M1, ST2, M2.
      destruct (N1 i e1 E1) as (cs1' & w1 & r1 & g1 & R1 & P1 & D1). destruct (N2 j e2 E2) as (cs2' & w2 & r2 & g2 & R2 & P2 & D2).
      destruct (pair_emd lex1 lex2 c1 c2 tol1 tol2 e1 e2 cell1 cell2 cs1 cs2 cs1' w1 r1 g1 cs2' w2 r2 g2 (Nat.max f1 f2) ST1 ST2 M1 M2 R1 R2) as (v & F & A & B & C); [intros fuel Hf; split; [apply D1|apply D2]; lia|].
      exists v, F. intros p q Ep Eq. rewrite P1 in Ep. rewrite P2 in Eq. injection Ep as <-. injection Eq as <-. split; [exact A|]. intros cc cc2 Ec Ec2. rewrite C1 in Ec. rewrite C2 in Ec2. injection Ec as <-. injection Ec2 as <-. cbn [snd]. auto. }
    destruct (finite_values (nat -> R) (fun _ => 0) (length es) (fun i V F => forall j, (j < length es2)%nat -> Q i j (V j) F)) as (V & F0 & HV); [intros i W F F' H HF j Hj; apply (MO i j _ F); auto|exact HQ|].
    set (f0 := Nat.max F0 (Nat.max f1 f2)).
    assert (HE : forall fuel, (f0 <= fuel)%nat -> forall i j p q, nth_error pdds i = Some p -> nth_error pdds2 j = Some q -> emd_of ar cast fuel "chebyshev" p q = Done (V i j)).
    { intros fuel Hf i j p q Ep Eq. assert (Hi : (i < length es)%nat) by (rewrite <- L1; apply nth_error_Some; congruence). assert (Hj : (j < length es2)%nat) by (rewrite <- L2; apply nth_error_Some; congruence).
      destruct (HV i Hi j Hj p q Ep Eq) as [A _]. apply A. lia. }
    exists pdds, pdds2, V, f0. split; [exact L1|]. split; [exact L2|]. split.
    - intros fuel Hf. split; [apply H1; lia|]. split; [apply H2; lia|]. exact (HE fuel Hf).
    - intros i j cc cc2 Ec Ec2. assert (Hi : (i < length es)%nat) by (rewrite LF1; apply nth_error_Some; congruence). assert (Hj : (j < length es2)%nat) by (rewrite LF2; apply nth_error_Some; congruence).
      destruct (nth_error pdds i) as [p|] eqn:Ep; [|apply nth_error_None in Ep; lia]. destruct (nth_error pdds2 j) as [q|] eqn:Eq; [|apply nth_error_None in Eq; lia].
      destruct (HV i Hi j Hj p q Ep Eq) as [_ A]. apply A; auto.
  Qed.

  (** Each entry of the matrix is close to the exact distance, for all ways to spread the work;
      the neighbours listed from it are nearest up to twice the error. *)
  Lemma matrix_near : forall lex1 lex2 c1 c2 tol1 tol2 es ccs es2 ccs2, listed c1 tol1 es ccs -> listed c2 tol2 es2 ccs2 -> es <> [] ->
    exists pdds pdds2 dm f0, has_shape (length es) (length es2) dm /\
      (forall fuel, (f0 <= fuel)%nat -> entries_pdds ar rdeg rcos rsin fuel k lex1 c1 tol1 es = Done pdds /\ entries_pdds ar rdeg rcos rsin fuel k lex2 c2 tol2 es2 = Done pdds2 /\
        forall n_jobs junk sched, has_shape (length es) (length es2) junk -> Permutation sched (seq 0 (length es * length es2)) -> PDD_cdist _ (emd_of ar cast fuel) junk sched pdds pdds2 "chebyshev" n_jobs = Done dm) /\
      forall i j cc cc2, nth_error ccs i = Some cc -> nth_error ccs2 j = Some cc2 -> (exists x, crystal_distance k c1 c2 tol1 tol2 (cs_set (snd cc)) (cs_set (snd cc2)) x) /\
        forall x, crystal_distance k c1 c2 tol1 tol2 (cs_set (snd cc)) (cs_set (snd cc2)) x -> Rabs (mx dm i j - x) <= emd_error.
  Proof.
    intros lex1 lex2 c1 c2 tol1 tol2 es ccs es2 ccs2 F1 F2 NE.
    destruct (table_near lex1 lex2 c1 c2 tol1 tol2 es ccs es2 ccs2 F1 F2) as (pdds & pdds2 & V & f0 & L1 & L2 & H & N).
    pose proof (RoundCalc.F2_len _ _ _ _ _ F1) as LF1. pose proof (RoundCalc.F2_len _ _ _ _ _ F2) as LF2.
    assert (HE : forall fuel, (f0 <= fuel)%nat -> forall i j p q, nth_error pdds i = Some p -> nth_error pdds2 j = Some q -> emd_of ar cast fuel "chebyshev" p q = Done (V i j)) by (intros fuel Hf; apply (H fuel Hf)).
    assert (NE' : pdds <> []) by (intros ->; destruct es; [congruence|discriminate]).
    destruct (C35_cdist _ (emd_of ar cast f0) "chebyshev" pdds pdds2 V NE' (HE f0 (le_n _))) as (dm & SH & EN & _).
    exists pdds, pdds2, dm, f0. rewrite L1, L2 in *. split; [exact SH|]. split.
    - intros fuel Hf. destruct (H fuel Hf) as (A & B & _). split; [exact A|]. split; [exact B|]. intros n_jobs junk sched HJ HP.
      destruct (C35_cdist _ (emd_of ar cast fuel) "chebyshev" pdds pdds2 V NE' (HE fuel Hf)) as (dm' & SH' & EN' & R). rewrite L1, L2 in *. rewrite (R n_jobs junk sched HJ HP). f_equal.
      apply (shape_ext (length es) (length es2)); auto. intros i j Hi Hj. rewrite EN, EN'; auto.
    - intros i j cc cc2 Ec Ec2. assert (Hi : (i < length es)%nat) by (rewrite LF1; apply nth_error_Some; congruence). assert (Hj : (j < length es2)%nat) by (rewrite LF2; apply nth_error_Some; congruence).
      rewrite EN by auto. apply N; auto.
  Qed.

  (** One collection. *)
  Lemma condensed_near : forall lex c tol es ccs, listed c tol es ccs -> es <> [] -> let m := length es in
    exists pdds cdm f0, (2 * length cdm = m * (m - 1))%nat /\
      (forall fuel, (f0 <= fuel)%nat -> entries_pdds ar rdeg rcos rsin fuel k lex c tol es = Done pdds /\
        forall n_jobs junk sched, (2 * length junk = m * (m - 1))%nat -> Permutation sched (seq 0 (length junk)) -> PDD_pdist _ (emd_of ar cast fuel) junk sched pdds "chebyshev" n_jobs = Done cdm) /\
      forall i j cc cc2, (i < j)%nat -> nth_error ccs i = Some cc -> nth_error ccs j = Some cc2 -> (exists x, crystal_distance k c c tol tol (cs_set (snd cc)) (cs_set (snd cc2)) x) /\
        forall x, crystal_distance k c c tol tol (cs_set (snd cc)) (cs_set (snd cc2)) x -> Rabs (nth (SpecCompare.before m i j) cdm 0 - x) <= emd_error.
  Proof.
    intros lex c tol es ccs F NE m.
    destruct (table_near lex lex c c tol tol es ccs es ccs F F) as (pdds & pdds2 & V & f0 & L1 & L2 & H & N).
    assert (EQ : pdds2 = pdds) by (destruct (H f0 (le_n _)) as (A & B & _); congruence). subst pdds2.
    pose proof (RoundCalc.F2_len _ _ _ _ _ F) as LF.
    assert (NE' : pdds <> []) by (intros ->; destruct es; [congruence|discriminate]).
    assert (HE : forall fuel, (f0 <= fuel)%nat -> forall i j p q, (i < j)%nat -> nth_error pdds i = Some p -> nth_error pdds j = Some q -> emd_of ar cast fuel "chebyshev" p q = Done (V i j)) by (intros fuel Hf i j p q _; apply (H fuel Hf)).
    exists pdds, (condensed V m), f0. split; [rewrite condensed_length; apply CompareProofs.pairs_count|]. split.
    - intros fuel Hf. split; [apply (H fuel Hf)|]. intros n_jobs junk sched HJ HP. unfold m. rewrite <- L1. apply (pdist_condensed _ (emd_of ar cast fuel) "chebyshev" pdds V NE' (HE fuel Hf)); auto. rewrite L1. exact HJ.
    - intros i j cc cc2 Hij Ec Ec2. assert (Hj : (j < m)%nat) by (unfold m; rewrite LF; apply nth_error_Some; congruence). rewrite before_cidx by lia. rewrite condensed_nth by lia. apply N; auto.
  Qed.
End Lists.

(** PDD_cdist with all errors, from lengths, angles, sites and operations on: right shape, each entry
    close to the exact distance, whatever the number of jobs and the order in which they finish. *)
Theorem C91_cdist : forall ar rdeg rcos rsin cast s l D b M k lex1 lex2 c1 c2 tol1 tol2 es ccs es2 ccs2, binary64 u64 ar -> representable_dots ar -> trig_like u64 rdeg rcos rsin -> truncates cast ->
  0 <= s -> 0 <= D -> D + b <= 100000000000 -> 0 <= M <= 5000 -> M * M * (D + 1) <= 10000000000 ->
  listed ar rdeg rcos rsin s l D b M k c1 tol1 es ccs -> listed ar rdeg rcos rsin s l D b M k c2 tol2 es2 ccs2 -> es <> [] ->
  exists pdds pdds2 dm f0, has_shape (length es) (length es2) dm /\
    (forall fuel, (f0 <= fuel)%nat -> entries_pdds ar rdeg rcos rsin fuel k lex1 c1 tol1 es = Done pdds /\ entries_pdds ar rdeg rcos rsin fuel k lex2 c2 tol2 es2 = Done pdds2 /\
      forall n_jobs junk sched, has_shape (length es) (length es2) junk -> Permutation sched (seq 0 (length es * length es2)) -> PDD_cdist _ (emd_of ar cast fuel) junk sched pdds pdds2 "chebyshev" n_jobs = Done dm) /\
    forall i j cc cc2, nth_error ccs i = Some cc -> nth_error ccs2 j = Some cc2 -> exists x, crystal_distance k c1 c2 tol1 tol2 (cs_set (snd cc)) (cs_set (snd cc2)) x /\ Rabs (mx dm i j - x) <= emd_error D b M.
Proof.
  intros ar rdeg rcos rsin cast s l D b M k lex1 lex2 c1 c2 tol1 tol2 es ccs es2 ccs2 BI HR TG HT Hs HD HDb HM HMD F1 F2 NE.
  destruct (matrix_near ar rdeg rcos rsin cast s l D b M k BI HR TG HT Hs HD HDb HM HMD lex1 lex2 c1 c2 tol1 tol2 es ccs es2 ccs2 F1 F2 NE) as (pdds & pdds2 & dm & f0 & SH & H & N).
  exists pdds, pdds2, dm, f0. split; [exact SH|]. split; [exact H|]. intros i j cc cc2 C1 C2. destruct (N i j cc cc2 C1 C2) as [(x & X) Y]. exists x. auto.
Qed.

(** The neighbours found in this matrix: nearest for the exact distances up to twice the error. *)
Theorem C91_neighbors : forall ar rdeg rcos rsin cast s l D b M k lex1 lex2 c1 c2 tol1 tol2 es ccs es2 ccs2 n ap g (dist : nat -> nat -> R), binary64 u64 ar -> representable_dots ar -> trig_like u64 rdeg rcos rsin -> truncates cast ->
  0 <= s -> 0 <= D -> D + b <= 100000000000 -> 0 <= M <= 5000 -> M * M * (D + 1) <= 10000000000 ->
  listed ar rdeg rcos rsin s l D b M k c1 tol1 es ccs -> listed ar rdeg rcos rsin s l D b M k c2 tol2 es2 ccs2 -> es <> [] -> argpartition_ok ap -> argsort_ok g -> (n < length es2)%nat ->
  (forall i j cc cc2, nth_error ccs i = Some cc -> nth_error ccs2 j = Some cc2 -> crystal_distance k c1 c2 tol1 tol2 (cs_set (snd cc)) (cs_set (snd cc2)) (dist i j)) ->
  exists pdds pdds2 dm nn inds f0, (forall fuel, (f0 <= fuel)%nat -> entries_pdds ar rdeg rcos rsin fuel k lex1 c1 tol1 es = Done pdds /\ entries_pdds ar rdeg rcos rsin fuel k lex2 c2 tol2 es2 = Done pdds2 /\
      forall n_jobs junk sched, has_shape (length es) (length es2) junk -> Permutation sched (seq 0 (length es * length es2)) -> PDD_cdist _ (emd_of ar cast fuel) junk sched pdds pdds2 "chebyshev" n_jobs = Done dm) /\
    @neighbors_from_distance_matrix R (num_of ar) ap g n (Square dm) = Done (nn, inds) /\ length nn = length es /\ length inds = length es /\
    forall i, (i < length es)%nat -> nearly_nearest (length es2) (fun _ => True) (dist i) (emd_error D b M) n (nth i inds []) (nth i nn []).
Proof.
  intros ar rdeg rcos rsin cast s l D b M k lex1 lex2 c1 c2 tol1 tol2 es ccs es2 ccs2 n ap g dist BI HR TG HT Hs HD HDb HM HMD F1 F2 NE HA HG Hn HX.
  destruct (matrix_near ar rdeg rcos rsin cast s l D b M k BI HR TG HT Hs HD HDb HM HMD lex1 lex2 c1 c2 tol1 tol2 es ccs es2 ccs2 F1 F2 NE) as (pdds & pdds2 & dm & f0 & [S1 S2] & H & N).
  assert (ND : dm <> []) by (intros ->; destruct es; [congruence|discriminate]).
  destruct (C37_two_collections ap g n (length es2) dm HA HG (conj eq_refl S2) ND Hn) as (nn & inds & E & L1 & L2 & P). exists pdds, pdds2, dm, nn, inds, f0. split; [exact H|]. split; [exact E|]. rewrite S1 in *. split; [exact L1|]. split; [exact L2|].
  intros i Hi. eapply nearest_nearly; [apply P, Hi|]. intros j Hj _. cbv beta.
  pose proof (RoundCalc.F2_len _ _ _ _ _ F1) as LF1. pose proof (RoundCalc.F2_len _ _ _ _ _ F2) as LF2.
  destruct (nth_error ccs i) as [cc|] eqn:C1; [|apply nth_error_None in C1; lia]. destruct (nth_error ccs2 j) as [cc2|] eqn:C2; [|apply nth_error_None in C2; lia].
  destruct (N i j cc cc2 C1 C2) as [_ Y]. apply Y, (HX i j cc cc2 C1 C2).
Qed.

(** PDD_pdist, one collection. *)
Theorem C91_pdist : forall ar rdeg rcos rsin cast s l D b M k lex c tol es ccs, binary64 u64 ar -> representable_dots ar -> trig_like u64 rdeg rcos rsin -> truncates cast ->
  0 <= s -> 0 <= D -> D + b <= 100000000000 -> 0 <= M <= 5000 -> M * M * (D + 1) <= 10000000000 ->
  listed ar rdeg rcos rsin s l D b M k c tol es ccs -> es <> [] -> let m := length es in
  exists pdds cdm f0, (2 * length cdm = m * (m - 1))%nat /\
    (forall fuel, (f0 <= fuel)%nat -> entries_pdds ar rdeg rcos rsin fuel k lex c tol es = Done pdds /\
      forall n_jobs junk sched, (2 * length junk = m * (m - 1))%nat -> Permutation sched (seq 0 (length junk)) -> PDD_pdist _ (emd_of ar cast fuel) junk sched pdds "chebyshev" n_jobs = Done cdm) /\
    forall i j cc cc2, (i < j)%nat -> nth_error ccs i = Some cc -> nth_error ccs j = Some cc2 -> exists x, crystal_distance k c c tol tol (cs_set (snd cc)) (cs_set (snd cc2)) x /\ Rabs (nth (SpecCompare.before m i j) cdm 0 - x) <= emd_error D b M.
Proof.
  intros ar rdeg rcos rsin cast s l D b M k lex c tol es ccs BI HR TG HT Hs HD HDb HM HMD F NE m.
  destruct (condensed_near ar rdeg rcos rsin cast s l D b M k BI HR TG HT Hs HD HDb HM HMD lex c tol es ccs F NE) as (pdds & cdm & f0 & L & H & N).
  exists pdds, cdm, f0. split; [exact L|]. split; [exact H|]. intros i j cc cc2 Hij C1 C2. destruct (N i j cc cc2 Hij C1 C2) as [(x & X) Y]. exists x. auto.
Qed.

(** The neighbours found in it, if no computed distance is negative. *)
Theorem C91_neighbors_one : forall ar rdeg rcos rsin cast s l D b M k lex c tol es ccs n ap g (dist : nat -> nat -> R), binary64 u64 ar -> representable_dots ar -> trig_like u64 rdeg rcos rsin -> truncates cast ->
  0 <= s -> 0 <= D -> D + b <= 100000000000 -> 0 <= M <= 5000 -> M * M * (D + 1) <= 10000000000 ->
  listed ar rdeg rcos rsin s l D b M k c tol es ccs -> argpartition_ok ap -> argsort_ok g -> let m := length es in (n + 1 < m)%nat ->
  (forall i j cc cc2, (i < j)%nat -> nth_error ccs i = Some cc -> nth_error ccs j = Some cc2 -> crystal_distance k c c tol tol (cs_set (snd cc)) (cs_set (snd cc2)) (dist i j) /\ dist j i = dist i j) ->
  exists pdds cdm f0, (forall fuel, (f0 <= fuel)%nat -> entries_pdds ar rdeg rcos rsin fuel k lex c tol es = Done pdds /\
      forall n_jobs junk sched, (2 * length junk = m * (m - 1))%nat -> Permutation sched (seq 0 (length junk)) -> PDD_pdist _ (emd_of ar cast fuel) junk sched pdds "chebyshev" n_jobs = Done cdm) /\
    (Forall (fun d => 0 <= d) cdm -> exists nn inds, @neighbors_from_distance_matrix R (num_of ar) ap g n (Condensed cdm) = Done (nn, inds) /\ length nn = m /\ length inds = m /\
      forall i, (i < m)%nat -> nearly_nearest m (fun j => j <> i) (dist i) (emd_error D b M) n (nth i inds []) (nth i nn [])).
Proof.
  intros ar rdeg rcos rsin cast s l D b M k lex c tol es ccs n ap g dist BI HR TG HT Hs HD HDb HM HMD F HA HG m Hn HX.
  assert (NE : es <> []) by (intros ->; unfold m in Hn; simpl in Hn; lia).
  destruct (condensed_near ar rdeg rcos rsin cast s l D b M k BI HR TG HT Hs HD HDb HM HMD lex c tol es ccs F NE) as (pdds & cdm & f0 & L & H & N). fold m in L, H, N.
  exists pdds, cdm, f0. split; [exact H|]. intros POS. pose proof (RoundCalc.F2_len _ _ _ _ _ F) as LF.
  set (e := fun i j => if (i <? j)%nat then nth (SpecCompare.before m i j) cdm 0 else nth (SpecCompare.before m j i) cdm 0).
  destruct (C37_one_collection ap g n m cdm e HA HG L Hn POS) as (nn & inds & E & L1 & L2 & P).
  { intros i j Hij. unfold e. destruct (Nat.ltb_spec i j); [|lia]. destruct (Nat.ltb_spec j i); [lia|auto]. }
  exists nn, inds. split; [exact E|]. split; [exact L1|]. split; [exact L2|]. intros i Hi. eapply nearest_nearly; [apply P, Hi|]. intros j Hj Hji. cbv beta.
  assert (S : forall i j, (i < j)%nat -> (j < m)%nat -> Rabs (nth (SpecCompare.before m i j) cdm 0 - dist i j) <= emd_error D b M /\ dist j i = dist i j).
  { clear i j Hi Hj Hji. intros i j Hij Hj. unfold m in Hj. destruct (nth_error ccs i) as [cc|] eqn:C1; [|apply nth_error_None in C1; lia]. destruct (nth_error ccs j) as [cc2|] eqn:C2; [|apply nth_error_None in C2; lia].
    destruct (HX i j cc cc2 Hij C1 C2) as [X1 X2]. split; [|exact X2]. apply (N i j cc cc2 Hij C1 C2), X1. }
  unfold e. destruct (Nat.ltb_spec i j) as [Hlt|Hge].
  - apply S; auto.
  - destruct (S j i ltac:(lia) Hi) as [A B]. rewrite B. exact A.
Qed.

Lemma nearly_weaken : forall m ok dist err err' n inds ds, err <= err' -> nearly_nearest m ok dist err n inds ds -> nearly_nearest m ok dist err' n inds ds.
Proof.
  intros m ok dist err err' n inds ds H []. constructor; auto.
  - clear - H nn_dist. induction nn_dist; constructor; auto. lra.
  - intros. eapply Rle_trans; [eauto|]. lra.
Qed.

(** Two readings of a monoclinic crystal, with binary64: the four distances and the neighbours. *)
Lemma C91_lists : exists cs1 cs2, listed b64 deg64 cos64 sin64 1 4 4 220000 2 2 false 0 [symmetric_entry; plain_entry] [(monoclinic, cs1); (monoclinic, cs2)].
Proof.
  assert (E1 : exists cs, read_exactly (with_cell symmetric_entry monoclinic) = Done (cs, []) /\ length (ps_motif (cs_set cs)) = 2%nat).
  { unfold read_exactly, finish. cbn [with_cell symmetric_entry en_tol en_asym en_types en_ops en_uniquify ct_tol ct_cell ct_ops ct_asym ct_types ct_uniquify]. rewrite space_site_motif. cbn [obind]. eexists. split; reflexivity. }
  assert (E2 : exists cs, read_exactly (with_cell plain_entry monoclinic) = Done (cs, []) /\ length (ps_motif (cs_set cs)) = 2%nat).
  { unfold read_exactly, finish. cbn [with_cell plain_entry en_tol en_asym en_types en_ops en_uniquify ct_tol ct_cell ct_ops ct_asym ct_types ct_uniquify]. rewrite space_sites_motif. cbn [obind]. eexists. split; reflexivity. }
  destruct E1 as (cs1 & E1 & L1). destruct E2 as (cs2 & E2 & L2). exists cs1, cs2.
  constructor; [|constructor; [|constructor]]; cbn [fst snd]; (split; [|unfold vec in *; rewrite ?L1, ?L2; simpl; lra]).
  - exact (mono_stated _ _ (or_introl eq_refl) E1).
  - exact (mono_stated _ _ (or_intror eq_refl) E2).
Qed.

Example C91_case : exists pdds dm dist nn inds f0, (forall fuel, (f0 <= fuel)%nat -> entries_pdds b64 deg64 cos64 sin64 fuel 2 true false 0 [symmetric_entry; plain_entry] = Done pdds /\
    forall n_jobs junk sched, has_shape 2 2 junk -> Permutation sched (seq 0 4) -> PDD_cdist _ (emd_of b64 Int_part fuel) junk sched pdds pdds "chebyshev" n_jobs = Done dm) /\
  @neighbors_from_distance_matrix R (num_of b64) (fun row _ => order_of row) order_of 1 (Square dm) = Done (nn, inds) /\
  forall i, (i < 2)%nat -> nearly_nearest 2 (fun _ => True) (dist i) (3 / 1000000) 1 (nth i inds []) (nth i nn []).
Proof.
  destruct C91_lists as (cs1 & cs2 & F).
  assert (X : exists dist : nat -> nat -> R, forall i j cc cc2, nth_error [(monoclinic, cs1); (monoclinic, cs2)] i = Some cc -> nth_error [(monoclinic, cs1); (monoclinic, cs2)] j = Some cc2 ->
    crystal_distance 2 false false 0 0 (cs_set (snd cc)) (cs_set (snd cc2)) (dist i j)).
  { destruct (C91_cdist b64 deg64 cos64 sin64 Int_part 1 4 4 220000 2 2 true true false false 0 0 _ _ _ _ b64_binary64 b64_dots trig64 Int_part_truncates ltac:(lra) ltac:(lra) ltac:(lra) ltac:(lra) ltac:(lra) F F ltac:(discriminate))
      as (pdds & pdds2 & dm & f0 & _ & _ & N).
    destruct (N 0%nat 0%nat _ _ eq_refl eq_refl) as (x00 & X00 & _). destruct (N 0%nat 1%nat _ _ eq_refl eq_refl) as (x01 & X01 & _).
    destruct (N 1%nat 0%nat _ _ eq_refl eq_refl) as (x10 & X10 & _). destruct (N 1%nat 1%nat _ _ eq_refl eq_refl) as (x11 & X11 & _).
    exists (fun i j => match i, j with O, O => x00 | O, _ => x01 | _, O => x10 | _, _ => x11 end).
    intros [|[|[|i]]] [|[|[|j]]] cc cc2 A B; try discriminate; injection A as <-; injection B as <-; assumption. }
  destruct X as (dist & X).
  destruct (C91_neighbors b64 deg64 cos64 sin64 Int_part 1 4 4 220000 2 2 true true false false 0 0 _ _ _ _ 1 (fun row _ => order_of row) order_of dist b64_binary64 b64_dots trig64 Int_part_truncates ltac:(lra) ltac:(lra) ltac:(lra) ltac:(lra) ltac:(lra)
    F F ltac:(discriminate) C37_argpartition C37_argsort ltac:(simpl; lia) X) as (pdds & pdds2 & dm & nn & inds & f0 & H & E & _ & _ & P).
  assert (EQ : pdds2 = pdds) by (destruct (H f0 (le_n _)) as (A & B & _); congruence). subst pdds2.
  exists pdds, dm, dist, nn, inds, f0. split; [intros fuel Hf; destruct (H fuel Hf) as (A & _ & B); split; [exact A|exact B]|]. split; [exact E|].
  intros i Hi. eapply nearly_weaken; [|apply P; exact Hi]. unfold emd_error. lra.
Qed.

Print Assumptions C91_cdist.
Print Assumptions C91_neighbors.
Print Assumptions C91_pdist.
Print Assumptions C91_neighbors_one.
