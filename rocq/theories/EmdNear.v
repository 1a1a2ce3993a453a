(** The value of a run for weights which are only close to the integers of the run. *)
From Coq Require Import List ZArith Arith Bool Reals Lia Lra Psatz.
From Verif Require Import Num Outcome Base NNModel CalcModel EmdModel VecR Sums SpecEmd EmdCert EmdUniq EmdFlat EmdReal EmdRun Transport EmdThm.
Import ListNotations.
Open Scope R_scope.

Lemma Sum_abs_le : forall n f, Rabs (Sum n f) <= Sum n (fun i => Rabs (f i)).
Proof. induction n as [|n IH]; intros f; cbn [Sum]; [rewrite Rabs_R0; lra|]. eapply Rle_trans; [apply Rabs_triang|]. specialize (IH f). lra. Qed.

Section Near.
  Variables (w1 w2 : list R).
  Hypothesis W1 : light w1.
  Hypothesis W2 : light w2.
  Variable c : nat -> nat -> R.
  Variable X : nat -> nat -> Z.
  Hypothesis HR : run w1 w2 c X.
  Notation n1 := (length w1).
  Notation n2 := (length w2).
  Notation gaps := (gap w1 w2 + gap w2 w1)%Z.
  Variables (a b : nat -> R) (K1 K2 : R).
  Hypothesis Ha : forall i, (i < n1)%nat -> 0 <= a i.
  Hypothesis Hb : forall j, (j < n2)%nat -> 0 <= b j.
  Hypothesis Sa : Sum n1 a = 1.
  Hypothesis Sb : Sum n2 b = 1.
  Hypothesis D1 : Sum n1 (fun i => Rabs (a i * scale - IZR (iw w1 i))) <= K1.
  Hypothesis D2 : Sum n2 (fun j => Rabs (b j * scale - IZR (iw w2 j))) <= K2.
  Hypothesis HC : forall i j, (i < n1)%nat -> (j < n2)%nat -> 0 <= c i j.
  Variable cmax : R.
  Hypothesis Hmax : forall i j, (i < n1)%nat -> (j < n2)%nat -> c i j <= cmax.
  Notation value := (transport_cost n1 n2 (fun i j => of_fp (to_fp (c i j))) (planR X)).

  Lemma cmax_near : 0 <= cmax.
  Proof.
    pose proof (weights_pos w1 W1). pose proof (weights_pos w2 W2).
    specialize (HC 0%nat 0%nat ltac:(lia) ltac:(lia)). specialize (Hmax 0%nat 0%nat ltac:(lia) ltac:(lia)). lra.
  Qed.

  Lemma total_near : forall n f g K, Sum n f = 1 -> Sum n (fun i => Rabs (f i * scale - IZR (g i))) <= K -> Rabs (scale - IZR (ZSum n g)) <= K.
  Proof.
    intros n f g K S D. rewrite IZR_ZSum. replace scale with (Sum n (fun i => f i * scale)) by (rewrite Sum_scal_r, S; lra). rewrite <- Sum_minus.
    eapply Rle_trans; [apply Sum_abs_le|exact D].
  Qed.

  Lemma K1_pos : 0 <= K1.
  Proof. pose proof (total_near n1 a (iw w1) K1 Sa D1). pose proof (Rabs_pos (scale - IZR (ZSum n1 (iw w1)))). lra. Qed.
  Lemma K2_pos : 0 <= K2.
  Proof. pose proof (total_near n2 b (iw w2) K2 Sb D2). pose proof (Rabs_pos (scale - IZR (ZSum n2 (iw w2)))). lra. Qed.

  Lemma gaps_near : IZR gaps <= K1 + K2.
  Proof.
    pose proof (total_near n1 a (iw w1) K1 Sa D1) as T1. pose proof (total_near n2 b (iw w2) K2 Sb D2) as T2.
    assert (E : gaps = Z.abs (ZSum n1 (iw w1) - ZSum n2 (iw w2))) by (unfold gap; lia). rewrite E, abs_IZR, minus_IZR.
    replace (IZR (ZSum n1 (iw w1)) - IZR (ZSum n2 (iw w2))) with (- (scale - IZR (ZSum n1 (iw w1))) + (scale - IZR (ZSum n2 (iw w2)))) by ring.
    eapply Rle_trans; [apply Rabs_triang|]. rewrite Rabs_Ropp. lra.
  Qed.

  Theorem near_upper : forall Q, coupling n1 n2 a b Q -> value <= transport_cost n1 n2 c Q + 5 * (K1 + K2) * cmax / scale.
  Proof.
    intros Q (Q1 & Q2 & Q3). pose proof cmax_near as CP. destruct (to_fp_spec cmax CP) as [[CM _] CM0]. set (cm := to_fp cmax) in *.
    assert (Hcm : forall i j, (i < n1)%nat -> (j < n2)%nat -> (to_fp (c i j) <= cm)%Z) by (intros i j Hi Hj; apply to_fp_mono; auto).
    destruct (run_flat w1 w2 W1 W2 c X HR cm Hcm) as (p & q & F1 & F2 & F3 & F4).
    rewrite value_int. apply IZR_le in F4. set (V := ZSum n1 (fun i => ZSum n2 (fun j => (to_fp (c i j) * X i j)%Z))) in *.
    rewrite plus_IZR, minus_IZR, !mult_IZR in F4.
    set (r := fun i => ZSum n2 (fun j => X i j)) in *. set (s := fun j => ZSum n1 (fun i => X i j)) in *.
    assert (EP : IZR (ZSum n1 (fun i => (p i * r i)%Z)) = Sum n1 (fun i => IZR (p i) * IZR (r i))) by (rewrite IZR_ZSum; apply Sum_ext; intros; apply mult_IZR).
    assert (EQ : IZR (ZSum n2 (fun j => (q j * s j)%Z)) = Sum n2 (fun j => IZR (q j) * IZR (s j))) by (rewrite IZR_ZSum; apply Sum_ext; intros; apply mult_IZR).
    change (ZSum n1 (fun i => (p i * ZSum n2 (fun j => X i j))%Z)) with (ZSum n1 (fun i => (p i * r i)%Z)) in F4.
    change (ZSum n2 (fun j => (q j * ZSum n1 (fun i => X i j))%Z)) with (ZSum n2 (fun j => (q j * s j)%Z)) in F4.
    rewrite EP, EQ in F4.
    assert (DQ : Sum n1 (fun i => IZR (p i) * (a i * scale)) - Sum n2 (fun j => IZR (q j) * (b j * scale)) <= scale * scale * transport_cost n1 n2 c Q).
    { rewrite (Sum_ext n1 _ (fun i => Sum n2 (fun j => IZR (p i) * scale * Q i j))).
      2: { intros i Hi. rewrite (Sum_scal n2 _ (Q i)). rewrite <- (Q2 i Hi). change (row_total n2 Q i) with (Sum n2 (Q i)). ring. }
      rewrite (Sum_ext n2 _ (fun j => Sum n1 (fun i => IZR (q j) * scale * Q i j))).
      2: { intros j Hj. rewrite (Sum_scal n1 _ (fun i => Q i j)). rewrite <- (Q3 j Hj). unfold col_total. ring. }
      rewrite (Sum_swap n2 n1), <- Sum_minus. unfold transport_cost. rewrite <- Sum_scal. apply Sum_le. intros i Hi.
      rewrite <- Sum_minus, <- Sum_scal. apply Sum_le. intros j Hj.
      specialize (F1 i j Hi Hj). apply IZR_le in F1. rewrite minus_IZR in F1. destruct (to_fp_spec (c i j) (HC i j Hi Hj)) as [[T _] _].
      specialize (Q1 i j Hi Hj). nra. }
    assert (CM0' : 0 <= IZR cm) by (now apply IZR_le).
    assert (B1 : Sum n1 (fun i => IZR (p i) * IZR (r i)) - Sum n1 (fun i => IZR (p i) * (a i * scale)) <= IZR cm * (IZR (gap w1 w2) + K1)).
    { rewrite <- Sum_minus.
      apply Rle_trans with (Sum n1 (fun i => IZR cm * (IZR (if Nat.eqb i (top w1) then gap w1 w2 else 0) + Rabs (a i * scale - IZR (iw w1 i))))).
      - apply Sum_le. intros i Hi. pose proof (X_rows w1 w2 c X HR i Hi) as L. unfold enlarged in L. apply IZR_le in L. rewrite plus_IZR in L.
        fold (r i) in L. destruct (F2 i Hi) as [P1 P2]. apply IZR_le in P1, P2. set (g := IZR (if Nat.eqb i (top w1) then gap w1 w2 else 0)) in *.
        assert (0 <= g) by (apply IZR_le; pose proof (gap_nonneg w1 w2); destruct (Nat.eqb i (top w1)); lia).
        pose proof (Rabs_pos (a i * scale - IZR (iw w1 i))). pose proof (Rle_abs (- (a i * scale - IZR (iw w1 i)))) as A. rewrite Rabs_Ropp in A.
        set (z := Rabs (a i * scale - IZR (iw w1 i))) in *. replace (IZR (p i) * IZR (r i) - IZR (p i) * (a i * scale)) with (IZR (p i) * (IZR (r i) - a i * scale)) by ring.
        apply Rle_trans with (IZR (p i) * (g + z)); [apply Rmult_le_compat_l; lra|apply Rmult_le_compat_r; lra].
      - rewrite Sum_scal. apply Rmult_le_compat_l; auto. rewrite Sum_plus. apply Rplus_le_compat; auto.
        rewrite (Sum_single n1 (fun i => IZR (if Nat.eqb i (top w1) then gap w1 w2 else 0)) (top w1) (top_lt w1 W1)).
        + rewrite Nat.eqb_refl. lra.
        + intros j _ N. apply Nat.eqb_neq in N. now rewrite N. }
    assert (B2 : Sum n2 (fun j => IZR (q j) * (b j * scale)) - Sum n2 (fun j => IZR (q j) * IZR (s j)) <= IZR cm * (K2 + IZR gaps)).
    { rewrite <- Sum_minus. destruct HR as (ls & ld & ps & pd & big & K).
      apply Rle_trans with (Sum n2 (fun j => IZR cm * (Rabs (b j * scale - IZR (iw w2 j)) + IZR (ld j)))).
      - apply Sum_le. intros j Hj. pose proof (c_col _ _ _ _ _ _ _ _ _ _ _ _ K j Hj) as E. fold (s j) in E.
        pose proof (c_ld _ _ _ _ _ _ _ _ _ _ _ _ K j Hj) as L0. apply IZR_le in L0. pose proof (enlarged_ge w2 w1 j) as L.
        rewrite <- E in L. apply IZR_le in L. rewrite plus_IZR in L.
        destruct (F3 j Hj) as [P1 P2]. apply IZR_le in P1, P2. pose proof (Rle_abs (b j * scale - IZR (iw w2 j))) as A. pose proof (Rabs_pos (b j * scale - IZR (iw w2 j))).
        set (z := Rabs (b j * scale - IZR (iw w2 j))) in *. replace (IZR (q j) * (b j * scale) - IZR (q j) * IZR (s j)) with (IZR (q j) * (b j * scale - IZR (s j))) by ring.
        apply Rle_trans with (IZR (q j) * (z + IZR (ld j))); [apply Rmult_le_compat_l; lra|apply Rmult_le_compat_r; lra].
      - rewrite Sum_scal, Sum_plus, <- IZR_ZSum. apply Rmult_le_compat_l; auto. apply Rplus_le_compat; auto. apply IZR_le.
        assert (E : (ZSum n2 (enlarged w2 w1) = ZSum n2 s + ZSum n2 ld)%Z).
        { rewrite <- ZSum_plus. apply ZSum_ext. intros j Hj. symmetry. apply (c_col _ _ _ _ _ _ _ _ _ _ _ _ K j Hj). }
        rewrite (ZSum_enlarged w2 w1 W2) in E. pose proof (run_ship w1 w2 W1 W2 c X HR) as S. unfold s in E. rewrite ZSum_swap in S.
        pose proof (gap_sum w1 w2). pose proof (gap_nonneg w1 w2). pose proof (gap_nonneg w2 w1). lia. }
    pose proof gaps_near as GL. pose proof K1_pos. pose proof K2_pos.
    assert (G1 : IZR (gap w1 w2) <= IZR gaps) by (apply IZR_le; pose proof (gap_nonneg w2 w1); lia).
    assert (G0 : 0 <= IZR gaps) by (apply IZR_le; pose proof (gap_nonneg w2 w1); pose proof (gap_nonneg w1 w2); lia).
    assert (F : IZR V <= scale * scale * transport_cost n1 n2 c Q + IZR cm * (5 * (K1 + K2))) by nra.
    assert (F' : IZR cm * (5 * (K1 + K2)) <= cmax * scale * (5 * (K1 + K2))) by (apply Rmult_le_compat_r; lra).
    apply (Rmult_le_reg_l (scale * scale)); [lra|].
    replace (scale * scale * (IZR V / (scale * scale))) with (IZR V) by field.
    replace (scale * scale * (transport_cost n1 n2 c Q + 5 * (K1 + K2) * cmax / scale)) with
      (scale * scale * transport_cost n1 n2 c Q + cmax * scale * (5 * (K1 + K2))) by field. lra.
  Qed.

  Lemma near_mass : 1 - (K1 + K2) / scale <= mass n1 n2 (planR X).
  Proof.
    rewrite planR_mass. pose proof (run_ship w1 w2 W1 W2 c X HR) as S.
    pose proof (total_near n1 a (iw w1) K1 Sa D1) as T1. pose proof (total_near n2 b (iw w2) K2 Sb D2) as T2. pose proof K1_pos. pose proof K2_pos.
    pose proof (Rle_abs (scale - IZR (ZSum n1 (iw w1)))). pose proof (Rle_abs (scale - IZR (ZSum n2 (iw w2)))).
    set (M := ZSum n1 (fun i => ZSum n2 (fun j => X i j))) in *. assert (L : scale - (K1 + K2) <= IZR M).
    { destruct (Z.min_spec (ZSum n1 (iw w1)) (ZSum n2 (iw w2))) as [[_ E]|[_ E]]; rewrite E in S; apply IZR_le in S; lra. }
    lra.
  Qed.

  Lemma planR_nonneg : nonneg n1 n2 (planR X).
  Proof. intros i j Hi Hj. destruct (X_range w1 w2 c X HR i j Hi Hj) as [R1 _]. apply IZR_le in R1. unfold planR. lra. Qed.

  Theorem near_lower : exists Q, coupling n1 n2 a b Q /\ transport_cost n1 n2 c Q <= value + (1 + 5 * (K1 + K2) * cmax) / scale.
  Proof.
    pose proof cmax_near as CP. pose proof gaps_near as GL. pose proof K1_pos as KP1. pose proof K2_pos as KP2.
    destruct (trim n1 n2 a b (planR X) planR_nonneg Ha Hb) as (Z & Z1 & Z2 & Z3 & Z4 & Z5).
    destruct (complete n1 n2 a b Z Z1) as (Q & Q1 & Q2); auto; [rewrite Sa, Sb; auto|]. exists Q. split; auto.
    pose proof (gap_nonneg w1 w2) as GN1. pose proof (gap_nonneg w2 w1) as GN2. apply IZR_le in GN1, GN2.
    assert (R1 : Sum n1 (fun i => pos (row_total n2 (planR X) i - a i)) <= (IZR (gap w1 w2) + K1) / scale).
    { apply Rle_trans with (Sum n1 (fun i => / scale * (IZR (if Nat.eqb i (top w1) then gap w1 w2 else 0) + Rabs (a i * scale - IZR (iw w1 i))))).
      - apply Sum_le. intros i Hi. rewrite planR_rows. pose proof (X_rows w1 w2 c X HR i Hi) as L. unfold enlarged in L. apply IZR_le in L. rewrite plus_IZR in L.
        set (g := IZR (if Nat.eqb i (top w1) then gap w1 w2 else 0)) in *. assert (0 <= g) by (apply IZR_le; destruct (Nat.eqb i (top w1)); [apply gap_nonneg|lia]).
        pose proof (Rabs_pos (a i * scale - IZR (iw w1 i))). pose proof (Rle_abs (- (a i * scale - IZR (iw w1 i)))) as A. rewrite Rabs_Ropp in A. unfold pos. apply Rmax_lub; lra.
      - rewrite Sum_scal, Sum_plus. rewrite (Sum_single n1 (fun i => IZR (if Nat.eqb i (top w1) then gap w1 w2 else 0)) (top w1) (top_lt w1 W1)); [rewrite Nat.eqb_refl; lra|].
        intros j _ N. apply Nat.eqb_neq in N. now rewrite N. }
    assert (R2 : Sum n2 (fun j => pos (col_total n1 (planR X) j - b j)) <= (IZR (gap w2 w1) + K2) / scale).
    { apply Rle_trans with (Sum n2 (fun j => / scale * (IZR (if Nat.eqb j (top w2) then gap w2 w1 else 0) + Rabs (b j * scale - IZR (iw w2 j))))).
      - apply Sum_le. intros i Hi. rewrite planR_cols. pose proof (X_cols w1 w2 c X HR i Hi) as L. unfold enlarged in L. apply IZR_le in L. rewrite plus_IZR in L.
        set (g := IZR (if Nat.eqb i (top w2) then gap w2 w1 else 0)) in *. assert (0 <= g) by (apply IZR_le; destruct (Nat.eqb i (top w2)); [apply gap_nonneg|lia]).
        pose proof (Rabs_pos (b i * scale - IZR (iw w2 i))). pose proof (Rle_abs (- (b i * scale - IZR (iw w2 i)))) as A. rewrite Rabs_Ropp in A. unfold pos. apply Rmax_lub; lra.
      - rewrite Sum_scal, Sum_plus. rewrite (Sum_single n2 (fun i => IZR (if Nat.eqb i (top w2) then gap w2 w1 else 0)) (top w2) (top_lt w2 W2)); [rewrite Nat.eqb_refl; lra|].
        intros j _ N. apply Nat.eqb_neq in N. now rewrite N. }
    pose proof near_mass as PM. rewrite plus_IZR in GL.
    pose proof (coupling_mass _ _ _ _ _ Q1) as QM. rewrite Sa in QM.
    assert (C1 : transport_cost n1 n2 c Q <= transport_cost n1 n2 (fun i j => of_fp (to_fp (c i j))) Q + 1 / scale).
    { replace (1 / scale) with (1 / scale * mass n1 n2 Q) by (rewrite QM; lra). unfold transport_cost, mass.
      rewrite <- Sum_scal, <- Sum_plus. apply Sum_le. intros i Hi. rewrite <- Sum_scal, <- Sum_plus. apply Sum_le. intros j Hj.
      destruct (to_fp_spec (c i j) (HC i j Hi Hj)) as [[_ T] _]. unfold of_fp, fp_multiplier.
      destruct Q1 as [Qp _]. specialize (Qp i j Hi Hj). assert (c i j <= IZR (to_fp (c i j)) / scale + 1 / scale) by lra. nra. }
    assert (C2 : transport_cost n1 n2 (fun i j => of_fp (to_fp (c i j))) Q <=
                 transport_cost n1 n2 (fun i j => of_fp (to_fp (c i j))) Z + cmax * (mass n1 n2 Q - mass n1 n2 Z)).
    { apply cost_added; auto. intros i j Hi Hj. destruct (to_fp_spec (c i j) (HC i j Hi Hj)) as [[T _] T0]. apply IZR_le in T0.
      specialize (Hmax i j Hi Hj). unfold of_fp, fp_multiplier. lra. }
    assert (C3 : transport_cost n1 n2 (fun i j => of_fp (to_fp (c i j))) Z <= value).
    { apply cost_le; auto. intros i j Hi Hj. destruct (to_fp_spec (c i j) (HC i j Hi Hj)) as [_ T0]. apply IZR_le in T0.
      unfold of_fp, fp_multiplier. lra. }
    rewrite QM in C2.
    assert (MZ : 1 - mass n1 n2 Z <= 3 * ((K1 + K2) / scale)) by lra.
    assert (cmax * (1 - mass n1 n2 Z) <= cmax * (3 * ((K1 + K2) / scale))) by (apply Rmult_le_compat_l; lra).
    assert (0 <= (K1 + K2) * cmax) by (apply Rmult_le_pos; lra).
    replace ((1 + 5 * (K1 + K2) * cmax) / scale) with (1 / scale + cmax * (3 * ((K1 + K2) / scale)) + 2 * ((K1 + K2) * cmax / scale)) by field.
    assert (0 <= (K1 + K2) * cmax / scale) by lra. lra.
  Qed.

  Theorem near_within : emd_within n1 n2 a b c ((1 + 5 * (K1 + K2) * cmax) / scale) value.
  Proof.
    split; [|apply near_lower]. intros Q HQ. pose proof (near_upper Q HQ).
    replace ((1 + 5 * (K1 + K2) * cmax) / scale) with (5 * (K1 + K2) * cmax / scale + 1 / scale) by field. lra.
  Qed.

  (** The plan moves no more than everything. *)
  Lemma near_mass_le : mass n1 n2 (planR X) <= 1.
  Proof.
    rewrite planR_mass. assert (L : (ZSum n1 (fun i => ZSum n2 (fun j => X i j)) <= EmdModel.FP)%Z); [|apply IZR_le in L; unfold EmdModel.FP in L; lra].
    destruct (iw_le w1 W1) as [_ U1], (iw_le w2 W2) as [_ U2].
    apply Z.le_trans with (ZSum n1 (enlarged w1 w2)); [apply ZSum_le; intros i Hi; apply (X_rows w1 w2 c X HR i Hi)|].
    rewrite (ZSum_enlarged w1 w2 W1). unfold gap. lia.
  Qed.
End Near.
