(** What the value and the plan returned by network_simplex say about the transport problem
    with the given real weights and costs. *)
From Coq Require Import List ZArith Arith Bool Reals Lia Lra.
From Verif Require Import Num Outcome Base NNModel CalcModel EmdModel VecR Sums SpecEmd EmdCert EmdUniq EmdFlat EmdReal EmdRun Transport.
Import ListNotations.
Open Scope R_scope.

Notation scale := 100000000.

Lemma run_flip : forall w1 w2 c X, run w1 w2 c X -> run w2 w1 (fun j i => c i j) (fun j i => X i j).
Proof.
  intros w1 w2 c X (ls & ld & ps & pd & big & K). apply cert_transpose in K.
  exists ld, ls, (fun j => (- pd j)%Z), (fun i => (- ps i)%Z), big. eapply cert_ext; [| | | |exact K]; auto.
  intros i j Hi Hj. apply Z.min_comm.
Qed.

Lemma ZSum_enlarged : forall w w', light w -> ZSum (length w) (enlarged w w') = (ZSum (length w) (iw w) + gap w w')%Z.
Proof.
  intros w w' H. unfold enlarged. rewrite ZSum_plus. f_equal.
  rewrite (ZSum_single (length w) _ (top w) (top_lt w H)); [now rewrite Nat.eqb_refl|].
  intros j _ N. apply Nat.eqb_neq in N. now rewrite N.
Qed.

Lemma enlarged_ge : forall w w' i, (iw w i <= enlarged w w' i)%Z.
Proof. intros. unfold enlarged. pose proof (gap_nonneg w w'). destruct (Nat.eqb i (top w)); lia. Qed.

Lemma enlarged_0 : forall w w' i, gap w w' = 0%Z -> enlarged w w' i = iw w i.
Proof. intros w w' i H. unfold enlarged. rewrite H. destruct (Nat.eqb i (top w)); lia. Qed.

Section One.
  Variables (w1 w2 : list R).
  Hypothesis W1 : light w1.
  Hypothesis W2 : light w2.
  Variable c : nat -> nat -> R.
  Variable X : nat -> nat -> Z.
  Hypothesis HR : run w1 w2 c X.
  Notation n1 := (length w1).
  Notation n2 := (length w2).
  Hypothesis G0 : gap w2 w1 = 0%Z.

  Lemma ship_side : (ZSum n1 (iw w1) <= ZSum n1 (fun i => ZSum n2 (fun j => X i j)))%Z.
  Proof.
    destruct HR as (ls & ld & ps & pd & big & K). apply le_IZR. rewrite !IZR_ZSum.
    rewrite (Sum_ext n1 (fun i => IZR (ZSum n2 (fun j => X i j))) (fun i => Sum n2 (fun j => IZR (X i j)))) by (intros; apply IZR_ZSum).
    apply (ship_most _ _ _ _ _ _ _ _ _ _ _ _ K (iw w1) (top w1) (gap w1 w2) (top_lt w1 W1)).
    - intros i Hi. reflexivity.
    - intros i Hi. apply iw_spec; auto.
    - intros j Hj. rewrite enlarged_0 by auto. apply iw_spec; auto.
    - intros i j Hi Hj. rewrite enlarged_0 by auto. reflexivity.
    - apply gap_nonneg.
  Qed.

  Lemma flat_side : forall cm, (forall i j, (i < n1)%nat -> (j < n2)%nat -> (to_fp (c i j) <= cm)%Z) ->
    exists p q : nat -> Z,
    (forall i j, (i < n1)%nat -> (j < n2)%nat -> p i - q j <= to_fp (c i j))%Z /\
    (forall i, (i < n1)%nat -> 0 <= p i <= cm)%Z /\ (forall j, (j < n2)%nat -> 0 <= q j <= cm)%Z /\
    (ZSum n1 (fun i => ZSum n2 (fun j => to_fp (c i j) * X i j)) <=
      ZSum n1 (fun i => p i * ZSum n2 (fun j => X i j)) - ZSum n2 (fun j => q j * ZSum n1 (fun i => X i j)) + 2 * cm * gap w1 w2)%Z.
  Proof.
    intros cm Hcm. destruct HR as (ls & ld & ps & pd & big & K).
    apply (flat_duals _ _ _ _ _ _ _ _ _ _ _ _ K (iw w1) (top w1) (gap w1 w2) (top_lt w1 W1)); auto.
    - apply weights_pos; auto.
    - intros i j Hi Hj. rewrite enlarged_0 by auto. reflexivity.
    - apply gap_nonneg.
  Qed.
End One.

Section Light.
  Variables (w1 w2 : list R).
  Hypothesis W1 : light w1.
  Hypothesis W2 : light w2.
  Variable c : nat -> nat -> R.
  Variable X : nat -> nat -> Z.
  Hypothesis HR : run w1 w2 c X.
  Notation n1 := (length w1).
  Notation n2 := (length w2).
  Notation gaps := (gap w1 w2 + gap w2 w1)%Z.
  Notation big_n := (Nat.max n1 n2).

  Lemma run_ship : (Z.min (ZSum n1 (iw w1)) (ZSum n2 (iw w2)) <= ZSum n1 (fun i => ZSum n2 (fun j => X i j)))%Z.
  Proof.
    destruct (gap_one w1 w2) as [G|G].
    - pose proof (ship_side w2 w1 W2 W1 _ _ (run_flip _ _ _ _ HR) G) as S. rewrite ZSum_swap in S. lia.
    - pose proof (ship_side w1 w2 W1 W2 c X HR G) as S. lia.
  Qed.

  Lemma run_flat : forall cm, (forall i j, (i < n1)%nat -> (j < n2)%nat -> (to_fp (c i j) <= cm)%Z) ->
    exists p q : nat -> Z,
    (forall i j, (i < n1)%nat -> (j < n2)%nat -> p i - q j <= to_fp (c i j))%Z /\
    (forall i, (i < n1)%nat -> 0 <= p i <= cm)%Z /\ (forall j, (j < n2)%nat -> 0 <= q j <= cm)%Z /\
    (ZSum n1 (fun i => ZSum n2 (fun j => to_fp (c i j) * X i j)) <=
      ZSum n1 (fun i => p i * ZSum n2 (fun j => X i j)) - ZSum n2 (fun j => q j * ZSum n1 (fun i => X i j)) + 2 * cm * gaps)%Z.
  Proof.
    intros cm Hcm. destruct (gap_one w1 w2) as [G|G].
    - destruct (flat_side w2 w1 W2 W1 _ _ (run_flip _ _ _ _ HR) G cm) as (p & q & H1 & H2 & H3 & H4); [auto|].
      exists (fun i => cm - q i)%Z, (fun j => cm - p j)%Z.
      split; [intros i j Hi Hj; specialize (H1 j i Hj Hi); lia|].
      split; [intros i Hi; specialize (H3 i Hi); lia|]. split; [intros j Hj; specialize (H2 j Hj); lia|].
      rewrite ZSum_swap in H4. cbv beta in H4. rewrite G, Z.add_0_l.
      assert (E1 : (ZSum n1 (fun i => (cm - q i) * ZSum n2 (fun j => X i j)) =
               cm * ZSum n1 (fun i => ZSum n2 (fun j => X i j)) + -1 * ZSum n1 (fun i => q i * ZSum n2 (fun j => X i j)))%Z).
      { rewrite <- !ZSum_scal, <- ZSum_plus. apply ZSum_ext. intros i Hi. lia. }
      assert (E2 : (ZSum n2 (fun j => (cm - p j) * ZSum n1 (fun i => X i j)) =
               cm * ZSum n2 (fun j => ZSum n1 (fun i => X i j)) + -1 * ZSum n2 (fun j => p j * ZSum n1 (fun i => X i j)))%Z).
      { rewrite <- !ZSum_scal, <- ZSum_plus. apply ZSum_ext. intros i Hi. lia. }
      rewrite (ZSum_swap n2 n1 (fun j i => X i j)) in E2. rewrite E1, E2. lia.
    - destruct (flat_side w1 w2 W1 W2 c X HR G cm Hcm) as (p & q & H1 & H2 & H3 & H4). exists p, q.
      rewrite G, Z.add_0_r. auto.
  Qed.

  (** Entries, rows and columns of the plan. *)
  Lemma X_range : forall i j, (i < n1)%nat -> (j < n2)%nat -> (0 <= X i j <= Z.min (iw w1 i) (iw w2 j))%Z.
  Proof. destruct HR as (ls & ld & ps & pd & big & K). apply (c_x _ _ _ _ _ _ _ _ _ _ _ _ K). Qed.
  Lemma X_rows : forall i, (i < n1)%nat -> (ZSum n2 (fun j => X i j) <= enlarged w1 w2 i)%Z.
  Proof.
    destruct HR as (ls & ld & ps & pd & big & K). intros i Hi. pose proof (c_row _ _ _ _ _ _ _ _ _ _ _ _ K i Hi).
    pose proof (c_ls _ _ _ _ _ _ _ _ _ _ _ _ K i Hi). lia.
  Qed.
  Lemma X_cols : forall j, (j < n2)%nat -> (ZSum n1 (fun i => X i j) <= enlarged w2 w1 j)%Z.
  Proof.
    destruct HR as (ls & ld & ps & pd & big & K). intros j Hj. pose proof (c_col _ _ _ _ _ _ _ _ _ _ _ _ K j Hj).
    pose proof (c_ld _ _ _ _ _ _ _ _ _ _ _ _ K j Hj). lia.
  Qed.

  Lemma planR_rows : forall i, row_total n2 (planR X) i = IZR (ZSum n2 (fun j => X i j)) / scale.
  Proof. intros i. rewrite IZR_ZSum. unfold row_total, planR, Rdiv. apply Sum_scal_r. Qed.
  Lemma planR_cols : forall j, col_total n1 (planR X) j = IZR (ZSum n1 (fun i => X i j)) / scale.
  Proof. intros j. rewrite IZR_ZSum. unfold col_total, planR, Rdiv. apply (Sum_scal_r n1 _ (fun i => IZR (X i j))). Qed.
  Lemma planR_mass : mass n1 n2 (planR X) = IZR (ZSum n1 (fun i => ZSum n2 (fun j => X i j))) / scale.
  Proof.
    rewrite mass_rows, IZR_ZSum. unfold Rdiv. rewrite <- (Sum_scal_r n1). apply Sum_ext. intros i Hi. apply planR_rows.
  Qed.

End Light.

Section Both.
  Variables (w1 w2 : list R).
  Hypothesis W1 : weights w1.
  Hypothesis W2 : weights w2.
  Variable c : nat -> nat -> R.
  Variable X : nat -> nat -> Z.
  Hypothesis HR : run w1 w2 c X.
  Notation n1 := (length w1).
  Notation n2 := (length w2).
  Notation gaps := (gap w1 w2 + gap w2 w1)%Z.
  Notation big_n := (Nat.max n1 n2).

  Lemma gaps_lt : (gaps < Z.of_nat big_n)%Z.
  Proof. pose proof (gap_lt w1 w2 W1 W2). pose proof (gap_lt w2 w1 W2 W1). destruct (gap_one w1 w2); lia. Qed.

  Lemma plan_entry : forall i j, (i < n1)%nat -> (j < n2)%nat -> 0 <= planR X i j <= Rmin (vx w1 i) (vx w2 j).
  Proof.
    intros i j Hi Hj. destruct (X_range w1 w2 c X HR i j Hi Hj) as [R1 R2]. destruct (iw_spec w1 i W1 Hi) as [[S1 _] _], (iw_spec w2 j W2 Hj) as [[S2 _] _].
    apply IZR_le in R1. assert (IZR (X i j) <= IZR (iw w1 i)) by (apply IZR_le; lia). assert (IZR (X i j) <= IZR (iw w2 j)) by (apply IZR_le; lia).
    unfold planR. split; [lra|]. apply Rmin_glb; lra.
  Qed.

  Lemma plan_row : forall i, (i < n1)%nat ->
    row_total n2 (planR X) i <= vx w1 i + (if Nat.eqb i (top w1) then IZR (gap w1 w2) / scale else 0).
  Proof.
    intros i Hi. rewrite planR_rows. pose proof (X_rows w1 w2 c X HR i Hi) as L. unfold enlarged in L. apply IZR_le in L. rewrite plus_IZR in L.
    destruct (iw_spec w1 i W1 Hi) as [[S1 _] _]. destruct (Nat.eqb i (top w1)); lra.
  Qed.
  Lemma plan_col : forall j, (j < n2)%nat ->
    col_total n1 (planR X) j <= vx w2 j + (if Nat.eqb j (top w2) then IZR (gap w2 w1) / scale else 0).
  Proof.
    intros j Hj. rewrite planR_cols. pose proof (X_cols w1 w2 c X HR j Hj) as L. unfold enlarged in L. apply IZR_le in L. rewrite plus_IZR in L.
    destruct (iw_spec w2 j W2 Hj) as [[S1 _] _]. destruct (Nat.eqb j (top w2)); lra.
  Qed.

  Lemma plan_mass : 1 - INR big_n / scale < mass n1 n2 (planR X).
  Proof.
    rewrite planR_mass. pose proof (run_ship w1 w2 W1 W2 c X HR) as S. destruct (iw_sum w1 W1) as [_ L1], (iw_sum w2 W2) as [_ L2].
    assert (L : (EmdModel.FP - Z.of_nat big_n < ZSum n1 (fun i => ZSum n2 (fun j => X i j)))%Z) by lia.
    apply IZR_lt in L. rewrite minus_IZR, <- INR_IZR_INZ in L. unfold EmdModel.FP in L. lra.
  Qed.

  Hypothesis HC : forall i j, (i < n1)%nat -> (j < n2)%nat -> 0 <= c i j.
  Variable cmax : R.
  Hypothesis Hmax : forall i j, (i < n1)%nat -> (j < n2)%nat -> c i j <= cmax.

  Notation value := (transport_cost n1 n2 (fun i j => of_fp (to_fp (c i j))) (planR X)).

  Lemma cmax_pos : 0 <= cmax.
  Proof.
    pose proof (weights_pos w1 W1). pose proof (weights_pos w2 W2).
    specialize (HC 0%nat 0%nat ltac:(lia) ltac:(lia)). specialize (Hmax 0%nat 0%nat ltac:(lia) ltac:(lia)). lra.
  Qed.

  Lemma value_int : value = IZR (ZSum n1 (fun i => ZSum n2 (fun j => to_fp (c i j) * X i j)%Z)) / (scale * scale).
  Proof.
    rewrite IZR_ZSum. unfold transport_cost, Rdiv. rewrite <- Sum_scal_r. apply Sum_ext. intros i Hi.
    rewrite IZR_ZSum, <- Sum_scal_r. apply Sum_ext. intros j Hj. rewrite mult_IZR. unfold of_fp, planR, fp_multiplier. field.
  Qed.

  (** No coupling is much cheaper than the returned value. *)
  Theorem value_upper : forall Q, coupling n1 n2 (vx w1) (vx w2) Q ->
    value <= transport_cost n1 n2 c Q + 5 * INR big_n * cmax / scale.
  Proof.
    intros Q (Q1 & Q2 & Q3). pose proof cmax_pos as CP. destruct (to_fp_spec cmax CP) as [[CM _] CM0].
    set (cm := to_fp cmax) in *.
    assert (Hcm : forall i j, (i < n1)%nat -> (j < n2)%nat -> (to_fp (c i j) <= cm)%Z).
    { intros i j Hi Hj. apply to_fp_mono. auto. }
    destruct (run_flat w1 w2 W1 W2 c X HR cm Hcm) as (p & q & F1 & F2 & F3 & F4).
    rewrite value_int. apply IZR_le in F4. set (V := ZSum n1 (fun i => ZSum n2 (fun j => (to_fp (c i j) * X i j)%Z))) in *.
    rewrite plus_IZR, minus_IZR, !mult_IZR in F4.
    set (r := fun i => ZSum n2 (fun j => X i j)) in *. set (s := fun j => ZSum n1 (fun i => X i j)) in *.
    assert (EP : IZR (ZSum n1 (fun i => (p i * r i)%Z)) = Sum n1 (fun i => IZR (p i) * IZR (r i))).
    { rewrite IZR_ZSum. apply Sum_ext. intros. apply mult_IZR. }
    assert (EQ : IZR (ZSum n2 (fun j => (q j * s j)%Z)) = Sum n2 (fun j => IZR (q j) * IZR (s j))).
    { rewrite IZR_ZSum. apply Sum_ext. intros. apply mult_IZR. }
    change (ZSum n1 (fun i => (p i * ZSum n2 (fun j => X i j))%Z)) with (ZSum n1 (fun i => (p i * r i)%Z)) in F4.
    change (ZSum n2 (fun j => (q j * ZSum n1 (fun i => X i j))%Z)) with (ZSum n2 (fun j => (q j * s j)%Z)) in F4.
    rewrite EP, EQ in F4.
    (* the dual value bounds the cost of Q *)
    assert (DQ : Sum n1 (fun i => IZR (p i) * (vx w1 i * scale)) - Sum n2 (fun j => IZR (q j) * (vx w2 j * scale)) <=
                 scale * scale * transport_cost n1 n2 c Q).
    { rewrite (Sum_ext n1 _ (fun i => Sum n2 (fun j => IZR (p i) * scale * Q i j))).
      2: { intros i Hi. rewrite (Sum_scal n2 _ (Q i)). rewrite <- (Q2 i Hi). change (row_total n2 Q i) with (Sum n2 (Q i)). ring. }
      rewrite (Sum_ext n2 _ (fun j => Sum n1 (fun i => IZR (q j) * scale * Q i j))).
      2: { intros j Hj. rewrite (Sum_scal n1 _ (fun i => Q i j)). rewrite <- (Q3 j Hj). unfold col_total. ring. }
      rewrite (Sum_swap n2 n1), <- Sum_minus. unfold transport_cost. rewrite <- Sum_scal. apply Sum_le. intros i Hi.
      rewrite <- Sum_minus, <- Sum_scal. apply Sum_le. intros j Hj.
      specialize (F1 i j Hi Hj). apply IZR_le in F1. rewrite minus_IZR in F1. destruct (to_fp_spec (c i j) (HC i j Hi Hj)) as [[T _] _].
      specialize (Q1 i j Hi Hj). nra. }
    assert (B1 : Sum n1 (fun i => IZR (p i) * IZR (r i)) - Sum n1 (fun i => IZR (p i) * (vx w1 i * scale)) <= IZR cm * IZR (gap w1 w2)).
    { rewrite <- Sum_minus.
      apply Rle_trans with (Sum n1 (fun i => IZR cm * IZR (if Nat.eqb i (top w1) then gap w1 w2 else 0))).
      - apply Sum_le. intros i Hi. pose proof (X_rows w1 w2 c X HR i Hi) as L. unfold enlarged in L. apply IZR_le in L. rewrite plus_IZR in L.
        fold (r i) in L. destruct (iw_spec w1 i W1 Hi) as [[S1 _] _]. destruct (F2 i Hi) as [P1 P2]. apply IZR_le in P1, P2.
        assert (0 <= IZR (if Nat.eqb i (top w1) then gap w1 w2 else 0)).
        { apply IZR_le. pose proof (gap_nonneg w1 w2). destruct (Nat.eqb i (top w1)); lia. }
        nra.
      - rewrite Sum_scal. rewrite (Sum_single n1 (fun i => IZR (if Nat.eqb i (top w1) then gap w1 w2 else 0)) (top w1) (top_lt w1 W1)).
        + rewrite Nat.eqb_refl. lra.
        + intros j _ N. apply Nat.eqb_neq in N. now rewrite N. }
    assert (B2 : Sum n2 (fun j => IZR (q j) * (vx w2 j * scale)) - Sum n2 (fun j => IZR (q j) * IZR (s j)) <= IZR cm * (INR n2 + IZR gaps)).
    { rewrite <- Sum_minus. destruct HR as (ls & ld & ps & pd & big & K).
      apply Rle_trans with (Sum n2 (fun j => IZR cm * (1 + IZR (ld j)))).
      - apply Sum_le. intros j Hj. pose proof (c_col _ _ _ _ _ _ _ _ _ _ _ _ K j Hj) as E. fold (s j) in E.
        pose proof (c_ld _ _ _ _ _ _ _ _ _ _ _ _ K j Hj) as L0. apply IZR_le in L0. pose proof (enlarged_ge w2 w1 j) as L.
        rewrite <- E in L. apply IZR_le in L. rewrite plus_IZR in L.
        destruct (iw_spec w2 j W2 Hj) as [[_ S1] _]. destruct (F3 j Hj) as [P1 P2]. apply IZR_le in P1, P2. nra.
      - rewrite Sum_scal, Sum_plus, Sum_const, <- IZR_ZSum, Rmult_1_r. apply Rmult_le_compat_l; [now apply IZR_le|].
        apply Rplus_le_compat_l, IZR_le.
        assert (E : (ZSum n2 (enlarged w2 w1) = ZSum n2 s + ZSum n2 ld)%Z).
        { rewrite <- ZSum_plus. apply ZSum_ext. intros j Hj. symmetry. apply (c_col _ _ _ _ _ _ _ _ _ _ _ _ K j Hj). }
        rewrite (ZSum_enlarged w2 w1 W2) in E. pose proof (run_ship w1 w2 W1 W2 c X HR) as S. unfold s in E. rewrite ZSum_swap in S.
        pose proof (gap_sum w1 w2). pose proof (gap_nonneg w1 w2). pose proof (gap_nonneg w2 w1). lia. }
    pose proof gaps_lt as GL. assert (GL' : (gaps <= Z.of_nat big_n)%Z) by lia. apply IZR_le in GL'. rewrite <- INR_IZR_INZ in GL'.
    assert (G1 : IZR (gap w1 w2) <= IZR gaps) by (apply IZR_le; pose proof (gap_nonneg w2 w1); lia).
    assert (N2 : INR n2 <= INR big_n) by (apply le_INR; lia).
    assert (CM0' : 0 <= IZR cm) by (now apply IZR_le).
    assert (NB : 0 <= INR big_n) by apply pos_INR.
    assert (F : IZR V <= scale * scale * transport_cost n1 n2 c Q + IZR cm * (5 * INR big_n)) by nra.
    assert (F' : IZR cm * (5 * INR big_n) <= cmax * scale * (5 * INR big_n)) by nra.
    apply (Rmult_le_reg_l (scale * scale)); [lra|].
    replace (scale * scale * (IZR V / (scale * scale))) with (IZR V) by field.
    replace (scale * scale * (transport_cost n1 n2 c Q + 5 * INR big_n * cmax / scale)) with
      (scale * scale * transport_cost n1 n2 c Q + cmax * scale * (5 * INR big_n)) by field. lra.
  Qed.

  (** Some coupling is not much dearer. *)
  Theorem value_lower : exists Q, coupling n1 n2 (vx w1) (vx w2) Q /\
    transport_cost n1 n2 c Q <= value + (1 + 5 * INR big_n * cmax) / scale.
  Proof.
    pose proof cmax_pos as CP.
    destruct (trim n1 n2 (vx w1) (vx w2) (planR X)) as (Z & Z1 & Z2 & Z3 & Z4 & Z5).
    { intros i j Hi Hj. apply plan_entry; auto. }
    { intros i Hi. pose proof (vx_min w1 i W1 Hi). lra. }
    { intros j Hj. pose proof (vx_min w2 j W2 Hj). lra. }
    destruct (complete n1 n2 (vx w1) (vx w2) Z Z1) as (Q & Q1 & Q2); auto.
    { rewrite (w_sum _ W1). now rewrite (w_sum _ W2). }
    exists Q. split; auto.
    pose proof (gap_nonneg w1 w2) as GN1. pose proof (gap_nonneg w2 w1) as GN2. apply IZR_le in GN1, GN2.
    assert (R1 : Sum n1 (fun i => pos (row_total n2 (planR X) i - vx w1 i)) <= IZR (gap w1 w2) / scale).
    { apply Rle_trans with (Sum n1 (fun i => if Nat.eqb i (top w1) then IZR (gap w1 w2) / scale else 0)).
      - apply Sum_le. intros i Hi. pose proof (plan_row i Hi). unfold pos. apply Rmax_lub; [destruct (Nat.eqb i (top w1)); lra|]. lra.
      - rewrite (Sum_single n1 _ (top w1) (top_lt w1 W1)); [rewrite Nat.eqb_refl; lra|].
        intros j _ N. apply Nat.eqb_neq in N. now rewrite N. }
    assert (R2 : Sum n2 (fun j => pos (col_total n1 (planR X) j - vx w2 j)) <= IZR (gap w2 w1) / scale).
    { apply Rle_trans with (Sum n2 (fun i => if Nat.eqb i (top w2) then IZR (gap w2 w1) / scale else 0)).
      - apply Sum_le. intros i Hi. pose proof (plan_col i Hi). unfold pos. apply Rmax_lub; [destruct (Nat.eqb i (top w2)); lra|]. lra.
      - rewrite (Sum_single n2 _ (top w2) (top_lt w2 W2)); [rewrite Nat.eqb_refl; lra|].
        intros j _ N. apply Nat.eqb_neq in N. now rewrite N. }
    pose proof plan_mass as PM. pose proof gaps_lt as GL. apply IZR_lt in GL. rewrite plus_IZR, <- INR_IZR_INZ in GL.
    pose proof (coupling_mass _ _ _ _ _ Q1) as QM. rewrite (w_sum _ W1) in QM.
    assert (C1 : transport_cost n1 n2 c Q <= transport_cost n1 n2 (fun i j => of_fp (to_fp (c i j))) Q + 1 / scale).
    { replace (1 / scale) with (1 / scale * mass n1 n2 Q) by (rewrite QM; lra). unfold transport_cost, mass.
      rewrite <- Sum_scal, <- Sum_plus. apply Sum_le. intros i Hi. rewrite <- Sum_scal, <- Sum_plus. apply Sum_le. intros j Hj.
      destruct (to_fp_spec (c i j) (HC i j Hi Hj)) as [[_ T] _]. unfold of_fp, fp_multiplier.
      destruct Q1 as [Qp _]. specialize (Qp i j Hi Hj). assert (c i j <= IZR (to_fp (c i j)) / scale + 1 / scale) by lra. nra. }
    assert (C2 : transport_cost n1 n2 (fun i j => of_fp (to_fp (c i j))) Q <=
                 transport_cost n1 n2 (fun i j => of_fp (to_fp (c i j))) Z + cmax * (mass n1 n2 Q - mass n1 n2 Z)).
    { apply cost_added; auto. intros i j Hi Hj. destruct (to_fp_spec (c i j) (HC i j Hi Hj)) as [[T _] T0]. apply IZR_le in T0.
      specialize (Hmax i j Hi Hj). unfold of_fp, fp_multiplier. lra. }
    assert (C3 : transport_cost n1 n2 (fun i j => of_fp (to_fp (c i j))) Z <= value).
    { apply cost_le; auto. intros i j Hi Hj. destruct (to_fp_spec (c i j) (HC i j Hi Hj)) as [_ T0]. apply IZR_le in T0.
      unfold of_fp, fp_multiplier. lra. }
    rewrite QM in C2.
    assert (MZ : 1 - mass n1 n2 Z <= 2 * (INR big_n / scale)) by lra.
    assert (cmax * (1 - mass n1 n2 Z) <= cmax * (2 * (INR big_n / scale))) by (apply Rmult_le_compat_l; lra).
    assert (NB : 0 <= INR big_n) by apply pos_INR.
    assert (0 <= 3 * (INR big_n * cmax / scale)) by (apply Rmult_le_pos; [lra|]; unfold Rdiv; apply Rmult_le_pos; [nra|lra]).
    replace ((1 + 5 * INR big_n * cmax) / scale) with (1 / scale + cmax * (2 * (INR big_n / scale)) + 3 * (INR big_n * cmax / scale)) by field.
    lra.
  Qed.

  Theorem value_within : emd_within n1 n2 (vx w1) (vx w2) c ((1 + 5 * INR big_n * cmax) / scale) value.
  Proof.
    split; [|apply value_lower]. intros Q HQ. pose proof (value_upper Q HQ).
    replace ((1 + 5 * INR big_n * cmax) / scale) with (5 * INR big_n * cmax / scale + 1 / scale) by field. lra.
  Qed.

  (** Least cost among the plans with the same row and column sums and the same capacities. *)
  Theorem value_optimal : forall Y, nonneg n1 n2 Y ->
    below_cap n1 n2 (fun i j => of_fp (to_fp (Rmin (vx w1 i) (vx w2 j)))) Y ->
    (forall i, (i < n1)%nat -> row_total n2 Y i = row_total n2 (planR X) i) ->
    (forall j, (j < n2)%nat -> col_total n1 Y j = col_total n1 (planR X) j) ->
    value <= transport_cost n1 n2 (fun i j => of_fp (to_fp (c i j))) Y.
  Proof.
    intros Y Y1 Y2 Y3 Y4. pose proof HR as (ls & ld & ps & pd & big & K).
    pose proof (cert_opt _ _ _ _ _ _ _ _ _ _ _ _ K (fun i j => Y i j * scale)) as O.
    assert (OO : costR n1 n2 (fun i j => to_fp (c i j)) (fun i j => IZR (X i j)) <= costR n1 n2 (fun i j => to_fp (c i j)) (fun i j => Y i j * scale)).
    { apply O.
      - intros i j Hi Hj. specialize (Y1 i j Hi Hj). specialize (Y2 i j Hi Hj). cbv beta in Y2.
        pose proof (vx_min w1 i W1 Hi). pose proof (vx_min w2 j W2 Hj).
        rewrite to_fp_min in Y2 by lra. rewrite <- !iw_eq in Y2. unfold of_fp, fp_multiplier in Y2. lra.
      - intros i Hi. specialize (Y3 i Hi). rewrite planR_rows, IZR_ZSum in Y3. unfold rowR, rowZ. rewrite Sum_scal_r.
        change (Sum n2 (Y i)) with (row_total n2 Y i). change (Sum n2 (fun j => Y i j)) with (row_total n2 Y i). rewrite Y3. field.
      - intros j Hj. specialize (Y4 j Hj). rewrite planR_cols, IZR_ZSum in Y4. unfold colR, colZ. rewrite (Sum_scal_r n1 _ (fun i => Y i j)).
        change (Sum n1 (fun i => Y i j)) with (col_total n1 Y j). rewrite Y4. field. }
    unfold costR in OO. unfold transport_cost.
    assert (E1 : Sum n1 (fun i => Sum n2 (fun j => of_fp (to_fp (c i j)) * planR X i j)) =
                 / (scale * scale) * Sum n1 (fun i => Sum n2 (fun j => IZR (to_fp (c i j)) * IZR (X i j)))).
    { rewrite <- Sum_scal. apply Sum_ext. intros i Hi. rewrite <- Sum_scal. apply Sum_ext. intros j Hj.
      unfold of_fp, planR, fp_multiplier. field. }
    assert (E2 : Sum n1 (fun i => Sum n2 (fun j => of_fp (to_fp (c i j)) * Y i j)) =
                 / (scale * scale) * Sum n1 (fun i => Sum n2 (fun j => IZR (to_fp (c i j)) * (Y i j * scale)))).
    { rewrite <- Sum_scal. apply Sum_ext. intros i Hi. rewrite <- Sum_scal. apply Sum_ext. intros j Hj.
      unfold of_fp, fp_multiplier. field. }
    rewrite E1, E2. apply Rmult_le_compat_l; [|exact OO]. left. apply Rinv_0_lt_compat. lra.
  Qed.
End Both.
