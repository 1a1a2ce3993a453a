(** C51, C52 and C53: diameters, cell parameters and random cells. *)
From Coq Require Import List ZArith Reals Arith Bool Lia Lra.
From Verif Require Import Num Base Outcome NNModel SpecGeom SpecCell UtilsModel.
Import ListNotations.
Open Scope R_scope.

Lemma square3 : forall cell : list (list R), square_matrix 3 cell -> exists x0 x1 x2 y0 y1 y2 z0 z1 z2,
  cell = [[x0; x1; x2]; [y0; y1; y2]; [z0; z1; z2]].
Proof.
  intros cell [HL HF]. destruct cell as [|r0 [|r1 [|r2 [|r3 cell]]]]; try discriminate.
  inversion HF as [|? ? L0 HF1]; subst. inversion HF1 as [|? ? L1 HF2]; subst. inversion HF2 as [|? ? L2 HF3]; subst.
  destruct r0 as [|x0 [|x1 [|x2 [|x3 r0]]]]; try discriminate.
  destruct r1 as [|y0 [|y1 [|y2 [|y3 r1]]]]; try discriminate.
  destruct r2 as [|z0 [|z1 [|z2 [|z3 r2]]]]; try discriminate. eauto 12.
Qed.
Lemma square2 : forall cell : list (list R), square_matrix 2 cell -> exists x0 x1 y0 y1, cell = [[x0; x1]; [y0; y1]].
Proof.
  intros cell [HL HF]. destruct cell as [|r0 [|r1 [|r2 cell]]]; try discriminate.
  inversion HF as [|? ? L0 HF1]; subst. inversion HF1 as [|? ? L1 HF2]; subst.
  destruct r0 as [|x0 [|x1 [|x2 r0]]]; try discriminate.
  destruct r1 as [|y0 [|y1 [|y2 r1]]]; try discriminate. eauto 6.
Qed.

Lemma sqrt_sq_abs : forall x, sqrt (x * x) = Rabs x.
Proof. intros x. apply sqrt_Rsqr_abs. Qed.

(** ** C51 *)

(** A convex quadratic function is greatest at an end of [-1, 1]. *)
Lemma convex_ends : forall a b c t M, 0 <= a -> -1 <= t <= 1 -> a + b + c <= M -> a - b + c <= M -> a * (t * t) + b * t + c <= M.
Proof.
  intros a b c t M Ha Ht H1 H2. assert (T : t * t <= 1) by nra. assert (A : a * (t * t) <= a) by nra.
  assert (B : b * t <= Rabs b). { unfold Rabs. destruct (Rcase_abs b); nra. }
  unfold Rabs in B. destruct (Rcase_abs b); lra.
Qed.
Lemma form2_ends : forall A B D M s t, 0 <= A -> 0 <= B -> -1 <= s <= 1 -> -1 <= t <= 1 ->
  A + B + 2 * D <= M -> A + B - 2 * D <= M -> A * (s * s) + B * (t * t) + 2 * D * (s * t) <= M.
Proof.
  intros A B D M s t HA HB Hs Ht H1 H2.
  assert (E : A * (s * s) + (2 * D * t) * s + B * (t * t) <= M); [|lra].
  apply convex_ends; auto.
  - assert (E : B * (t * t) + (2 * D) * t + A <= M); [|lra]. apply convex_ends; auto; lra.
  - assert (E : B * (t * t) + (- (2 * D)) * t + A <= M); [|lra]. apply convex_ends; auto; lra.
Qed.
Lemma form3_ends : forall A B C D E F M s t u, 0 <= A -> 0 <= B -> 0 <= C -> -1 <= s <= 1 -> -1 <= t <= 1 -> -1 <= u <= 1 ->
  A + B + C + 2 * D + 2 * E + 2 * F <= M -> A + B + C + 2 * D - 2 * E - 2 * F <= M ->
  A + B + C - 2 * D + 2 * E - 2 * F <= M -> A + B + C - 2 * D - 2 * E + 2 * F <= M ->
  A * (s * s) + B * (t * t) + C * (u * u) + 2 * D * (s * t) + 2 * E * (s * u) + 2 * F * (t * u) <= M.
Proof.
  intros A B C D E F M s t u HA HB HC Hs Ht Hu H1 H2 H3 H4.
  assert (Q : A * (s * s) + (2 * D * t + 2 * E * u) * s + (B * (t * t) + C * (u * u) + 2 * F * (t * u)) <= M); [|lra].
  apply convex_ends; auto.
  - assert (Q : B * (t * t) + (2 * F * u + 2 * D) * t + (C * (u * u) + A + 2 * E * u) <= M); [|lra]. apply convex_ends; auto.
    + assert (Q : C * (u * u) + (2 * F + 2 * E) * u + (A + B + 2 * D) <= M); [|lra]. apply convex_ends; auto; lra.
    + assert (Q : C * (u * u) + (2 * E - 2 * F) * u + (A + B - 2 * D) <= M); [|lra]. apply convex_ends; auto; lra.
  - assert (Q : B * (t * t) + (2 * F * u - 2 * D) * t + (C * (u * u) + A - 2 * E * u) <= M); [|lra]. apply convex_ends; auto.
    + assert (Q : C * (u * u) + (2 * F - 2 * E) * u + (A + B - 2 * D) <= M); [|lra]. apply convex_ends; auto; lra.
    + assert (Q : C * (u * u) + (- (2 * E) - 2 * F) * u + (A + B + 2 * D) <= M); [|lra]. apply convex_ends; auto; lra.
Qed.

Lemma len3 : forall f : list R, length f = 3%nat -> exists a b c, f = [a; b; c].
Proof. intros f H. destruct f as [|a [|b [|c [|d f]]]]; try discriminate. eauto. Qed.
Lemma len2 : forall f : list R, length f = 2%nat -> exists a b, f = [a; b].
Proof. intros f H. destruct f as [|a [|b [|c f]]]; try discriminate. eauto. Qed.
Lemma Forall3 : forall (P : R -> Prop) a b c, Forall P [a; b; c] -> P a /\ P b /\ P c.
Proof. intros P a b c H. inversion H as [|? ? H1 H2]; subst. inversion H2 as [|? ? H3 H4]; subst. inversion H4; subst. auto. Qed.
Lemma Forall2' : forall (P : R -> Prop) a b, Forall P [a; b] -> P a /\ P b.
Proof. intros P a b H. inversion H as [|? ? H1 H2]; subst. inversion H2 as [|? ? H3 H4]; subst. auto. Qed.
Lemma Forall3_intro : forall (P : R -> Prop) a b c, P a -> P b -> P c -> Forall P [a; b; c].
Proof. intros. constructor; auto. Qed.

Theorem C51_diameter_3D : forall cell, square_matrix 3 cell -> exists d, diameter cell = Done d /\ is_diameter 3 cell d.
Proof.
  intros cell HC. destruct (square3 cell HC) as (x0 & x1 & x2 & y0 & y1 & y2 & z0 & z1 & z2 & ->). clear HC.
  unfold diameter. cbn [map rows_add rows_sub map2 squares total fold_left greatest].
  set (n1 := total (squares [x0 + y0 + z0; x1 + y1 + z1; x2 + y2 + z2])).
  set (n2 := total (squares [x0 + y0 - z0; x1 + y1 - z1; x2 + y2 - z2])).
  set (n3 := total (squares [x0 - y0 + z0; x1 - y1 + z1; x2 - y2 + z2])).
  set (n4 := total (squares [- x0 + y0 + z0; - x1 + y1 + z1; - x2 + y2 + z2])).
  set (M := Rmax (Rmax (Rmax n1 n2) n3) n4).
  exists (sqrt M). split; [reflexivity|].
  assert (M1 : n1 <= M) by (unfold M; eapply Rle_trans; [|apply Rmax_l]; eapply Rle_trans; [|apply Rmax_l]; apply Rmax_l).
  assert (M2 : n2 <= M) by (unfold M; eapply Rle_trans; [|apply Rmax_l]; eapply Rle_trans; [|apply Rmax_l]; apply Rmax_r).
  assert (M3 : n3 <= M) by (unfold M; eapply Rle_trans; [|apply Rmax_l]; apply Rmax_r).
  assert (M4 : n4 <= M) by (unfold M; apply Rmax_r).
  split.
  - intros p q (f & LF & UF & ->) (g & LG & UG & ->).
    destruct (len3 f LF) as (f0 & f1 & f2 & ->). destruct (len3 g LG) as (g0 & g1 & g2 & ->).
    apply Forall3 in UF as (UF0 & UF1 & UF2). apply Forall3 in UG as (UG0 & UG1 & UG2).
    unfold edist. apply sqrt_le_1_alt.
    assert (E1 : n1 = (x0 + y0 + z0) * (x0 + y0 + z0) + (x1 + y1 + z1) * (x1 + y1 + z1) + (x2 + y2 + z2) * (x2 + y2 + z2))
      by (unfold n1, total, squares; cbn [map fold_left]; ring).
    assert (E2 : n2 = (x0 + y0 - z0) * (x0 + y0 - z0) + (x1 + y1 - z1) * (x1 + y1 - z1) + (x2 + y2 - z2) * (x2 + y2 - z2))
      by (unfold n2, total, squares; cbn [map fold_left]; ring).
    assert (E3 : n3 = (x0 - y0 + z0) * (x0 - y0 + z0) + (x1 - y1 + z1) * (x1 - y1 + z1) + (x2 - y2 + z2) * (x2 - y2 + z2))
      by (unfold n3, total, squares; cbn [map fold_left]; ring).
    assert (E4 : n4 = (- x0 + y0 + z0) * (- x0 + y0 + z0) + (- x1 + y1 + z1) * (- x1 + y1 + z1) + (- x2 + y2 + z2) * (- x2 + y2 + z2))
      by (unfold n4, total, squares; cbn [map fold_left]; ring).
    unfold comb_coord, rsum. cbn [length seq map nth fold_right sq_dist].
    match goal with |- ?l <= _ => replace l with
      ((x0 * x0 + x1 * x1 + x2 * x2) * ((f0 - g0) * (f0 - g0)) + (y0 * y0 + y1 * y1 + y2 * y2) * ((f1 - g1) * (f1 - g1)) +
       (z0 * z0 + z1 * z1 + z2 * z2) * ((f2 - g2) * (f2 - g2)) +
       2 * (x0 * y0 + x1 * y1 + x2 * y2) * ((f0 - g0) * (f1 - g1)) + 2 * (x0 * z0 + x1 * z1 + x2 * z2) * ((f0 - g0) * (f2 - g2)) +
       2 * (y0 * z0 + y1 * z1 + y2 * z2) * ((f1 - g1) * (f2 - g2))) by ring end.
    apply form3_ends; try lra; try nra.
  - assert (V : exists u v, vertex 3 [[x0; x1; x2]; [y0; y1; y2]; [z0; z1; z2]] u /\ vertex 3 [[x0; x1; x2]; [y0; y1; y2]; [z0; z1; z2]] v /\
      sq_dist u v = M).
    { assert (VV : forall a b c, (a = 0 \/ a = 1) -> (b = 0 \/ b = 1) -> (c = 0 \/ c = 1) ->
        vertex 3 [[x0; x1; x2]; [y0; y1; y2]; [z0; z1; z2]] (map (comb_coord [[x0; x1; x2]; [y0; y1; y2]; [z0; z1; z2]] [a; b; c]) (seq 0 3))).
      { intros a b c Ha Hb Hc. exists [a; b; c]. split; auto. }
      assert (MM : M = n1 \/ M = n2 \/ M = n3 \/ M = n4).
      { unfold M. unfold Rmax. repeat destruct (Rle_dec _ _); auto. }
      destruct MM as [->|[->|[->| ->]]];
        [do 2 eexists; split; [apply (VV 1 1 1); auto|split; [apply (VV 0 0 0); auto|]]
        |do 2 eexists; split; [apply (VV 1 1 0); auto|split; [apply (VV 0 0 1); auto|]]
        |do 2 eexists; split; [apply (VV 1 0 1); auto|split; [apply (VV 0 1 0); auto|]]
        |do 2 eexists; split; [apply (VV 0 1 1); auto|split; [apply (VV 1 0 0); auto|]]];
        unfold n1, n2, n3, n4, comb_coord, rsum, total, squares; cbn [length seq map nth fold_right fold_left sq_dist]; ring. }
    destruct V as (u & v & Vu & Vv & E). exists u, v. split; auto. split; auto. unfold edist. rewrite E. auto.
Qed.
Theorem C51_diameter_2D : forall cell, square_matrix 2 cell -> exists d, diameter cell = Done d /\ is_diameter 2 cell d.
Proof.
  intros cell HC. destruct (square2 cell HC) as (x0 & x1 & y0 & y1 & ->). clear HC.
  unfold diameter. cbn [map rows_add rows_sub map2].
  set (n1 := total (squares [x0 + y0; x1 + y1])). set (n2 := total (squares [x0 - y0; x1 - y1])).
  cbn [greatest fold_left]. unfold greatest. cbn [fold_left]. set (M := Rmax n1 n2).
  exists (sqrt M). split; [reflexivity|].
  assert (M1 : n1 <= M) by apply Rmax_l. assert (M2 : n2 <= M) by apply Rmax_r.
  assert (E1 : n1 = (x0 + y0) * (x0 + y0) + (x1 + y1) * (x1 + y1)) by (unfold n1, total, squares; cbn [map fold_left]; ring).
  assert (E2 : n2 = (x0 - y0) * (x0 - y0) + (x1 - y1) * (x1 - y1)) by (unfold n2, total, squares; cbn [map fold_left]; ring).
  split.
  - intros p q (f & LF & UF & ->) (g & LG & UG & ->).
    destruct (len2 f LF) as (f0 & f1 & ->). destruct (len2 g LG) as (g0 & g1 & ->).
    apply Forall2' in UF as (UF0 & UF1). apply Forall2' in UG as (UG0 & UG1).
    unfold edist. apply sqrt_le_1_alt. unfold comb_coord, rsum. cbn [length seq map nth fold_right sq_dist].
    match goal with |- ?l <= _ => replace l with
      ((x0 * x0 + x1 * x1) * ((f0 - g0) * (f0 - g0)) + (y0 * y0 + y1 * y1) * ((f1 - g1) * (f1 - g1)) +
       2 * (x0 * y0 + x1 * y1) * ((f0 - g0) * (f1 - g1))) by ring end.
    apply form2_ends; try lra; try nra.
  - assert (VV : forall a b, (a = 0 \/ a = 1) -> (b = 0 \/ b = 1) ->
        vertex 2 [[x0; x1]; [y0; y1]] (map (comb_coord [[x0; x1]; [y0; y1]] [a; b]) (seq 0 2))).
    { intros a b Ha Hb. exists [a; b]. split; auto. }
    assert (MM : M = n1 \/ M = n2). { unfold M, Rmax. destruct (Rle_dec n1 n2); auto. }
    assert (V : exists u v, vertex 2 [[x0; x1]; [y0; y1]] u /\ vertex 2 [[x0; x1]; [y0; y1]] v /\ sq_dist u v = M).
    { destruct MM as [-> | ->];
        [do 2 eexists; split; [apply (VV 1 1); auto|split; [apply (VV 0 0); auto|]]
        |do 2 eexists; split; [apply (VV 1 0); auto|split; [apply (VV 0 1); auto|]]];
        rewrite ?E1, ?E2; unfold comb_coord, rsum; cbn [length seq map nth fold_right sq_dist]; ring. }
    destruct V as (u & v & Vu & Vv & E). exists u, v. split; auto. split; auto. unfold edist. rewrite E. auto.
Qed.
(** In one dimension the length is returned with its sign. *)
Theorem C51_one_dimension_refuted : exists cell d, square_matrix 1 cell /\ nonsingular 1 cell /\ diameter cell = Done d /\ ~ is_diameter 1 cell d.
Proof.
  exists [[-1]], (-1). split; [split; auto|]. split; [|split; [reflexivity|]].
  - exists [[-1]]. split; auto. split; auto. intros i j Hi Hj. destruct i; [|lia]. destruct j; [|lia]. cbn. lra.
  - intros [H _]. assert (V : closed_cell 1 [[-1]] [0]).
    { exists [0]. split; auto. split; [constructor; [lra|constructor]|]. cbn. f_equal. lra. }
    specialize (H _ _ V V). revert H. unfold edist. pose proof (sqrt_pos (sq_dist [0] [0])). lra.
Qed.
Theorem C51_one_dimension_partial : forall a, 0 <= a -> diameter [[a]] = Done a /\ is_diameter 1 [[a]] a.
Proof.
  intros a Ha. split; [reflexivity|]. split.
  - intros p q (f & LF & UF & ->) (g & LG & UG & ->). destruct f as [|f0 [|? ?]]; try discriminate. destruct g as [|g0 [|? ?]]; try discriminate.
    inversion UF; subst. inversion UG; subst. unfold edist, comb_coord, rsum. cbn [length seq map nth fold_right sq_dist].
    match goal with |- sqrt ?x <= _ => replace x with (((f0 - g0) * a) * ((f0 - g0) * a)) by ring end.
    rewrite sqrt_sq_abs. rewrite Rabs_mult, (Rabs_right a) by lra. assert (Rabs (f0 - g0) <= 1) by (unfold Rabs; destruct (Rcase_abs _); lra). nra.
  - exists (map (comb_coord [[a]] [1]) (seq 0 1)), (map (comb_coord [[a]] [0]) (seq 0 1)). split; [|split].
    + exists [1]. split; auto.
    + exists [0]. split; auto.
    + unfold edist, comb_coord, rsum. cbn [length seq map nth fold_right sq_dist].
      match goal with |- sqrt ?x = _ => replace x with (a * a) by ring end. rewrite sqrt_sq_abs. apply Rabs_right. lra.
Qed.
Example C51_case : square_matrix 3 [[1; 0; 0]; [0; 2; 0]; [-1; 0; 1]].
Proof. split; auto. Qed.

(** ** C52 *)

Lemma total_rdot : forall u v, dot_rows u v = rdot u v.
Proof.
  intros u v. unfold dot_rows, total. assert (G : forall l s, fold_left Rplus l s = s + fold_right Rplus 0 l).
  { induction l as [|x l IH]; intros s; cbn [fold_left fold_right]; [lra|]. rewrite IH. lra. }
  rewrite G, Rplus_0_l. revert v. induction u as [|a u IH]; intros [|b v]; try reflexivity. cbn [map2 fold_right rdot]. rewrite IH. auto.
Qed.
Lemma norm_vlen : forall u, norm_row u = vlen u.
Proof.
  intros u. unfold norm_row, vlen. f_equal. rewrite <- total_rdot. unfold dot_rows. f_equal.
  induction u as [|a u IH]; cbn; auto. unfold squares in IH. rewrite <- IH. auto.
Qed.
Lemma rdot_nonneg : forall u, 0 <= rdot u u.
Proof. induction u as [|a u IH]; cbn [rdot]; [lra|]. nra. Qed.
Lemma vlen_sq : forall u, vlen u * vlen u = rdot u u.
Proof. intros u. apply sqrt_sqrt, rdot_nonneg. Qed.
Lemma rdot_comm : forall u v, rdot u v = rdot v u.
Proof. induction u as [|a u IH]; intros [|b v]; cbn [rdot]; auto. rewrite IH. lra. Qed.
Lemma rdot_cs : forall u v, rdot u v * rdot u v <= rdot u u * rdot v v.
Proof.
  induction u as [|a u IH]; intros [|b v]; cbn [rdot]; try lra.
  specialize (IH v). pose proof (rdot_nonneg u) as HU. pose proof (rdot_nonneg v) as HV.
  set (D := rdot u v) in *. set (U := rdot u u) in *. set (V := rdot v v) in *.
  assert (H : 2 * (a * b * D) <= a * a * V + b * b * U).
  { destruct (Rle_lt_dec (2 * (a * b * D)) 0); [nra|].
    assert (S : (2 * (a * b * D)) * (2 * (a * b * D)) <= (a * a * V + b * b * U) * (a * a * V + b * b * U)).
    { assert (a * b * (a * b) * (D * D) <= a * b * (a * b) * (U * V)) by (apply Rmult_le_compat_l; [nra|auto]).
      pose proof (Rle_0_sqr (a * a * V - b * b * U)) as Hs. unfold Rsqr in Hs. lra. }
    apply Rnot_lt_le. intros Q. assert (0 <= a * a * V + b * b * U) by nra. nra. }
  nra.
Qed.
Lemma rad_deg : forall x, deg2rad (rad2deg x) = x.
Proof. intros x. unfold deg2rad, rad2deg. field. apply PI_neq0. Qed.
Lemma deg_rad : forall x, rad2deg (deg2rad x) = x.
Proof. intros x. unfold deg2rad, rad2deg. field. apply PI_neq0. Qed.

(** The angle computed by cell_to_cellpar. *)
Lemma angle_computed : forall u v, 0 < vlen u -> 0 < vlen v -> is_angle u v (rad2deg (acos (dot_rows u v / (norm_row u * norm_row v)))).
Proof.
  intros u v Hu Hv. rewrite !norm_vlen, total_rdot. set (c := rdot u v / (vlen u * vlen v)).
  assert (P : 0 < vlen u * vlen v) by (apply Rmult_lt_0_compat; auto).
  assert (C : c * (vlen u * vlen v) = rdot u v) by (unfold c; field; lra).
  assert (B : -1 <= c <= 1).
  { pose proof (rdot_cs u v) as Q. rewrite <- (vlen_sq u), <- (vlen_sq v), <- C in Q. set (n := vlen u * vlen v) in *.
    assert (Q' : (c * c) * (n * n) <= 1 * (n * n)) by (replace (1 * (n * n)) with (vlen u * vlen u * (vlen v * vlen v)) by (unfold n; ring); lra).
    assert (0 < n * n) by (apply Rmult_lt_0_compat; auto). apply Rmult_le_reg_r in Q'; auto. nra. }
  split.
  - pose proof (acos_bound c) as A. pose proof PI_RGT_0. unfold rad2deg. split.
    + apply Rmult_le_pos; [lra|]. left. apply Rinv_0_lt_compat. auto.
    + apply Rmult_le_reg_r with PI; auto. unfold Rdiv. rewrite Rmult_assoc, Rinv_l by lra. lra.
  - fold (deg2rad (rad2deg (acos c))). rewrite rad_deg, cos_acos by auto. lra.
Qed.
Lemma angle_unique : forall u v x y, 0 < vlen u -> 0 < vlen v -> is_angle u v x -> is_angle u v y -> x = y.
Proof.
  intros u v x y Hu Hv [Bx Ex] [By Ey]. assert (P : 0 < vlen u * vlen v) by (apply Rmult_lt_0_compat; auto).
  assert (C : cos (x * PI / 180) = cos (y * PI / 180)).
  { apply Rmult_eq_reg_l with (vlen u * vlen v); [lra|lra]. }
  pose proof PI_RGT_0 as HP.
  assert (R : forall z, 0 <= z <= 180 -> 0 <= z * PI / 180 <= PI) by (intros z Hz; split; [apply Rmult_le_pos; [nra|lra]|nra]).
  assert (D : deg2rad x = deg2rad y).
  { unfold deg2rad. rewrite <- (acos_cos (x * PI / 180)), <- (acos_cos (y * PI / 180)) by auto. rewrite C. auto. }
  rewrite <- (deg_rad x), <- (deg_rad y), D. auto.
Qed.

(** cell_to_cellpar gives the lengths and angles, which are unique. *)
Theorem C52_cell_to_cellpar : forall cell, square_matrix 3 cell -> Forall (fun r => 0 < vlen r) cell ->
  exists a b c al be ga, cell_to_cellpar cell = Done [a; b; c; al; be; ga] /\ has_parameters cell a b c al be ga /\
  forall a' b' c' al' be' ga', has_parameters cell a' b' c' al' be' ga' -> [a'; b'; c'; al'; be'; ga'] = [a; b; c; al; be; ga].
Proof.
  intros cell HC HP. destruct (square3 cell HC) as (x0 & x1 & x2 & y0 & y1 & y2 & z0 & z1 & z2 & ->).
  inversion HP as [|? ? P0 HP1]; subst. inversion HP1 as [|? ? P1 HP2]; subst. inversion HP2 as [|? ? P2 HP3]; subst.
  unfold cell_to_cellpar. do 6 eexists. split; [reflexivity|].
  assert (H : has_parameters [[x0; x1; x2]; [y0; y1; y2]; [z0; z1; z2]] (norm_row [x0; x1; x2]) (norm_row [y0; y1; y2]) (norm_row [z0; z1; z2])
     (rad2deg (acos (dot_rows [y0; y1; y2] [z0; z1; z2] / (norm_row [y0; y1; y2] * norm_row [z0; z1; z2]))))
     (rad2deg (acos (dot_rows [x0; x1; x2] [z0; z1; z2] / (norm_row [x0; x1; x2] * norm_row [z0; z1; z2]))))
     (rad2deg (acos (dot_rows [x0; x1; x2] [y0; y1; y2] / (norm_row [x0; x1; x2] * norm_row [y0; y1; y2]))))).
  { constructor; cbn [nth]; try (symmetry; apply norm_vlen); apply angle_computed; auto. }
  split; [exact H|]. intros a' b' c' al' be' ga' H'. destruct H as [H1 H2 H3 H4 H5 H6]. destruct H' as [K1 K2 K3 K4 K5 K6]. cbn [nth] in *.
  rewrite (angle_unique _ _ _ _ P1 P2 K4 H4), (angle_unique _ _ _ _ P0 P2 K5 H5), (angle_unique _ _ _ _ P0 P1 K6 H6).
  rewrite <- K1, <- K2, <- K3, !norm_vlen. auto.
Qed.
Theorem C52_cell_to_cellpar_2D : forall cell, square_matrix 2 cell -> Forall (fun r => 0 < vlen r) cell ->
  exists a b al, cell_to_cellpar_2D cell = Done [a; b; al] /\ has_parameters_2D cell a b al /\
  forall a' b' al', has_parameters_2D cell a' b' al' -> [a'; b'; al'] = [a; b; al].
Proof.
  intros cell HC HP. destruct (square2 cell HC) as (x0 & x1 & y0 & y1 & ->).
  inversion HP as [|? ? P0 HP1]; subst. inversion HP1 as [|? ? P1 HP2]; subst.
  unfold cell_to_cellpar_2D. do 3 eexists. split; [reflexivity|].
  assert (H : has_parameters_2D [[x0; x1]; [y0; y1]] (norm_row [x0; x1]) (norm_row [y0; y1])
     (rad2deg (acos (dot_rows [x0; x1] [y0; y1] / (norm_row [x0; x1] * norm_row [y0; y1]))))).
  { constructor; cbn [nth]; try (symmetry; apply norm_vlen); apply angle_computed; auto. }
  split; [exact H|]. intros a' b' al' H'. destruct H as [H1 H2 H3]. destruct H' as [K1 K2 K3]. cbn [nth] in *.
  rewrite (angle_unique _ _ _ _ P0 P1 K3 H3), <- K1, <- K2, !norm_vlen. auto.
Qed.

Lemma eps_value : eps = / 2 ^ 45.
Proof. unfold eps. field_simplify; try lra. Qed.
Lemma eps_small : 0 < / 2 ^ 45 < 1.
Proof. split; [apply Rinv_0_lt_compat, pow_lt; lra|]. rewrite <- Rinv_1. apply Rinv_lt_contravar; [rewrite Rmult_1_l; apply pow_lt; lra|]. assert (1 < 2 ^ 45) by (apply Rlt_pow_R1; [lra|lia]). lra. Qed.
Lemma rounded_exists : forall x, exists x', rounded_angle x x'.
Proof.
  intros x. unfold rounded_angle. destruct (Rlt_le_dec (Rabs (x - 90)) (/ 2 ^ 45)).
  - exists 90. split; auto. intros. lra.
  - exists x. split; auto. intros. lra.
Qed.
Lemma rounded_range : forall x x', rounded_angle x x' -> 0 < x < 180 -> 0 < x' < 180.
Proof. intros x x' [H1 H2] Hx. destruct (Rlt_le_dec (Rabs (x - 90)) (/ 2 ^ 45)); [rewrite H1 by auto; lra|rewrite H2 by auto; lra]. Qed.
Lemma cos_deg_value : forall x x', rounded_angle x x' -> 0 < x < 180 -> cos_deg x = cos (x' * PI / 180).
Proof.
  intros x x' [H1 H2] Hx. unfold cos_deg. rewrite (Rabs_right x) by lra. rewrite eps_value.
  destruct (Rltb _ _) eqn:E.
  - apply Rltb_true in E. rewrite H1 by auto. replace (90 * PI / 180) with (PI / 2) by field. rewrite cos_PI2. auto.
  - apply Rltb_false in E. rewrite H2 by auto. auto.
Qed.
Lemma sin_deg_value : forall x x', rounded_angle x x' -> 0 < x < 180 -> sin_deg x = sin (x' * PI / 180).
Proof.
  intros x x' [H1 H2] Hx. unfold sin_deg. rewrite eps_value. pose proof eps_small.
  destruct (Rltb _ _) eqn:E.
  - apply Rltb_true in E. rewrite H1 by auto. replace (90 * PI / 180) with (PI / 2) by field. rewrite sin_PI2. auto.
  - apply Rltb_false in E. rewrite H2 by auto. destruct (Rltb (Rabs (x + 90)) (/ 2 ^ 45)) eqn:E2; auto.
    apply Rltb_true in E2. rewrite Rabs_right in E2 by lra. lra.
Qed.
Lemma sin_pos_deg : forall x, 0 < x < 180 -> 0 < sin (x * PI / 180).
Proof. intros x Hx. pose proof PI_RGT_0. apply sin_gt_0; nra. Qed.

(** The usual formula for the volume, for every cell. *)
Theorem C52_volume : forall cell a b c al be ga, square_matrix 3 cell -> has_parameters cell a b c al be ga ->
  det3 cell * det3 cell = (a * b * c) * (a * b * c) * unit_volume_sq al be ga.
Proof.
  intros cell a b c al be ga HC H. destruct (square3 cell HC) as (x0 & x1 & x2 & y0 & y1 & y2 & z0 & z1 & z2 & ->).
  destruct H as [H1 H2 H3 [_ H4] [_ H5] [_ H6]]. cbn [nth] in *.
  assert (G : det3 [[x0; x1; x2]; [y0; y1; y2]; [z0; z1; z2]] * det3 [[x0; x1; x2]; [y0; y1; y2]; [z0; z1; z2]] =
    let A := rdot [x0; x1; x2] [x0; x1; x2] in let B := rdot [y0; y1; y2] [y0; y1; y2] in let C := rdot [z0; z1; z2] [z0; z1; z2] in
    let D := rdot [x0; x1; x2] [y0; y1; y2] in let E := rdot [x0; x1; x2] [z0; z1; z2] in let F := rdot [y0; y1; y2] [z0; z1; z2] in
    A * B * C + 2 * (D * E * F) - A * (F * F) - B * (E * E) - C * (D * D)).
  { unfold det3, entry. cbn [nth rdot]. ring. }
  cbv zeta in G. rewrite G, H4, H5, H6, <- !vlen_sq, H1, H2, H3. unfold unit_volume_sq. ring.
Qed.
Lemma parameters_volume : forall cell a b c al be ga, square_matrix 3 cell -> 0 < a -> 0 < b -> 0 < c ->
  has_parameters cell a b c al be ga -> 0 <= unit_volume_sq al be ga.
Proof.
  intros cell a b c al be ga HC Ha Hb Hc H. pose proof (C52_volume cell a b c al be ga HC H) as V.
  assert (P : 0 < a * b * c) by (repeat apply Rmult_lt_0_compat; auto). set (n := a * b * c) in *.
  assert (0 < n * n) by (apply Rmult_lt_0_compat; auto). set (u := unit_volume_sq al be ga) in *.
  destruct (Rle_lt_dec 0 u); auto. nra.
Qed.

Lemma cellpar_cases : forall a b c al be ga al' be' ga',
  0 < a -> 0 < b -> 0 < c -> 0 < al < 180 -> 0 < be < 180 -> 0 < ga < 180 ->
  rounded_angle al al' -> rounded_angle be be' -> rounded_angle ga ga' ->
  (0 <= unit_volume_sq al' be' ga' -> exists cell, cellpar_to_cell [a; b; c; al; be; ga] = Done cell /\
     square_matrix 3 cell /\ lower_triangular 3 cell /\ (0 < entry cell 0 0 /\ 0 < entry cell 1 1 /\ 0 <= entry cell 2 2) /\
     has_parameters cell a b c al' be' ga' /\ det3 cell = a * b * c * sqrt (unit_volume_sq al' be' ga')) /\
  (unit_volume_sq al' be' ga' < 0 -> cellpar_to_cell [a; b; c; al; be; ga] = Raise ValueError).
Proof.
  intros a b c al be ga al' be' ga' Ha Hb Hc Hal Hbe Hga Ral Rbe Rga.
  pose proof (rounded_range _ _ Ral Hal) as Hal'. pose proof (rounded_range _ _ Rbe Hbe) as Hbe'. pose proof (rounded_range _ _ Rga Hga) as Hga'.
  pose proof (sin_pos_deg ga' Hga') as SG. pose proof (sin2_cos2 (ga' * PI / 180)) as SC. unfold Rsqr in SC.
  set (V := unit_volume_sq al' be' ga') in *.
  set (ca := cos (al' * PI / 180)) in *. set (cb := cos (be' * PI / 180)) in *. set (cg := cos (ga' * PI / 180)) in *.
  set (sg := sin (ga' * PI / 180)) in *. set (cy := (ca - cb * cg) / sg).
  assert (CY : cy * sg = ca - cb * cg) by (unfold cy; field; lra).
  assert (CZ : (1 - cb * cb - cy * cy) * (sg * sg) = V).
  { unfold V, unit_volume_sq. fold ca cb cg. replace ((1 - cb * cb - cy * cy) * (sg * sg)) with ((1 - cb * cb) * (sg * sg) - (cy * sg) * (cy * sg)) by ring.
    rewrite CY. replace (sg * sg) with (1 - cg * cg) by lra. ring. }
  assert (SP : 0 < sg * sg) by (apply Rmult_lt_0_compat; auto).
  split.
  { intros HV. set (cz := 1 - cb * cb - cy * cy) in *.
    assert (HZ : 0 <= cz). { destruct (Rle_lt_dec 0 cz); auto. nra. }
    exists [[a; 0; 0]; [b * cg; b * sg; 0]; [c * cb; c * cy; c * sqrt cz]]. split.
    { unfold cellpar_to_cell. rewrite (cos_deg_value _ _ Ral Hal), (cos_deg_value _ _ Rbe Hbe), (cos_deg_value _ _ Rga Hga), (sin_deg_value _ _ Rga Hga).
      fold ca cb cg sg. fold cy. fold cz. replace (Rltb cz 0) with false; auto. symmetry. apply Rltb_false. auto. }
    pose proof (sqrt_pos cz) as SZ. pose proof (sqrt_sqrt cz HZ) as SS.
    split; [split; auto|]. split.
    { intros i j Hij. unfold entry. destruct i as [|[|[|i]]]; destruct j as [|[|[|j]]]; try lia; auto. }
    split. { unfold entry. cbn [nth]. split; [auto|]. split; [apply Rmult_lt_0_compat; auto|apply Rmult_le_pos; lra]. }
    assert (L0 : vlen [a; 0; 0] = a).
    { unfold vlen. cbn [rdot]. replace (a * a + (0 * 0 + (0 * 0 + 0))) with (a * a) by ring. rewrite sqrt_sq_abs. apply Rabs_right. lra. }
    assert (L1 : vlen [b * cg; b * sg; 0] = b).
    { unfold vlen. cbn [rdot]. replace (b * cg * (b * cg) + (b * sg * (b * sg) + (0 * 0 + 0))) with (b * b * (sg * sg + cg * cg)) by ring.
      rewrite SC, Rmult_1_r, sqrt_sq_abs. apply Rabs_right. lra. }
    assert (L2 : vlen [c * cb; c * cy; c * sqrt cz] = c).
    { unfold vlen. cbn [rdot]. replace (c * cb * (c * cb) + (c * cy * (c * cy) + (c * sqrt cz * (c * sqrt cz) + 0))) with
        (c * c * (cb * cb + cy * cy + sqrt cz * sqrt cz)) by ring. rewrite SS. unfold cz.
      replace (c * c * (cb * cb + cy * cy + (1 - cb * cb - cy * cy))) with (c * c) by ring. rewrite sqrt_sq_abs. apply Rabs_right. lra. }
    split.
    { constructor; cbn [nth]; auto; (split; [lra|]); rewrite ?L0, ?L1, ?L2; cbn [rdot].
      - fold ca. replace (b * cg * (c * cb) + (b * sg * (c * cy) + (0 * (c * sqrt cz) + 0))) with (b * c * (cg * cb + cy * sg)) by ring.
        rewrite CY. ring.
      - fold cb. ring.
      - fold cg. ring. }
    unfold det3, entry. cbn [nth]. replace (sqrt V) with (sg * sqrt cz); [ring|].
    rewrite <- CZ. rewrite sqrt_mult by lra. rewrite (sqrt_sq_abs sg), Rabs_right by lra. ring. }
  { intros HV. unfold cellpar_to_cell. rewrite (cos_deg_value _ _ Ral Hal), (cos_deg_value _ _ Rbe Hbe), (cos_deg_value _ _ Rga Hga), (sin_deg_value _ _ Rga Hga).
    fold ca cb cg sg. fold cy. replace (Rltb (1 - cb * cb - cy * cy) 0) with true; auto. symmetry. apply Rltb_true.
    destruct (Rlt_le_dec (1 - cb * cb - cy * cy) 0); auto. nra. }
Qed.

(** cellpar_to_cell fails exactly when there is no cell with these parameters. *)
Theorem C52_cellpar_to_cell : forall a b c al be ga al' be' ga',
  0 < a -> 0 < b -> 0 < c -> 0 < al < 180 -> 0 < be < 180 -> 0 < ga < 180 ->
  rounded_angle al al' -> rounded_angle be be' -> rounded_angle ga ga' ->
  ((exists cell, square_matrix 3 cell /\ has_parameters cell a b c al' be' ga') ->
   exists cell, cellpar_to_cell [a; b; c; al; be; ga] = Done cell /\
     square_matrix 3 cell /\ lower_triangular 3 cell /\ (0 < entry cell 0 0 /\ 0 < entry cell 1 1 /\ 0 <= entry cell 2 2) /\
     has_parameters cell a b c al' be' ga' /\ det3 cell = a * b * c * sqrt (unit_volume_sq al' be' ga')) /\
  (~ (exists cell, square_matrix 3 cell /\ has_parameters cell a b c al' be' ga') ->
   cellpar_to_cell [a; b; c; al; be; ga] = Raise ValueError).
Proof.
  intros a b c al be ga al' be' ga' Ha Hb Hc Hal Hbe Hga Ral Rbe Rga.
  destruct (cellpar_cases a b c al be ga al' be' ga' Ha Hb Hc Hal Hbe Hga Ral Rbe Rga) as [OK NO]. split.
  - intros (cell & HC & HP). apply OK. apply (parameters_volume cell a b c); auto.
  - intros HN. apply NO. destruct (Rlt_le_dec (unit_volume_sq al' be' ga') 0) as [HV|HV]; auto.
    exfalso. destruct (OK HV) as (cell & _ & HS & _ & _ & HP & _). apply HN. eauto.
Qed.
(** The round trips. *)
Theorem C52_round_trip : forall a b c al be ga al' be' ga' cell,
  0 < a -> 0 < b -> 0 < c -> 0 < al < 180 -> 0 < be < 180 -> 0 < ga < 180 ->
  rounded_angle al al' -> rounded_angle be be' -> rounded_angle ga ga' ->
  cellpar_to_cell [a; b; c; al; be; ga] = Done cell -> cell_to_cellpar cell = Done [a; b; c; al'; be'; ga'].
Proof.
  intros a b c al be ga al' be' ga' cell Ha Hb Hc Hal Hbe Hga Ral Rbe Rga E.
  destruct (cellpar_cases a b c al be ga al' be' ga' Ha Hb Hc Hal Hbe Hga Ral Rbe Rga) as [OK NO].
  destruct (Rlt_le_dec (unit_volume_sq al' be' ga') 0) as [HV|HV]; [rewrite NO in E by auto; discriminate|].
  destruct (OK HV) as (k & E' & HS & _ & _ & HP & _). rewrite E in E'. injection E' as <-.
  destruct (C52_cell_to_cellpar cell HS) as (a1 & b1 & c1 & al1 & be1 & ga1 & EC & _ & HU).
  - destruct (square3 cell HS) as (x0 & x1 & x2 & y0 & y1 & y2 & z0 & z1 & z2 & ->).
    destruct HP as [H1 H2 H3 _ _ _]. cbn [nth] in *. rewrite <- H1 in Ha. rewrite <- H2 in Hb. rewrite <- H3 in Hc.
    constructor; auto.
  - rewrite EC. f_equal. symmetry. apply HU. auto.
Qed.
Lemma lower3 : forall cell, square_matrix 3 cell -> lower_triangular 3 cell -> exists x0 y0 y1 z0 z1 z2,
  cell = [[x0; 0; 0]; [y0; y1; 0]; [z0; z1; z2]].
Proof.
  intros cell HC HT. destruct (square3 cell HC) as (x0 & x1 & x2 & y0 & y1 & y2 & z0 & z1 & z2 & ->).
  pose proof (HT 0%nat 1%nat ltac:(lia)) as E1. pose proof (HT 0%nat 2%nat ltac:(lia)) as E2. pose proof (HT 1%nat 2%nat ltac:(lia)) as E3.
  unfold entry in *. cbn [nth] in *. subst. eauto 10.
Qed.
(** A lower triangular cell with positive diagonal is determined by its parameters. *)
Lemma lower_unique : forall cell cell' a b c al be ga, square_matrix 3 cell -> square_matrix 3 cell' ->
  lower_triangular 3 cell -> lower_triangular 3 cell' ->
  0 < entry cell 0 0 -> 0 < entry cell 1 1 -> 0 <= entry cell 2 2 -> 0 < entry cell' 0 0 -> 0 < entry cell' 1 1 -> 0 <= entry cell' 2 2 ->
  has_parameters cell a b c al be ga -> has_parameters cell' a b c al be ga -> cell = cell'.
Proof.
  intros cell cell' a b c al be ga HC HC' HT HT' P0 P1 P2 P0' P1' P2' H H'.
  destruct (lower3 cell HC HT) as (x0 & y0 & y1 & z0 & z1 & z2 & ->). destruct (lower3 cell' HC' HT') as (u0 & v0 & v1 & w0 & w1 & w2 & ->).
  unfold entry in *. destruct H as [A1 A2 A3 [_ A4] [_ A5] [_ A6]]. destruct H' as [B1 B2 B3 [_ B4] [_ B5] [_ B6]]. cbn [nth] in *.
  pose proof (vlen_sq [x0; 0; 0]) as N1. pose proof (vlen_sq [y0; y1; 0]) as N2. pose proof (vlen_sq [z0; z1; z2]) as N3.
  pose proof (vlen_sq [u0; 0; 0]) as M1. pose proof (vlen_sq [v0; v1; 0]) as M2. pose proof (vlen_sq [w0; w1; w2]) as M3.
  rewrite A1, A2, A3 in *. rewrite B1, B2, B3 in *. cbn [rdot] in *.
  assert (SQ : forall x y, 0 <= x -> 0 <= y -> x * x = y * y -> x = y) by (intros x y Hx Hy E; nra).
  assert (E0 : x0 = u0) by (apply SQ; lra). subst u0.
  assert (E1 : y0 = v0) by (apply Rmult_eq_reg_l with x0; lra). subst v0.
  assert (E2 : y1 = v1) by (apply SQ; lra). subst v1.
  assert (E3 : z0 = w0) by (apply Rmult_eq_reg_l with x0; lra). subst w0.
  assert (E4 : z1 = w1) by (apply Rmult_eq_reg_l with y1; lra). subst w1.
  assert (E5 : z2 = w2) by (apply SQ; lra). subst w2. auto.
Qed.
(** Any cell goes to a cell with the same lengths and angles, a lower triangular one with
    positive diagonal to itself. *)
Theorem C52_round_trip_cell : forall cell a b c al be ga, square_matrix 3 cell -> 0 < a -> 0 < b -> 0 < c ->
  has_parameters cell a b c al be ga -> 0 < al < 180 -> 0 < be < 180 -> 0 < ga < 180 ->
  rounded_angle al al -> rounded_angle be be -> rounded_angle ga ga ->
  exists cell', cell_to_cellpar cell = Done [a; b; c; al; be; ga] /\ cellpar_to_cell [a; b; c; al; be; ga] = Done cell' /\
    has_parameters cell' a b c al be ga /\ Rabs (det3 cell) = det3 cell' /\
    (lower_triangular 3 cell -> 0 < entry cell 0 0 -> 0 < entry cell 1 1 -> 0 <= entry cell 2 2 -> cell' = cell).
Proof.
  intros cell a b c al be ga HC Ha Hb Hc HP Hal Hbe Hga Ral Rbe Rga.
  destruct (C52_cellpar_to_cell a b c al be ga al be ga Ha Hb Hc Hal Hbe Hga Ral Rbe Rga) as [H1 _].
  destruct H1 as (cell' & E & HS' & HT' & (D0 & D1 & D2) & HP' & HD); [eauto|]. exists cell'. split; [|split; [auto|split; [auto|split]]].
  - destruct (C52_cell_to_cellpar cell HC) as (a1 & b1 & c1 & al1 & be1 & ga1 & EC & _ & HU).
    + destruct (square3 cell HC) as (x0 & x1 & x2 & y0 & y1 & y2 & z0 & z1 & z2 & ->).
      destruct HP as [H1 H2 H3 _ _ _]. cbn [nth] in *. rewrite <- H1 in Ha. rewrite <- H2 in Hb. rewrite <- H3 in Hc. constructor; auto.
    + rewrite EC. f_equal. symmetry. apply HU. auto.
  - rewrite HD, <- sqrt_sq_abs, (C52_volume cell a b c al be ga HC HP).
    assert (P : 0 < a * b * c) by (repeat apply Rmult_lt_0_compat; auto).
    rewrite sqrt_mult; [|nra|apply (parameters_volume cell a b c al be ga); auto]. rewrite sqrt_sq_abs, Rabs_right by lra. auto.
  - intros HT P0 P1 P2. symmetry. apply (lower_unique cell cell' a b c al be ga); auto.
Qed.

(** Two dimensions: no exception and no rounding. *)
Theorem C52_cellpar_2D : forall a b al, 0 < a -> 0 < b -> 0 < al < 180 ->
  exists cell, cellpar_to_cell_2D [a; b; al] = Done cell /\ square_matrix 2 cell /\ lower_triangular 2 cell /\
    has_parameters_2D cell a b al /\ det2 cell = a * b * sin (al * PI / 180) /\ 0 < det2 cell /\
    cell_to_cellpar_2D cell = Done [a; b; al].
Proof.
  intros a b al Ha Hb Hal. unfold cellpar_to_cell_2D, deg2rad. eexists. split; [reflexivity|].
  pose proof (sin_pos_deg al Hal) as SG. pose proof (sin2_cos2 (al * PI / 180)) as SC. unfold Rsqr in SC.
  set (s := sin (al * PI / 180)) in *. set (c := cos (al * PI / 180)) in *.
  assert (SM : square_matrix 2 [[a; 0]; [b * c; b * s]]) by (split; auto).
  assert (L0 : vlen [a; 0] = a).
  { unfold vlen. cbn [rdot]. replace (a * a + (0 * 0 + 0)) with (a * a) by ring. rewrite sqrt_sq_abs. apply Rabs_right. lra. }
  assert (L1 : vlen [b * c; b * s] = b).
  { unfold vlen. cbn [rdot]. replace (b * c * (b * c) + (b * s * (b * s) + 0)) with (b * b * (s * s + c * c)) by ring.
    rewrite SC, Rmult_1_r, sqrt_sq_abs. apply Rabs_right. lra. }
  assert (HP : has_parameters_2D [[a; 0]; [b * c; b * s]] a b al).
  { constructor; cbn [nth]; auto. split; [lra|]. rewrite L0, L1. cbn [rdot]. fold c. ring. }
  split; auto. split; [|split; [auto|split; [|split]]].
  - intros i j Hij. destruct i as [|i]; [|lia]. destruct j as [|[|j]]; try lia. reflexivity.
  - unfold det2, entry. cbn [nth]. ring.
  - unfold det2, entry. cbn [nth]. replace (a * (b * s) - 0 * (b * c)) with (a * b * s) by ring. repeat apply Rmult_lt_0_compat; auto.
  - destruct (C52_cell_to_cellpar_2D [[a; 0]; [b * c; b * s]] SM) as (a1 & b1 & al1 & EC & _ & HU).
    + constructor; [rewrite L0; auto|]. constructor; [rewrite L1; auto|constructor].
    + rewrite EC. f_equal. symmetry. apply HU. auto.
Qed.

Lemma cos_60 : cos (60 * PI / 180) = 1 / 2.
Proof. replace (60 * PI / 180) with (PI / 3) by field. apply cos_PI3. Qed.
Lemma cos_120 : cos (120 * PI / 180) = - (1 / 2).
Proof. replace (120 * PI / 180) with (2 * (PI / 3)) by field. rewrite cos_2PI3. lra. Qed.
Lemma cos_90 : cos (90 * PI / 180) = 0.
Proof. replace (90 * PI / 180) with (PI / 2) by field. apply cos_PI2. Qed.
Lemma cos_45 : cos (45 * PI / 180) = / sqrt 2.
Proof. replace (45 * PI / 180) with (PI / 4) by field. rewrite cos_PI4. unfold Rdiv. rewrite Rmult_1_l. auto. Qed.
Lemma cos_150 : cos (150 * PI / 180) = - (sqrt 3 / 2).
Proof.
  replace (150 * PI / 180) with (PI / 3 + PI / 2) by field. rewrite cos_plus, cos_PI2, sin_PI2, cos_PI3, sin_PI3. lra.
Qed.
Lemma cos_monotone : forall x y, 0 <= x -> x <= y -> y <= 180 -> cos (y * PI / 180) <= cos (x * PI / 180).
Proof. intros x y Hx Hxy Hy. pose proof PI_RGT_0. apply cos_decr_1; nra. Qed.
Lemma rounded_self : forall x, x = 90 \/ 1 <= Rabs (x - 90) -> rounded_angle x x.
Proof.
  intros x H. pose proof eps_small. split; auto. intros HL. destruct H as [H|H]; auto. lra.
Qed.
Lemma rounded_90 : rounded_angle 90 90.
Proof. apply rounded_self. auto. Qed.
Lemma rounded_120 : rounded_angle 120 120.
Proof. apply rounded_self. right. rewrite Rabs_right; lra. Qed.
Example C52_case : rounded_angle 90 90 /\ rounded_angle 120 120 /\
  exists cell, cellpar_to_cell [1; 2; 3; 90; 90; 120] = Done cell /\ has_parameters cell 1 2 3 90 90 120 /\ det3 cell = 6 * sqrt (3 / 4).
Proof.
  split; [apply rounded_90|]. split; [apply rounded_120|].
  destruct (cellpar_cases 1 2 3 90 90 120 90 90 120) as [OK _]; try lra; try apply rounded_90; try apply rounded_120.
  assert (V : unit_volume_sq 90 90 120 = 3 / 4) by (unfold unit_volume_sq; rewrite cos_90, cos_120; lra).
  destruct OK as (cell & E & _ & _ & _ & HP & HD); [lra|]. exists cell. split; auto. split; auto. rewrite HD, V. ring.
Qed.

(** ** C53 *)

(** There is no second draw: what the first six draws give is returned or raised. *)
Lemma first_draw : forall fuel draw ll lu al au, random_cell (S fuel) draw ll lu al au 3 =
  cellpar_to_cell [uniform draw 0 ll lu; uniform draw 1 ll lu; uniform draw 2 ll lu; uniform draw 3 al au; uniform draw 4 al au; uniform draw 5 al au].
Proof.
  intros fuel draw ll lu al au. cbn [random_cell random_cell_3 seq map app Nat.add].
  unfold cellpar_to_cell. destruct (Rltb _ 0); auto.
Qed.
Lemma volume_150_45_45 : unit_volume_sq 150 45 45 < 0.
Proof.
  unfold unit_volume_sq. rewrite cos_150, cos_45. assert (S2 : / sqrt 2 * / sqrt 2 = / 2).
  { rewrite <- Rinv_mult. rewrite sqrt_sqrt by lra. auto. }
  assert (S3 : sqrt 3 * sqrt 3 = 3) by (apply sqrt_sqrt; lra). pose proof (sqrt_pos 3).
  assert (1 < sqrt 3). { destruct (Rlt_le_dec 1 (sqrt 3)); auto. nra. }
  set (q := / sqrt 2) in *. set (s := sqrt 3) in *.
  replace (1 - - (s / 2) * - (s / 2) - q * q - q * q + 2 * (- (s / 2) * q * q)) with (1 - s * s / 4 - 2 * (q * q) - s * (q * q)) by field.
  rewrite S2, S3. lra.
Qed.
Theorem C53_retry_refuted : exists draw ll lu al au, 0 < ll < lu /\ 0 < al < au /\ au < 180 /\ (forall i, 0 <= draw i < 1) /\
  (exists cell, cellpar_to_cell [uniform draw 6 ll lu; uniform draw 7 ll lu; uniform draw 8 ll lu;
     uniform draw 9 al au; uniform draw 10 al au; uniform draw 11 al au] = Done cell) /\
  forall fuel, (1 <= fuel)%nat -> random_cell fuel draw ll lu al au 3 = Raise ValueError.
Proof.
  exists (fun i => match i with 3%nat => 11 / 12 | 4%nat | 5%nat => 1 / 24 | _ => 1 / 2 end), 1, 2, 40, 160.
  split; [lra|]. split; [lra|]. split; [lra|].
  split; [intros i; do 6 (destruct i as [|i]; [lra|]); lra|]. split.
  - unfold uniform. replace (40 + (160 - 40) * (1 / 2)) with 100 by field. replace (1 + (2 - 1) * (1 / 2)) with (3 / 2) by field.
    assert (RA : rounded_angle 100 100) by (apply rounded_self; right; rewrite Rabs_right; lra).
    destruct (cellpar_cases (3 / 2) (3 / 2) (3 / 2) 100 100 100 100 100 100) as [OK _]; try lra; auto.
    destruct OK as (cell & E & _); [|exists cell; exact E].
    assert (C : - (1 / 2) <= cos (100 * PI / 180) <= 0).
    { rewrite <- cos_120, <- cos_90. split; apply cos_monotone; lra. }
    unfold unit_volume_sq. nra.
  - intros fuel HF. destruct fuel as [|fuel]; [lia|]. rewrite first_draw. unfold uniform.
    replace (40 + (160 - 40) * (11 / 12)) with 150 by field. replace (40 + (160 - 40) * (1 / 24)) with 45 by field.
    replace (1 + (2 - 1) * (1 / 2)) with (3 / 2) by field.
    assert (R1 : rounded_angle 150 150) by (apply rounded_self; right; rewrite Rabs_right; lra).
    assert (R2 : rounded_angle 45 45) by (apply rounded_self; right; rewrite Rabs_left; lra).
    destruct (cellpar_cases (3 / 2) (3 / 2) (3 / 2) 150 45 45 150 45 45) as [_ NO]; try lra; auto. apply NO. apply volume_150_45_45.
Qed.
(** With angles between 60 and 120 degrees, as by default, the first draw always gives a
    cell, with lengths within the bounds and angles within the bounds (or right). *)
Lemma uniform_range : forall draw i lo hi, (forall i, 0 <= draw i < 1) -> lo <= hi -> lo <= uniform draw i lo hi <= hi.
Proof. intros draw i lo hi HD H. unfold uniform. specialize (HD i). nra. Qed.
Lemma volume_60_120 : forall x y z, 60 <= x <= 120 -> 60 <= y <= 120 -> 60 <= z <= 120 -> 0 <= unit_volume_sq x y z.
Proof.
  assert (C : forall x, 60 <= x <= 120 -> - (1 / 2) <= cos (x * PI / 180) <= 1 / 2).
  { intros x Hx. rewrite <- cos_120 at 1. rewrite <- cos_60. split; apply cos_monotone; lra. }
  intros x y z Hx Hy Hz. unfold unit_volume_sq. cbv zeta.
  pose proof (C x Hx) as A. pose proof (C y Hy) as B. pose proof (C z Hz) as D.
  set (a := cos (x * PI / 180)) in *. set (b := cos (y * PI / 180)) in *. set (c := cos (z * PI / 180)) in *. clearbody a b c.
  assert (BC : - (1 / 4) <= b * c <= 1 / 4) by nra.
  assert (ABC : - (1 / 8) <= a * b * c <= 1 / 8) by (rewrite Rmult_assoc; nra). nra.
Qed.
Theorem C53_default_partial : forall draw ll lu al au fuel, (forall i, 0 <= draw i < 1) -> 0 < ll <= lu -> 60 <= al <= au -> au <= 120 ->
  exists cell a b c x y z x' y' z', random_cell (S fuel) draw ll lu al au 3 = Done cell /\ square_matrix 3 cell /\
    has_parameters cell a b c x' y' z' /\ rounded_angle x x' /\ rounded_angle y y' /\ rounded_angle z z' /\
    ll <= a <= lu /\ ll <= b <= lu /\ ll <= c <= lu /\ al <= x <= au /\ al <= y <= au /\ al <= z <= au.
Proof.
  intros draw ll lu al au fuel HD HL HA HU. rewrite first_draw.
  pose proof (fun i => uniform_range draw i ll lu HD ltac:(lra)) as UL. pose proof (fun i => uniform_range draw i al au HD ltac:(lra)) as UA.
  set (a := uniform draw 0 ll lu). set (b := uniform draw 1 ll lu). set (c := uniform draw 2 ll lu).
  set (x := uniform draw 3 al au). set (y := uniform draw 4 al au). set (z := uniform draw 5 al au).
  pose proof (UL 0%nat) as La. pose proof (UL 1%nat) as Lb. pose proof (UL 2%nat) as Lc.
  pose proof (UA 3%nat) as Lx. pose proof (UA 4%nat) as Ly. pose proof (UA 5%nat) as Lz.
  fold a in La. fold b in Lb. fold c in Lc. fold x in Lx. fold y in Ly. fold z in Lz.
  destruct (rounded_exists x) as [x' Rx]. destruct (rounded_exists y) as [y' Ry]. destruct (rounded_exists z) as [z' Rz].
  assert (RR : forall t t', rounded_angle t t' -> al <= t <= au -> 60 <= t' <= 120).
  { intros t t' [H1 H2] Ht. destruct (Rlt_le_dec (Rabs (t - 90)) (/ 2 ^ 45)); [rewrite H1 by auto; lra|rewrite H2 by auto; lra]. }
  destruct (cellpar_cases a b c x y z x' y' z') as [OK _]; auto; try lra.
  destruct OK as (cell & E & HS & _ & _ & HP & _). { apply volume_60_120; eauto. }
  exists cell, a, b, c, x, y, z, x', y', z'. auto 20.
Qed.
Theorem C53_two_dimensions : forall draw ll lu al au fuel, (forall i, 0 <= draw i < 1) -> 0 < ll <= lu -> 0 < al <= au -> au < 180 ->
  exists cell a b x, random_cell fuel draw ll lu al au 2 = Done cell /\ square_matrix 2 cell /\ has_parameters_2D cell a b x /\
    ll <= a <= lu /\ ll <= b <= lu /\ al <= x <= au.
Proof.
  intros draw ll lu al au fuel HD HL HA HU. cbn [random_cell seq map app].
  pose proof (uniform_range draw 0 ll lu HD ltac:(lra)) as La. pose proof (uniform_range draw 1 ll lu HD ltac:(lra)) as Lb.
  pose proof (uniform_range draw 2 al au HD ltac:(lra)) as Lx.
  destruct (C52_cellpar_2D (uniform draw 0 ll lu) (uniform draw 1 ll lu) (uniform draw 2 al au)) as (cell & E & HS & _ & HP & _); try lra.
  exists cell. do 3 eexists. split; [exact E|]. split; auto. split; [exact HP|]. auto.
Qed.
Example C53_case : (forall i : nat, 0 <= (fun _ => 1 / 2) i < 1) /\ uniform (fun _ => 1 / 2) 0 60 120 = 90.
Proof. split; [intros; lra|]. unfold uniform. lra. Qed.

Print Assumptions C51_diameter_3D.
Print Assumptions C51_diameter_2D.
Print Assumptions C51_one_dimension_refuted.
Print Assumptions C51_one_dimension_partial.
Print Assumptions C52_cell_to_cellpar.
Print Assumptions C52_cell_to_cellpar_2D.
Print Assumptions C52_volume.
Print Assumptions C52_cellpar_to_cell.
Print Assumptions C52_round_trip.
Print Assumptions C52_round_trip_cell.
Print Assumptions C52_cellpar_2D.
Print Assumptions C53_retry_refuted.
Print Assumptions C53_default_partial.
Print Assumptions C53_two_dimensions.
