(** C55 and C56: intersections of circles and spheres, and filters with a tolerance. *)
From Coq Require Import List ZArith Reals Arith Bool Sorted Lia Lra.
From Verif Require Import Num Base Outcome NNModel SpecGeom SpecCell UtilsModel Props_Utils PSetModel Props_PSet SpecRecon ReconModel.
Import ListNotations.
Open Scope R_scope.
Open Scope list_scope.

Lemma edist2 : forall a b c d, edist [a; b] [c; d] = sqrt ((a - c) * (a - c) + (b - d) * (b - d)).
Proof. intros. unfold edist. cbn [sq_dist]. f_equal. ring. Qed.
Lemma sqrt_eq : forall x r, 0 <= r -> x = r * r -> sqrt x = r.
Proof. intros x r Hr ->. rewrite sqrt_sq_abs. apply Rabs_right. lra. Qed.
Lemma sqrt_eq_inv : forall x r, 0 <= x -> sqrt x = r -> x = r * r.
Proof. intros x r Hx <-. rewrite sqrt_sqrt; auto. Qed.
Lemma sq2_nonneg : forall a b, 0 <= a * a + b * b.
Proof. intros. nra. Qed.
Lemma sq_eq : forall x y, x * x = y * y -> x = y \/ x = - y.
Proof. intros x y H. assert ((x - y) * (x + y) = 0) by lra. apply Rmult_integral in H0 as [H0|H0]; [left|right]; lra. Qed.

Section Circles.
  Variables (x1 y1 u w r1 r2 : R).
  Hypothesis N : (u <> x1 \/ w <> y1).
  Hypothesis R1 : 0 <= r1.
  Hypothesis R2 : 0 <= r2.
  Let d := sqrt ((u - x1) * (u - x1) + (w - y1) * (w - y1)).
  Let v0 := (u - x1) / d.
  Let v1 := (w - y1) / d.
  Let a := (r1 * r1 - r2 * r2 + d * d) / (2 * d).
  Lemma circ_d : 0 < d.
  Proof.
    apply sqrt_lt_R0. assert (P : forall x, x <> 0 -> 0 < x * x) by (intros x Hx; apply (Rsqr_pos_lt x Hx)).
    pose proof (Rle_0_sqr (u - x1)) as S1. pose proof (Rle_0_sqr (w - y1)) as S2. unfold Rsqr in *.
    destruct N as [H|H]; [pose proof (P (u - x1) ltac:(lra))|pose proof (P (w - y1) ltac:(lra))]; lra.
  Qed.
  Lemma circ_dd : d * d = (u - x1) * (u - x1) + (w - y1) * (w - y1).
  Proof. apply sqrt_sqrt. apply sq2_nonneg. Qed.
  Lemma circ_v : v0 * v0 + v1 * v1 = 1 /\ u - x1 = d * v0 /\ w - y1 = d * v1.
  Proof.
    pose proof circ_d as D. pose proof circ_dd as DD. assert (E0 : u - x1 = d * v0) by (unfold v0; field; lra).
    assert (E1 : w - y1 = d * v1) by (unfold v1; field; lra). split; auto. rewrite E0, E1 in DD.
    assert (d * d * (v0 * v0 + v1 * v1 - 1) = 0) by lra. apply Rmult_integral in H as [H|H]; [nra|lra].
  Qed.
  Lemma circ_a : 2 * d * a = r1 * r1 - r2 * r2 + d * d.
  Proof. pose proof circ_d. unfold a. field. lra. Qed.
  Lemma circ_h : d <= r1 + r2 -> Rabs (r1 - r2) <= d -> 0 <= r1 * r1 - a * a.
  Proof.
    intros H1 H2. pose proof circ_d as D. pose proof circ_a as A.
    assert (Q : 0 <= 4 * (d * d) * (r1 * r1 - a * a)).
    { replace (4 * (d * d) * (r1 * r1 - a * a)) with (4 * (d * d) * (r1 * r1) - (2 * d * a) * (2 * d * a)) by ring. rewrite A.
      replace (4 * (d * d) * (r1 * r1) - (r1 * r1 - r2 * r2 + d * d) * (r1 * r1 - r2 * r2 + d * d))
        with (((r1 + r2) * (r1 + r2) - d * d) * (d * d - (r1 - r2) * (r1 - r2))) by ring.
      apply Rmult_le_pos; [nra|]. unfold Rabs in H2. destruct (Rcase_abs _); nra. }
    assert (0 < 4 * (d * d)) by nra. apply (Rmult_le_reg_l (4 * (d * d))); lra.
  Qed.
  (** The two points computed are at the distances asked for. *)
  Lemma circ_sound : forall h, h * h = r1 * r1 - a * a ->
    let s := x1 + a * v0 + h * v1 in let t := y1 + a * v1 - h * v0 in
    (s - x1) * (s - x1) + (t - y1) * (t - y1) = r1 * r1 /\ (s - u) * (s - u) + (t - w) * (t - w) = r2 * r2.
  Proof.
    intros h Hh s t. destruct circ_v as (V & E0 & E1). pose proof circ_a as A. unfold s, t.
    assert (Eu : u = x1 + d * v0) by lra. assert (Ew : w = y1 + d * v1) by lra. split.
    - replace ((x1 + a * v0 + h * v1 - x1) * (x1 + a * v0 + h * v1 - x1) + (y1 + a * v1 - h * v0 - y1) * (y1 + a * v1 - h * v0 - y1))
        with ((a * a + h * h) * (v0 * v0 + v1 * v1)) by ring. rewrite V. lra.
    - set (k := d) in *. rewrite Eu, Ew.
      replace ((x1 + a * v0 + h * v1 - (x1 + k * v0)) * (x1 + a * v0 + h * v1 - (x1 + k * v0)) + (y1 + a * v1 - h * v0 - (y1 + k * v1)) * (y1 + a * v1 - h * v0 - (y1 + k * v1)))
        with (((a - k) * (a - k) + h * h) * (v0 * v0 + v1 * v1)) by ring. rewrite V. lra.
  Qed.
  (** There are no others. *)
  Lemma circ_complete : forall s t, (s - x1) * (s - x1) + (t - y1) * (t - y1) = r1 * r1 -> (s - u) * (s - u) + (t - w) * (t - w) = r2 * r2 ->
    d <= r1 + r2 /\ Rabs (r1 - r2) <= d /\
    exists h, h * h = r1 * r1 - a * a /\ s = x1 + a * v0 + h * v1 /\ t = y1 + a * v1 - h * v0.
  Proof.
    intros s t H1 H2. destruct circ_v as (V & E0 & E1). pose proof circ_a as A. pose proof circ_d as D.
    set (al := (s - x1) * v0 + (t - y1) * v1). set (be := (s - x1) * v1 - (t - y1) * v0).
    assert (Es : s = x1 + al * v0 + be * v1).
    { unfold al, be. replace (x1 + ((s - x1) * v0 + (t - y1) * v1) * v0 + ((s - x1) * v1 - (t - y1) * v0) * v1) with (x1 + (s - x1) * (v0 * v0 + v1 * v1)) by ring. rewrite V. ring. }
    assert (Et : t = y1 + al * v1 - be * v0).
    { unfold al, be. replace (y1 + ((s - x1) * v0 + (t - y1) * v1) * v1 - ((s - x1) * v1 - (t - y1) * v0) * v0) with (y1 + (t - y1) * (v0 * v0 + v1 * v1)) by ring. rewrite V. ring. }
    assert (Q1 : al * al + be * be = r1 * r1).
    { rewrite <- H1. unfold al, be. replace (((s - x1) * v0 + (t - y1) * v1) * ((s - x1) * v0 + (t - y1) * v1) + ((s - x1) * v1 - (t - y1) * v0) * ((s - x1) * v1 - (t - y1) * v0))
        with (((s - x1) * (s - x1) + (t - y1) * (t - y1)) * (v0 * v0 + v1 * v1)) by ring. rewrite V. ring. }
    assert (Q2 : (al - d) * (al - d) + be * be = r2 * r2).
    { rewrite <- H2. replace (s - u) with ((s - x1) - (u - x1)) by ring. replace (t - w) with ((t - y1) - (w - y1)) by ring. rewrite E0, E1.
      replace ((s - x1 - d * v0) * (s - x1 - d * v0) + (t - y1 - d * v1) * (t - y1 - d * v1))
        with ((s - x1) * (s - x1) + (t - y1) * (t - y1) - 2 * d * al + d * d * (v0 * v0 + v1 * v1)) by (unfold al; ring). rewrite V, H1, <- Q1. ring. }
    assert (EA : al = a) by nra.
    assert (B1 : - r1 <= al <= r1) by nra. assert (B2 : - r2 <= al - d <= r2) by nra.
    split; [lra|]. split; [unfold Rabs; destruct (Rcase_abs _); nra|].
    exists be. rewrite <- EA. split; [lra|]. auto.
  Qed.
End Circles.

Lemma none_guard : forall A (b : bool) (x : option A) y, (if b then None else x) = Some y -> b = false /\ x = Some y.
Proof. intros A [|] x y H; [discriminate|auto]. Qed.

Theorem C55_bilaterate_sound : forall p1 p2 r1 r2 abs_val prec q,
  length p1 = 2%nat -> length p2 = 2%nat -> p1 <> p2 -> 0 <= r1 -> 0 <= r2 ->
  bilaterate p1 p2 r1 r2 abs_val prec = Some q ->
  length q = 2%nat /\ edist q p1 = r1 /\ edist q p2 = r2 /\ Rabs (vlen q - abs_val) < prec.
Proof.
  intros p1 p2 r1 r2 abs_val prec q L1 L2 HN H1 H2 E. destruct (len2 p1 L1) as (x1 & y1 & ->). destruct (len2 p2 L2) as (u & w & ->).
  assert (N : u <> x1 \/ w <> y1). { destruct (Req_dec u x1) as [->|]; auto. destruct (Req_dec w y1) as [->|]; auto. }
  unfold bilaterate in E. cbn [nth rows_sub map2 map] in E. set (d := sqrt _) in E.
  apply none_guard in E as [G1 E]. apply none_guard in E as [G2 E]. apply none_guard in E as [_ E].
  apply Rltb_false in G1, G2.
  pose proof (circ_h x1 y1 u w r1 r2 N) as HH. fold d in HH. specialize (HH G1 G2).
  set (a := (r1 * r1 - r2 * r2 + d * d) / (2 * d)) in *.
  set (h := sqrt (r1 * r1 - a * a)) in *. assert (Q : h * h = r1 * r1 - a * a) by (apply sqrt_sqrt; auto).
  pose proof (circ_sound x1 y1 u w r1 r2 N h) as S1. pose proof (circ_sound x1 y1 u w r1 r2 N (- h)) as S2. fold d in S1, S2. fold a in S1, S2.
  specialize (S1 Q). specialize (S2 ltac:(lra)). cbv zeta in S1, S2.
  destruct (Rltb _ _) eqn:B1 in E; [|destruct (Rltb _ _) eqn:B2 in E; [|discriminate]].
  - injection E as <-. apply Rltb_true in B1. split; auto. rewrite !edist2. destruct S1 as [S1 S1'].
    split; [apply sqrt_eq; auto|]. split; [apply sqrt_eq; auto|].
    unfold vlen. cbn [rdot]. rewrite Rplus_0_r. auto.
  - injection E as <-. apply Rltb_true in B2. split; auto. rewrite !edist2. destruct S2 as [S2 S2'].
    split; [apply sqrt_eq; auto; rewrite <- S2; ring|]. split; [apply sqrt_eq; auto; rewrite <- S2'; ring|].
    unfold vlen. cbn [rdot]. rewrite Rplus_0_r. auto.
Qed.
Theorem C55_bilaterate_complete : forall p1 p2 r1 r2 abs_val prec,
  length p1 = 2%nat -> length p2 = 2%nat -> p1 <> p2 ->
  (exists q, length q = 2%nat /\ edist q p1 = r1 /\ edist q p2 = r2 /\ Rabs (vlen q - abs_val) < prec) ->
  bilaterate p1 p2 r1 r2 abs_val prec <> None.
Proof.
  intros p1 p2 r1 r2 abs_val prec L1 L2 HN (q & Lq & Q1 & Q2 & QA) E. destruct (len2 p1 L1) as (x1 & y1 & ->). destruct (len2 p2 L2) as (u & w & ->).
  destruct (len2 q Lq) as (s & t & ->).
  assert (N : u <> x1 \/ w <> y1). { destruct (Req_dec u x1) as [->|]; auto. destruct (Req_dec w y1) as [->|]; auto. }
  assert (P1 : 0 <= r1) by (rewrite <- Q1; apply sqrt_pos). assert (P2 : 0 <= r2) by (rewrite <- Q2; apply sqrt_pos).
  rewrite edist2 in Q1, Q2. apply sqrt_eq_inv in Q1; [|apply sq2_nonneg]. apply sqrt_eq_inv in Q2; [|apply sq2_nonneg].
  destruct (circ_complete x1 y1 u w r1 r2 N P1 P2 s t Q1 Q2) as (G1 & G2 & h & Hh & Es & Et).
  pose proof (circ_d x1 y1 u w N) as D. unfold bilaterate in E. cbn [nth rows_sub map2 map] in E. set (d := sqrt _) in *.
  apply Rltb_false in G1, G2. rewrite G1, G2 in E. assert (G3 : Rleb d 0 = false) by (apply Rleb_false; lra). rewrite G3 in E. cbn [andb] in E.
  set (a := (r1 * r1 - r2 * r2 + d * d) / (2 * d)) in *. set (h' := sqrt (r1 * r1 - a * a)) in *.
  assert (EH : h' * h' = h * h) by (rewrite Hh; apply sqrt_sqrt; nra).
  unfold vlen in QA. cbn [rdot] in QA. rewrite Rplus_0_r in QA.
  destruct (Rltb _ _) eqn:B1 in E; [discriminate|]. destruct (Rltb _ _) eqn:B2 in E; [discriminate|].
  apply Rltb_false in B1, B2. apply sq_eq in EH as [EH|EH]; rewrite EH in B1, B2.
  - rewrite <- Es, <- Et in B1. lra.
  - replace (x1 + a * ((u - x1) / d) - - h * ((w - y1) / d)) with s in B2 by lra. replace (y1 + a * ((w - y1) / d) + - h * ((u - x1) / d)) with t in B2 by lra. lra.
Qed.
(** Coincident centres give nothing. *)
Theorem C55_bilaterate_coincident : forall p r1 r2 abs_val prec, length p = 2%nat -> 0 <= r1 -> 0 <= r2 -> bilaterate p p r1 r2 abs_val prec = None.
Proof.
  intros p r1 r2 abs_val prec L H1 H2. destruct (len2 p L) as (x & y & ->). unfold bilaterate. cbn [nth rows_sub map2 map].
  set (d := sqrt _). assert (D : d = 0). { unfold d. replace ((x - x) * (x - x) + (y - y) * (y - y)) with 0 by ring. apply sqrt_0. }
  rewrite D. destruct (Rltb (r1 + r2) 0); auto. destruct (Rltb 0 (Rabs (r1 - r2))) eqn:B; auto. apply Rltb_false in B.
  pose proof (Rabs_pos (r1 - r2)). assert (r1 - r2 = 0). { unfold Rabs in B. destruct (Rcase_abs _); lra. }
  assert (E0 : Rleb 0 0 = true) by (apply Rleb_true; lra). assert (E1 : Rleb r1 r2 = true) by (apply Rleb_true; lra). assert (E2 : Rleb r2 r1 = true) by (apply Rleb_true; lra).
  rewrite E0, E1, E2. auto.
Qed.
Example C55_case_2D : exists q, bilaterate [1; 0] [0; 1] 1 1 0 (1 / 2) = Some q /\ [1; 0] <> [0; 1].
Proof.
  destruct (bilaterate [1; 0] [0; 1] 1 1 0 (1 / 2)) as [q|] eqn:E.
  - exists q. split; auto. intros H. injection H as H. lra.
  - exfalso. revert E. apply C55_bilaterate_complete; auto; [intros H; injection H as H; lra|].
    exists [0; 0]. split; auto. rewrite !edist2. split; [apply sqrt_eq; lra|]. split; [apply sqrt_eq; lra|].
    unfold vlen. cbn [rdot]. rewrite (sqrt_eq _ 0) by lra. rewrite Rminus_0_r, Rabs_R0. lra.
Qed.

Section Frame.
  Variables (e0 e1 e2 f0 f1 f2 : R).
  Let E := e0 * e0 + e1 * e1 + e2 * e2.
  Let F := f0 * f0 + f1 * f1 + f2 * f2.
  Let D := e0 * f0 + e1 * f1 + e2 * f2.
  Let g0 := e1 * f2 - e2 * f1.
  Let g1 := e2 * f0 - e0 * f2.
  Let g2 := e0 * f1 - e1 * f0.
  Hypothesis HE : E = 1.
  Hypothesis HF : F = 1.
  Hypothesis HD : D = 0.
  Lemma frame_norm : forall x y z,
    (x * e0 + y * f0 + z * g0) * (x * e0 + y * f0 + z * g0) + (x * e1 + y * f1 + z * g1) * (x * e1 + y * f1 + z * g1) +
    (x * e2 + y * f2 + z * g2) * (x * e2 + y * f2 + z * g2) = x * x + y * y + z * z.
  Proof.
    intros x y z. transitivity (x * x * E + y * y * F + z * z * (E * F - D * D) + 2 * x * y * D).
    - unfold E, F, D, g0, g1, g2. ring.
    - rewrite HE, HF, HD. ring.
  Qed.
  Lemma frame_split : forall w0 w1 w2, let x := w0 * e0 + w1 * e1 + w2 * e2 in let y := w0 * f0 + w1 * f1 + w2 * f2 in
    let z := w0 * g0 + w1 * g1 + w2 * g2 in
    w0 = x * e0 + y * f0 + z * g0 /\ w1 = x * e1 + y * f1 + z * g1 /\ w2 = x * e2 + y * f2 + z * g2.
  Proof.
    intros w0 w1 w2 x y z.
    assert (G : forall w e f g : R, w * (E * F - D * D) = (x * F - y * D) * e + (y * E - x * D) * f + z * g -> w = x * e + y * f + z * g).
    { intros w e f g H. rewrite HE, HF, HD in H. lra. }
    split; [|split]; apply G; unfold x, y, z, E, F, D, g0, g1, g2; ring.
  Qed.
End Frame.

Lemma vlen3 : forall a b c, vlen [a; b; c] = sqrt (a * a + b * b + c * c).
Proof. intros. unfold vlen. cbn [rdot]. f_equal. ring. Qed.
Lemma edist3 : forall a b c u v w, edist [a; b; c] [u; v; w] = sqrt ((a - u) * (a - u) + (b - v) * (b - v) + (c - w) * (c - w)).
Proof. intros. unfold edist. cbn [sq_dist]. f_equal. ring. Qed.
Lemma sq3_nonneg : forall a b c, 0 <= a * a + b * b + c * c.
Proof. intros. nra. Qed.

Lemma frame_of : forall p1 p2 p3, length p1 = 3%nat -> length p2 = 3%nat -> length p3 = 3%nat -> p1 <> p2 -> ~ on_line p1 p2 p3 ->
  let temp1 := rows_sub p2 p1 in let d := norm_row temp1 in let e_x := map (fun c => c / d) temp1 in
  let temp2 := rows_sub p3 p1 in let i := dot_rows e_x temp2 in let temp3 := rows_sub temp2 (row_scale i e_x) in
  let n3 := norm_row temp3 in let e_y := map (fun c => c / n3) temp3 in let j := dot_rows e_y temp2 in
  0 < d /\ 0 < j /\ exists e0 e1 e2 f0 f1 f2, e_x = [e0; e1; e2] /\ e_y = [f0; f1; f2] /\
    e0 * e0 + e1 * e1 + e2 * e2 = 1 /\ f0 * f0 + f1 * f1 + f2 * f2 = 1 /\ e0 * f0 + e1 * f1 + e2 * f2 = 0 /\
    p2 = [nth 0 p1 0 + d * e0; nth 1 p1 0 + d * e1; nth 2 p1 0 + d * e2] /\
    p3 = [nth 0 p1 0 + i * e0 + j * f0; nth 1 p1 0 + i * e1 + j * f1; nth 2 p1 0 + i * e2 + j * f2].
Proof.
  intros p1 p2 p3 L1 L2 L3 HN HL. destruct (len3 p1 L1) as (a0 & a1 & a2 & ->). destruct (len3 p2 L2) as (b0 & b1 & b2 & ->). destruct (len3 p3 L3) as (c0 & c1 & c2 & ->).
  intros temp1 d e_x temp2 i temp3 n3 e_y j. cbn [nth].
  assert (ED : d = sqrt ((b0 - a0) * (b0 - a0) + (b1 - a1) * (b1 - a1) + (b2 - a2) * (b2 - a2))) by (unfold d; rewrite norm_vlen; apply vlen3).
  assert (DD : d * d = (b0 - a0) * (b0 - a0) + (b1 - a1) * (b1 - a1) + (b2 - a2) * (b2 - a2)) by (rewrite ED; apply sqrt_sqrt, sq3_nonneg).
  assert (PQ : forall a b c, 0 <= sqrt (a * a + b * b + c * c) /\ (sqrt (a * a + b * b + c * c) = 0 -> a = 0 /\ b = 0 /\ c = 0)).
  { intros a b c. split; [apply sqrt_pos|]. intros H. apply sqrt_eq_inv in H; [|apply sq3_nonneg].
    pose proof (Rle_0_sqr a). pose proof (Rle_0_sqr b). pose proof (Rle_0_sqr c). unfold Rsqr in *.
    assert (Z : forall t, t * t = 0 -> t = 0) by (intros t Ht; apply Rmult_integral in Ht as [|]; auto).
    repeat split; apply Z; lra. }
  assert (D : 0 < d).
  { destruct (PQ (b0 - a0) (b1 - a1) (b2 - a2)) as [Q1 Q2]. rewrite <- ED in Q1, Q2. destruct (Rle_lt_or_eq_dec 0 d Q1) as [|Q]; auto.
    exfalso. apply HN. symmetry in Q. apply Q2 in Q as (U & V & W). f_equal; [lra|]. f_equal; [lra|]. f_equal. lra. }
  set (e0 := (b0 - a0) / d). set (e1 := (b1 - a1) / d). set (e2 := (b2 - a2) / d).
  assert (EX : e_x = [e0; e1; e2]) by reflexivity.
  assert (A0 : b0 - a0 = d * e0) by (unfold e0; field; lra). assert (A1 : b1 - a1 = d * e1) by (unfold e1; field; lra). assert (A2 : b2 - a2 = d * e2) by (unfold e2; field; lra).
  assert (HE : e0 * e0 + e1 * e1 + e2 * e2 = 1).
  { rewrite A0, A1, A2 in DD. assert (d * d * (e0 * e0 + e1 * e1 + e2 * e2 - 1) = 0) by lra. apply Rmult_integral in H as [H|H]; [nra|lra]. }
  assert (EI : i = e0 * (c0 - a0) + e1 * (c1 - a1) + e2 * (c2 - a2)) by (unfold i; rewrite EX, total_rdot; cbn; ring).
  set (t0 := c0 - a0 - i * e0). set (t1 := c1 - a1 - i * e1). set (t2 := c2 - a2 - i * e2).
  assert (ET : temp3 = [t0; t1; t2]) by (unfold temp3; rewrite EX; reflexivity).
  assert (EN : n3 = sqrt (t0 * t0 + t1 * t1 + t2 * t2)) by (unfold n3; rewrite ET, norm_vlen; apply vlen3).
  assert (NN : n3 * n3 = t0 * t0 + t1 * t1 + t2 * t2) by (rewrite EN; apply sqrt_sqrt, sq3_nonneg).
  assert (NP : 0 < n3).
  { destruct (PQ t0 t1 t2) as [Q1 Q2]. rewrite <- EN in Q1, Q2. destruct (Rle_lt_or_eq_dec 0 n3 Q1) as [|Q]; auto.
    exfalso. apply HL. symmetry in Q. apply Q2 in Q as (U & V & W). exists (i / d). unfold t0, t1, t2 in U, V, W.
    assert (G : forall x e, x = d * e -> i / d * x = i * e) by (intros x e ->; field; lra).
    intros k. destruct k as [|[|[|k]]]; cbn [nth].
    - rewrite (G _ _ A0). lra.
    - rewrite (G _ _ A1). lra.
    - rewrite (G _ _ A2). lra.
    - destruct k; lra. }
  assert (TD : e0 * t0 + e1 * t1 + e2 * t2 = 0).
  { unfold t0, t1, t2. transitivity (e0 * (c0 - a0) + e1 * (c1 - a1) + e2 * (c2 - a2) - i * (e0 * e0 + e1 * e1 + e2 * e2)); [ring|]. rewrite HE, EI. ring. }
  set (f0 := t0 / n3). set (f1 := t1 / n3). set (f2 := t2 / n3).
  assert (EY : e_y = [f0; f1; f2]) by (unfold e_y; rewrite ET; reflexivity).
  assert (B0 : t0 = n3 * f0) by (unfold f0; field; lra). assert (B1 : t1 = n3 * f1) by (unfold f1; field; lra). assert (B2 : t2 = n3 * f2) by (unfold f2; field; lra).
  assert (HF : f0 * f0 + f1 * f1 + f2 * f2 = 1).
  { rewrite B0, B1, B2 in NN. assert (n3 * n3 * (f0 * f0 + f1 * f1 + f2 * f2 - 1) = 0) by lra. apply Rmult_integral in H as [H|H]; [nra|lra]. }
  assert (HD : e0 * f0 + e1 * f1 + e2 * f2 = 0).
  { rewrite B0, B1, B2 in TD. assert (n3 * (e0 * f0 + e1 * f1 + e2 * f2) = 0) by lra. apply Rmult_integral in H as [H|H]; [lra|auto]. }
  assert (EJ : j = n3).
  { unfold j. rewrite EY, total_rdot. cbn [rdot temp2 rows_sub map2]. unfold temp2. cbn [rows_sub map2 rdot].
    assert (C0 : c0 - a0 = i * e0 + n3 * f0) by (unfold t0 in B0; lra). assert (C1 : c1 - a1 = i * e1 + n3 * f1) by (unfold t1 in B1; lra). assert (C2 : c2 - a2 = i * e2 + n3 * f2) by (unfold t2 in B2; lra).
    change (f0 * (c0 - a0) + (f1 * (c1 - a1) + (f2 * (c2 - a2) + 0)) = n3). rewrite C0, C1, C2.
    transitivity (i * (e0 * f0 + e1 * f1 + e2 * f2) + n3 * (f0 * f0 + f1 * f1 + f2 * f2)); [ring|]. rewrite HD, HF. ring. }
  split; auto. split; [rewrite EJ; auto|]. exists e0, e1, e2, f0, f1, f2. do 5 (split; [auto|]). rewrite EJ. unfold t0, t1, t2 in B0, B1, B2. split.
  - f_equal; [lra|]. f_equal; [lra|]. f_equal. lra.
  - f_equal; [lra|]. f_equal; [lra|]. f_equal. lra.
Qed.

Lemma rows_sub_scale : forall u z v, rows_sub u (row_scale z v) = rows_add u (row_scale (- z) v).
Proof.
  induction u as [|a u IH]; intros z [|b v]; auto. unfold rows_sub, rows_add, row_scale in *. cbn [map map2]. rewrite IH. f_equal. lra.
Qed.

Lemma norm_diff : forall p q, length p = 3%nat -> length q = 3%nat -> norm_row (rows_sub p q) = edist p q.
Proof.
  intros p q Lp Lq. destruct (len3 p Lp) as (a & b & c & ->). destruct (len3 q Lq) as (u & v & w & ->). cbn [rows_sub map2]. rewrite norm_vlen, vlen3, edist3. auto.
Qed.

Lemma opp_sq : forall a b, a * a = b -> - a * - a = b.
Proof. intros. lra. Qed.


Section Spheres.
  Variables (p1 p2 p3 : list R) (r1 r2 r3 : R).
  Hypothesis L1 : length p1 = 3%nat.
  Hypothesis L2 : length p2 = 3%nat.
  Hypothesis L3 : length p3 = 3%nat.
  Hypothesis HN : p1 <> p2.
  Hypothesis HL : ~ on_line p1 p2 p3.
  Let temp1 := rows_sub p2 p1.
  Let d := norm_row temp1.
  Let e_x := map (fun c => c / d) temp1.
  Let temp2 := rows_sub p3 p1.
  Let i := dot_rows e_x temp2.
  Let temp3 := rows_sub temp2 (row_scale i e_x).
  Let n3 := norm_row temp3.
  Let e_y := map (fun c => c / n3) temp3.
  Let j := dot_rows e_y temp2.
  Let x := (r1 * r1 - r2 * r2 + d * d) / (2 * d).
  Let y := (r1 * r1 - r3 * r3 - 2 * i * x + i * i + j * j) / (2 * j).
  Let base := rows_add (rows_add p1 (row_scale x e_x)) (row_scale y e_y).
  Let point (z : R) := rows_add base (row_scale z (cross e_x e_y)).

  Lemma sph_values : 0 < d /\ 0 < j /\ 2 * d * x = r1 * r1 - r2 * r2 + d * d /\ 2 * j * y = r1 * r1 - r3 * r3 - 2 * i * x + i * i + j * j.
  Proof.
    destruct (frame_of p1 p2 p3 L1 L2 L3 HN HL) as (D & J & _). fold temp1 in D. fold d in D. fold e_x temp2 i temp3 n3 e_y j in J.
    assert (D' : d <> 0) by (apply Rgt_not_eq; exact D). assert (J' : j <> 0) by (apply Rgt_not_eq; exact J).
    split; [exact D|]. split; [exact J|]. split; [unfold x; clearbody d; field; auto|unfold y; clearbody x i j; field; auto].
  Qed.
  Lemma sph_sound : 0 <= r1 -> 0 <= r2 -> 0 <= r3 -> forall z, z * z = r1 * r1 - x * x - y * y ->
    length (point z) = 3%nat /\ edist (point z) p1 = r1 /\ edist (point z) p2 = r2 /\ edist (point z) p3 = r3.
  Proof.
    intros P1 P2 P3 z Hz. destruct sph_values as (D & J & QX & QY).
    destruct (frame_of p1 p2 p3 L1 L2 L3 HN HL) as (_ & _ & e0 & e1 & e2 & f0 & f1 & f2 & EX & EY & HE & HF & HD & E2 & E3).
    fold temp1 in EX, EY, E2, E3. fold d in EX, EY, E2, E3. fold e_x temp2 in EX, EY, E3. fold i in EY, E3. fold temp3 in EY, E3. fold n3 in EY, E3. fold e_y in EY, E3. fold j in E3.
    destruct (len3 p1 L1) as (a0 & a1 & a2 & EP). unfold point, base. rewrite EX, EY, E2, E3. clearbody d x y i j. rewrite EP in *. cbn [nth row_scale rows_add map map2 cross].
    split; auto. rewrite !edist3. pose proof (frame_norm e0 e1 e2 f0 f1 f2 HE HF HD) as FN. split; [|split]; apply sqrt_eq; auto.
    - transitivity (x * x + y * y + z * z); [rewrite <- (FN x y z); ring|lra].
    - transitivity ((x - d) * (x - d) + y * y + z * z); [rewrite <- (FN (x - d) y z); ring|lra].
    - transitivity ((x - i) * (x - i) + (y - j) * (y - j) + z * z); [rewrite <- (FN (x - i) (y - j) z); ring|lra].
  Qed.
  Lemma sph_complete : forall q, length q = 3%nat -> edist q p1 = r1 -> edist q p2 = r2 -> edist q p3 = r3 ->
    exists z, z * z = r1 * r1 - x * x - y * y /\ q = point z.
  Proof.
    intros q Lq Q1 Q2 Q3. destruct sph_values as (D & J & QX & QY).
    destruct (frame_of p1 p2 p3 L1 L2 L3 HN HL) as (_ & _ & e0 & e1 & e2 & f0 & f1 & f2 & EX & EY & HE & HF & HD & E2 & E3).
    fold temp1 in EX, EY, E2, E3. fold d in EX, EY, E2, E3. fold e_x temp2 in EX, EY, E3. fold i in EY, E3. fold temp3 in EY, E3. fold n3 in EY, E3. fold e_y in EY, E3. fold j in E3.
    destruct (len3 p1 L1) as (a0 & a1 & a2 & EP). destruct (len3 q Lq) as (q0 & q1 & q2 & EQ). unfold point, base. rewrite EX, EY. rewrite E2 in Q2. rewrite E3 in Q3. clearbody d x y i j. rewrite EP, EQ in *.
    cbn [nth row_scale rows_add map map2 cross] in *. rewrite edist3 in Q1, Q2, Q3.
    apply sqrt_eq_inv in Q1; [|apply sq3_nonneg]. apply sqrt_eq_inv in Q2; [|apply sq3_nonneg]. apply sqrt_eq_inv in Q3; [|apply sq3_nonneg].
    pose proof (frame_norm e0 e1 e2 f0 f1 f2 HE HF HD) as FN. pose proof (frame_split e0 e1 e2 f0 f1 f2 HE HF HD (q0 - a0) (q1 - a1) (q2 - a2)) as FS. cbv zeta in FS.
    set (s := (q0 - a0) * e0 + (q1 - a1) * e1 + (q2 - a2) * e2) in *. set (t := (q0 - a0) * f0 + (q1 - a1) * f1 + (q2 - a2) * f2) in *.
    match type of FS with context [s * e0 + t * f0 + ?u * _] => set (z := u) in * end.
    destruct FS as (S0 & S1 & S2).
    assert (N1 : s * s + t * t + z * z = r1 * r1). { rewrite <- Q1, <- (FN s t z), <- S0, <- S1, <- S2. ring. }
    assert (N2 : (s - d) * (s - d) + t * t + z * z = r2 * r2).
    { rewrite <- Q2, <- (FN (s - d) t z). replace ((s - d) * e0 + t * f0 + z * (e1 * f2 - e2 * f1)) with (q0 - (a0 + d * e0)) by lra.
      replace ((s - d) * e1 + t * f1 + z * (e2 * f0 - e0 * f2)) with (q1 - (a1 + d * e1)) by lra. replace ((s - d) * e2 + t * f2 + z * (e0 * f1 - e1 * f0)) with (q2 - (a2 + d * e2)) by lra. ring. }
    assert (N3 : (s - i) * (s - i) + (t - j) * (t - j) + z * z = r3 * r3).
    { rewrite <- Q3, <- (FN (s - i) (t - j) z). replace ((s - i) * e0 + (t - j) * f0 + z * (e1 * f2 - e2 * f1)) with (q0 - (a0 + i * e0 + j * f0)) by lra.
      replace ((s - i) * e1 + (t - j) * f1 + z * (e2 * f0 - e0 * f2)) with (q1 - (a1 + i * e1 + j * f1)) by lra.
      replace ((s - i) * e2 + (t - j) * f2 + z * (e0 * f1 - e1 * f0)) with (q2 - (a2 + i * e2 + j * f2)) by lra. ring. }
    assert (EQX : s = x). { assert (2 * d * (s - x) = 0) by lra. apply Rmult_integral in H as [H|H]; lra. }
    rewrite EQX in *. assert (EQY : t = y). { assert (2 * j * (t - y) = 0) by lra. apply Rmult_integral in H as [H|H]; lra. }
    rewrite EQY in *. exists z. split; [lra|]. f_equal; [lra|]. f_equal; [lra|]. f_equal. lra.
  Qed.
  Variables (abs_val prec : R).
  Let temp4 := r1 * r1 - x * x - y * y.
  Lemma tri_unfold : trilaterate p1 p2 p3 r1 r2 r3 abs_val prec =
    if Rltb (abs_val + r1 - prec) (norm_row p1) then None
    else if Rltb (abs_val + r2 - prec) (norm_row p2) then None
    else if Rltb (abs_val + r3 - prec) (norm_row p3) then None
    else if Rltb (r1 + r2 - prec) (norm_row (rows_sub p1 p2)) then None
    else if Rltb (r1 + r3 - prec) (norm_row (rows_sub p1 p3)) then None
    else if Rltb (r2 + r3 - prec) (norm_row (rows_sub p2 p3)) then None
    else if Rltb temp4 0 then None
    else if Rltb (Rabs (norm_row (point (sqrt temp4)) - abs_val)) prec then Some (point (sqrt temp4))
    else if Rltb (Rabs (norm_row (point (- sqrt temp4)) - abs_val)) prec then Some (point (- sqrt temp4))
    else None.
  Proof. unfold point at 3 4. rewrite <- (rows_sub_scale base). reflexivity. Qed.
  Lemma tri_sound : forall q, 0 <= r1 -> 0 <= r2 -> 0 <= r3 -> trilaterate p1 p2 p3 r1 r2 r3 abs_val prec = Some q ->
    length q = 3%nat /\ edist q p1 = r1 /\ edist q p2 = r2 /\ edist q p3 = r3 /\ Rabs (vlen q - abs_val) < prec.
  Proof.
    intros q P1 P2 P3 E. rewrite tri_unfold in E.
    do 7 (apply none_guard in E as [?G E]). apply Rltb_false in G5. pose proof (sqrt_sqrt _ G5) as ZZ.
    destruct (sph_sound P1 P2 P3 _ ZZ) as (A1 & A2 & A3 & A4). destruct (sph_sound P1 P2 P3 _ (opp_sq _ _ ZZ)) as (B1 & B2 & B3 & B4).
    rewrite !norm_vlen in E. destruct (Rltb (Rabs (vlen (point (sqrt temp4)) - abs_val)) prec) eqn:C1.
    - injection E as <-. apply Rltb_true in C1. auto 10.
    - destruct (Rltb (Rabs (vlen (point (- sqrt temp4)) - abs_val)) prec) eqn:C2; [|discriminate]. injection E as <-. apply Rltb_true in C2. auto 10.
  Qed.
  Lemma tri_complete : 
    vlen p1 <= abs_val + r1 - prec -> vlen p2 <= abs_val + r2 - prec -> vlen p3 <= abs_val + r3 - prec ->
    edist p1 p2 <= r1 + r2 - prec -> edist p1 p3 <= r1 + r3 - prec -> edist p2 p3 <= r2 + r3 - prec ->
    (exists q, length q = 3%nat /\ edist q p1 = r1 /\ edist q p2 = r2 /\ edist q p3 = r3 /\ Rabs (vlen q - abs_val) < prec) ->
    trilaterate p1 p2 p3 r1 r2 r3 abs_val prec <> None.
  Proof.
    intros G1 G2 G3 G4 G5 G6 (q & Lq & Q1 & Q2 & Q3 & QA) E. rewrite tri_unfold in E.
    rewrite !(norm_diff p1), !(norm_diff p2 p3), !norm_vlen in E by auto.
    apply Rltb_false in G1, G2, G3, G4, G5, G6. rewrite G1, G2, G3, G4, G5, G6 in E.
    destruct (sph_complete q Lq Q1 Q2 Q3) as (z & Hz & EQ). fold temp4 in Hz.
    destruct (Rltb temp4 0) eqn:G7 in E. { apply Rltb_true in G7. pose proof (Rle_0_sqr z). unfold Rsqr in *. lra. } apply Rltb_false in G7.
    pose proof (sqrt_sqrt _ G7) as ZZ.
    destruct (Rltb (Rabs (vlen (point (sqrt temp4)) - abs_val)) prec) eqn:B1; [discriminate|].
    destruct (Rltb (Rabs (vlen (point (- sqrt temp4)) - abs_val)) prec) eqn:B2; [discriminate|].
    apply Rltb_false in B1, B2. rewrite EQ in QA. rewrite <- Hz in ZZ at 3. apply sq_eq in ZZ as [ZZ|ZZ].
    - rewrite ZZ in B1. lra.
    - rewrite ZZ, Ropp_involutive in B2. lra.
  Qed.
End Spheres.

Theorem C55_trilaterate_sound : forall p1 p2 p3 r1 r2 r3 abs_val prec q,
  length p1 = 3%nat -> length p2 = 3%nat -> length p3 = 3%nat -> p1 <> p2 -> ~ on_line p1 p2 p3 -> 0 <= r1 -> 0 <= r2 -> 0 <= r3 ->
  trilaterate p1 p2 p3 r1 r2 r3 abs_val prec = Some q ->
  length q = 3%nat /\ edist q p1 = r1 /\ edist q p2 = r2 /\ edist q p3 = r3 /\ Rabs (vlen q - abs_val) < prec.
Proof. intros. eapply tri_sound; eauto. Qed.

(** In dimension 3 a point is missed only if one of the first six tests rejects it: two spheres, or a sphere and the
    sphere around the origin, which touch from outside or nearly so. *)
Theorem C55_trilaterate_complete_partial : forall p1 p2 p3 r1 r2 r3 abs_val prec,
  length p1 = 3%nat -> length p2 = 3%nat -> length p3 = 3%nat -> p1 <> p2 -> ~ on_line p1 p2 p3 ->
  vlen p1 <= abs_val + r1 - prec -> vlen p2 <= abs_val + r2 - prec -> vlen p3 <= abs_val + r3 - prec ->
  edist p1 p2 <= r1 + r2 - prec -> edist p1 p3 <= r1 + r3 - prec -> edist p2 p3 <= r2 + r3 - prec ->
  (exists q, length q = 3%nat /\ edist q p1 = r1 /\ edist q p2 = r2 /\ edist q p3 = r3 /\ Rabs (vlen q - abs_val) < prec) ->
  trilaterate p1 p2 p3 r1 r2 r3 abs_val prec <> None.
Proof. intros. apply tri_complete; auto. Qed.

(** Such touching spheres do occur: the point half way to [p1]. *)
Theorem C55_trilaterate_touching_refuted : forall prec, 0 < prec -> exists p1 p2 p3 r1 r2 r3 abs_val q,
  length p1 = 3%nat /\ length p2 = 3%nat /\ length p3 = 3%nat /\ p1 <> p2 /\ ~ on_line p1 p2 p3 /\
  length q = 3%nat /\ edist q p1 = r1 /\ edist q p2 = r2 /\ edist q p3 = r3 /\ vlen q = abs_val /\
  trilaterate p1 p2 p3 r1 r2 r3 abs_val prec = None.
Proof.
  intros prec HP. exists [1; 0; 0], [0; 1; 0], [0; 0; 1], (1 / 2), (edist [1 / 2; 0; 0] [0; 1; 0]), (edist [1 / 2; 0; 0] [0; 0; 1]), (1 / 2), [1 / 2; 0; 0].
  do 3 (split; [reflexivity|]). split; [intros H; injection H as H _; lra|].
  split. { intros (t & H). pose proof (H 0%nat) as H0. pose proof (H 2%nat) as H2. cbn [nth] in *. lra. }
  split; [reflexivity|]. split; [rewrite edist3; apply sqrt_eq; lra|]. split; [reflexivity|]. split; [reflexivity|].
  split; [rewrite vlen3; apply sqrt_eq; lra|].
  unfold trilaterate. assert (N : norm_row [1; 0; 0] = 1) by (rewrite norm_vlen, vlen3; apply sqrt_eq; lra).
  rewrite N. assert (B : Rltb (1 / 2 + 1 / 2 - prec) 1 = true) by (apply Rltb_true; lra). rewrite B. auto.
Qed.
Lemma axes_line : ~ on_line [1; 0; 0] [0; 1; 0] [0; 0; 1].
Proof. intros (t & H). pose proof (H 2%nat) as H2. cbn [nth] in *. lra. Qed.
Example C55_case_3D : [1; 0; 0] <> [0; 1; 0] /\ ~ on_line [1; 0; 0] [0; 1; 0] [0; 0; 1] /\
  exists q, trilaterate [1; 0; 0] [0; 1; 0] [0; 0; 1] (sqrt 6) (sqrt 6) (sqrt 6) (sqrt 3) (1 / 10) = Some q.
Proof.
  assert (N : [1; 0; 0] <> [0; 1; 0]) by (intros H; injection H as H _; lra). split; auto. split; [apply axes_line|].
  destruct (trilaterate _ _ _ _ _ _ _ _) as [q|] eqn:E; [exists q; auto|]. exfalso. revert E.
  assert (S4 : sqrt 4 = 2) by (apply sqrt_eq; lra). assert (S6 : sqrt 4 < sqrt 6) by (apply sqrt_lt_1; lra).
  assert (S3 : sqrt 1 < sqrt 3) by (apply sqrt_lt_1; lra). rewrite sqrt_1 in S3.
  assert (S2 : sqrt 2 < sqrt 4) by (apply sqrt_lt_1; lra).
  assert (V : forall a b c, a * a + b * b + c * c = 1 -> vlen [a; b; c] <= sqrt 3 + sqrt 6 - 1 / 10) by (intros a b c H; rewrite vlen3, H, sqrt_1; lra).
  assert (D : forall a b c u v w, (a - u) * (a - u) + (b - v) * (b - v) + (c - w) * (c - w) = 2 -> edist [a; b; c] [u; v; w] <= sqrt 6 + sqrt 6 - 1 / 10) by (intros a b c u v w H; rewrite edist3, H; lra).
  apply C55_trilaterate_complete_partial; auto; try (apply V; lra); try (apply D; lra); [apply axes_line|].
  exists [-1; -1; -1]. split; auto. rewrite !edist3, vlen3. split; [f_equal; lra|]. split; [f_equal; lra|]. split; [f_equal; lra|].
  replace (-1 * -1 + -1 * -1 + -1 * -1) with 3 by lra. rewrite Rminus_diag_eq, Rabs_R0 by auto. lra.
Qed.

(** ** C56 *)
Lemma select_filter : forall (arr : list R) b s,
  select arr (map b (seq s (length arr))) = map (fun k => nth (k - s) arr 0) (filter b (seq s (length arr))).
Proof.
  induction arr as [|x arr IH]; intros b s; auto. cbn [length seq map select filter].
  assert (E : map (fun k => nth (k - s) (x :: arr) 0) (filter b (seq (S s) (length arr))) = map (fun k => nth (k - S s) arr 0) (filter b (seq (S s) (length arr)))).
  { apply map_ext_in. intros k Hk. apply filter_In in Hk as [Hk _]. apply in_seq in Hk. replace (k - s)%nat with (S (k - S s)) by lia. auto. }
  destruct (b s); cbn [map]; rewrite E, IH; auto. rewrite Nat.sub_diag. auto.
Qed.
Lemma sorted_seq : forall n s, StronglySorted lt (seq s n).
Proof.
  induction n as [|n IH]; intros s; cbn [seq]; constructor; auto. apply Forall_forall. intros k Hk. apply in_seq in Hk. lia.
Qed.
Lemma sorted_filter : forall b l, StronglySorted lt l -> StronglySorted lt (filter b l).
Proof.
  induction 1 as [|a l S IH F]; cbn [filter]; [constructor|]. destruct (b a); auto. constructor; auto.
  apply Forall_forall. intros k Hk. apply filter_In in Hk as [Hk _]. rewrite Forall_forall in F. auto.
Qed.
Lemma select_kept : forall (arr : list R) b P, (forall k, (k < length arr)%nat -> b k = true <-> P k) ->
  kept P arr (select arr (map b (seq 0 (length arr)))).
Proof.
  intros arr b P H. exists (filter b (seq 0 (length arr))). split; [apply sorted_filter, sorted_seq|]. split.
  - intros k. rewrite filter_In, in_seq. split; intros [H1 H2]; (split; [lia|]); apply H; auto; lia.
  - rewrite select_filter. apply map_ext. intros k. rewrite Nat.sub_0_r. auto.
Qed.
Lemma no_within : forall prec v1 v2 i l, existsb (fun j => within prec v1 v2 i j) l = false <-> forall j, In j l -> prec <= Rabs (nth i v1 0 - nth j v2 0).
Proof.
  intros prec v1 v2 i l. split.
  - intros H j Hj. destruct (Rle_lt_dec prec (Rabs (nth i v1 0 - nth j v2 0))) as [|Q]; auto.
    assert (E : existsb (fun j => within prec v1 v2 i j) l = true) by (apply existsb_exists; exists j; split; auto; apply Rltb_true; auto). congruence.
  - intros H. destruct (existsb _ l) eqn:E; auto. apply existsb_exists in E as (j & Hj & Q). apply Rltb_true in Q. specialize (H j Hj). lra.
Qed.

(** A value is kept unless an earlier one is closer than [prec]. *)
Theorem C56_unique : forall arr prec,
  kept (fun k => forall i, (i < k)%nat -> prec <= Rabs (nth i arr 0 - nth k arr 0)) arr (unique_within_tol arr prec).
Proof.
  intros arr prec. unfold unique_within_tol. cbv zeta. apply select_kept. intros k Hk. rewrite negb_true_iff. split.
  - intros H i Hi. destruct (Rle_lt_dec prec (Rabs (nth i arr 0 - nth k arr 0))) as [|Q]; auto.
    match type of H with ?e = false => assert (T : e = true) end; [|congruence].
    apply existsb_exists. exists i. split; [apply in_seq; lia|]. apply andb_true_iff. split; [apply Nat.ltb_lt; auto|apply Rltb_true; auto].
  - intros H. match goal with |- ?e = false => destruct e eqn:E end; auto. apply existsb_exists in E as (i & _ & Q).
    apply andb_true_iff in Q as [Q1 Q2]. apply Nat.ltb_lt in Q1. apply Rltb_true in Q2. specialize (H i Q1). lra.
Qed.
Theorem C56_unique_apart : forall arr prec i j, let res := unique_within_tol arr prec in
  (i < j < length res)%nat -> prec <= Rabs (nth i res 0 - nth j res 0).
Proof.
  intros arr prec i j res H. destruct (C56_unique arr prec) as (ps & S & K & E). fold res in E.
  assert (L : length ps = length res) by (rewrite E, map_length; auto).
  assert (N : forall k, (k < length ps)%nat -> nth k res 0 = nth (nth k ps 0%nat) arr 0).
  { intros k Hk. rewrite E. rewrite (nth_indep _ 0 ((fun k => nth k arr 0) 0%nat)) by (rewrite map_length; auto). rewrite (map_nth (fun k => nth k arr 0)). auto. }
  rewrite !N by lia. assert (In (nth j ps 0%nat) ps) by (apply nth_In; lia). apply K in H0 as [_ Q]. apply Q.
  clear - S H L. assert (Hj : (j < length ps)%nat) by lia. assert (Hi : (i < j)%nat) by lia. clear H L. revert i j Hi Hj.
  induction S as [|a l S IH F]; intros i j Hi Hj; [cbn in Hj; lia|]. destruct j as [|j]; [lia|]. cbn [nth]. destruct i as [|i].
  - rewrite Forall_forall in F. apply F, nth_In. cbn in Hj. lia.
  - apply IH; cbn in Hj; lia.
Qed.
(** Of values in order, the first of each cluster is kept: those with a gap before them. *)
Theorem C56_unique_sorted : forall arr prec, 0 < prec -> StronglySorted Rle arr ->
  kept (fun k => k = 0%nat \/ prec <= nth k arr 0 - nth (k - 1) arr 0) arr (unique_within_tol arr prec).
Proof.
  intros arr prec HP HS. destruct (C56_unique arr prec) as (ps & PS & K & E). exists ps. split; auto. split; auto.
  assert (O : forall l, StronglySorted Rle l -> forall i k, (i <= k < length l)%nat -> nth i l 0 <= nth k l 0).
  { clear. induction 1 as [|a l S IH F]; intros i k Hik; [cbn in Hik; lia|]. destruct i as [|i], k as [|k]; cbn [nth]; try lra; try lia.
    - rewrite Forall_forall in F. apply F, nth_In. cbn in Hik. lia.
    - apply IH. cbn in Hik. lia. }
  intros k. rewrite K. split; intros [Hk H]; (split; [auto|]).
  - destruct k as [|k]; auto. right. specialize (H k ltac:(lia)). replace (S k - 1)%nat with k by lia.
    pose proof (O arr HS k (S k) ltac:(lia)). unfold Rabs in H. destruct (Rcase_abs _); lra.
  - intros i Hi. destruct H as [->|H]; [lia|]. pose proof (O arr HS i (k - 1)%nat ltac:(lia)). unfold Rabs. destruct (Rcase_abs _); lra.
Qed.
(** Every value is not close to a kept one: removed values also remove others. *)
Theorem C56_unique_near_refuted : exists arr prec x, 0 < prec /\ In x arr /\ forall y, In y (unique_within_tol arr prec) -> prec <= Rabs (x - y).
Proof.
  exists [0; 3; 6], 5, 6. split; [lra|]. split; [cbn; auto|]. intros y Hy. destruct (C56_unique [0; 3; 6] 5) as (ps & _ & K & E). rewrite E in Hy.
  apply in_map_iff in Hy as (k & <- & Hk). apply K in Hk as [Hk Q]. destruct k as [|[|[|k]]]; [| | |cbn in Hk; lia]; cbn [nth] in *.
  - rewrite Rabs_right; lra.
  - specialize (Q 0%nat ltac:(lia)). cbn [nth] in Q. unfold Rabs in Q. destruct (Rcase_abs _); lra.
  - specialize (Q 1%nat ltac:(lia)). cbn [nth] in Q. unfold Rabs in Q. destruct (Rcase_abs _); lra.
Qed.

Theorem C56_remove : forall vec vals prec,
  kept (fun k => forall v, In v vals -> prec <= Rabs (nth k vec 0 - v)) vec (remove_vals vec vals prec).
Proof.
  intros vec vals prec. unfold remove_vals. apply select_kept. intros k Hk. rewrite negb_true_iff, no_within. split.
  - intros H v Hv. apply (In_nth _ _ 0) in Hv as (j & Hj & <-). apply H. apply in_seq. lia.
  - intros H j Hj. apply in_seq in Hj. apply H. apply nth_In. lia.
Qed.

(** A shared value is listed once for each match. *)
Theorem C56_shared : forall v1 v2 prec, shared_vals v1 v2 prec = List.concat (map (fun x => repeat x (matches prec x v2)) v1).
Proof.
  intros v1 v2 prec. unfold shared_vals. cbv zeta.
  assert (ROW : forall x l i s w, nth i v1 0 = x -> (forall j, (j < length l)%nat -> nth (s + j) w 0 = nth j l 0) ->
    map (fun ij => nth (fst ij) v1 0) (filter (fun ij => within prec v1 w (fst ij) (snd ij)) (map (fun j => (i, j)) (seq s (length l)))) = repeat x (matches prec x l)).
  { intros x. induction l as [|y l IH]; intros i s w Hx Hw; auto. cbn [length seq map filter fst snd matches].
    assert (W : within prec v1 w i s = if Rlt_dec (Rabs (x - y)) prec then true else false).
    { unfold within. rewrite Hx. specialize (Hw 0%nat ltac:(cbn; lia)). rewrite Nat.add_0_r in Hw. rewrite Hw. cbn [nth]. destruct (Rlt_dec _ _); [apply Rltb_true; auto|apply Rltb_false; lra]. }
    assert (IH' := IH i (S s) w Hx). rewrite W. destruct (Rlt_dec _ _); cbn [map fst repeat]; [f_equal; auto|]; apply IH'; intros j Hj; pose proof (Hw (S j) ltac:(cbn; lia)) as Q; cbn [nth] in Q; rewrite <- Q; f_equal; lia. }
  assert (G : forall a s, (forall i, (i < length a)%nat -> nth (s + i) v1 0 = nth i a 0) ->
    map (fun ij => nth (fst ij) v1 0) (filter (fun ij => within prec v1 v2 (fst ij) (snd ij)) (list_prod (seq s (length a)) (seq 0 (length v2)))) =
    List.concat (map (fun x => repeat x (matches prec x v2)) a)).
  { induction a as [|x a IH]; intros s Ha; auto. cbn [length seq list_prod map List.concat]. rewrite filter_app, map_app. f_equal.
    - apply ROW; auto. specialize (Ha 0%nat ltac:(cbn; lia)). rewrite Nat.add_0_r in Ha. auto.
    - apply IH. intros i Hi. pose proof (Ha (S i) ltac:(cbn; lia)) as Q. cbn [nth] in Q. rewrite <- Q. f_equal. lia. }
  apply G. auto.
Qed.
Lemma matches_pos : forall prec x l, (0 < matches prec x l)%nat <-> exists y, In y l /\ Rabs (x - y) < prec.
Proof.
  induction l as [|y l IH]; cbn [matches].
  - split; [lia|]. intros (? & [] & _).
  - destruct (Rlt_dec _ _) as [Q|Q].
    + split; [|lia]. intros _. exists y. split; [left|]; auto.
    + rewrite IH. split; intros (z & Hz & H); [exists z; split; [right|]; auto|]. destruct Hz as [->|Hz]; [lra|]. exists z. auto.
Qed.
Theorem C56_shared_values : forall v1 v2 prec x,
  In x (shared_vals v1 v2 prec) <-> In x v1 /\ exists y, In y v2 /\ Rabs (x - y) < prec.
Proof.
  intros v1 v2 prec x. rewrite C56_shared, in_concat. setoid_rewrite in_map_iff. rewrite <- matches_pos. split.
  - intros (l & (y & <- & Hy) & Hx). pose proof (repeat_spec _ _ _ Hx) as ->. split; auto. destruct (matches _ _ _); [destruct Hx|lia].
  - intros [H1 H2]. exists (repeat x (matches prec x v2)). split; [exists x; auto|]. destruct (matches _ _ _); [lia|]. cbn. auto.
Qed.
Example C56_case : matches 2 5 [4; 9; 6] = 2%nat /\ StronglySorted Rle [0; 3; 6].
Proof.
  split.
  - cbn [matches]. destruct (Rlt_dec _ _) as [_|H]; [|exfalso; apply H; unfold Rabs; destruct (Rcase_abs _); lra].
    destruct (Rlt_dec _ _) as [H|_]; [exfalso; unfold Rabs in H; destruct (Rcase_abs _); lra|].
    destruct (Rlt_dec _ _) as [_|H]; [auto|exfalso; apply H; unfold Rabs; destruct (Rcase_abs _); lra].
  - constructor; [constructor; [constructor; constructor|constructor; [lra|constructor]]|]. constructor; [lra|]. constructor; [lra|constructor].
Qed.
Print Assumptions C55_bilaterate_sound.
Print Assumptions C55_bilaterate_complete.
Print Assumptions C55_bilaterate_coincident.
Print Assumptions C55_trilaterate_sound.
Print Assumptions C55_trilaterate_complete_partial.
Print Assumptions C55_trilaterate_touching_refuted.
Print Assumptions C56_unique.
Print Assumptions C56_unique_apart.
Print Assumptions C56_unique_sorted.
Print Assumptions C56_unique_near_refuted.
Print Assumptions C56_remove.
Print Assumptions C56_shared.
Print Assumptions C56_shared_values.
