(** Primitives of powers of the cosine, the ratio of the volumes of unit balls, and sums over integers. *)
From Coq Require Import List ZArith Arith Bool Lia Reals Lra.
From Verif Require Import Base SpecGeom SpecDet.
Import ListNotations.
Open Scope R_scope.

(** ** The primitive of cos^n which is 0 at 0 *)
Fixpoint cospow (n : nat) (x : R) : R :=
  match n with
  | O => x
  | S k => match k with
           | O => sin x
           | S j => (sin x * cos x ^ k + INR k * cospow j x) / INR n
           end
  end.
Lemma cospow_SS : forall n x, cospow (S (S n)) x = (sin x * cos x ^ (S n) + INR (S n) * cospow n x) / INR (S (S n)).
Proof. reflexivity. Qed.
Lemma cospow_ind2 : forall P : nat -> Prop, P 0%nat -> P 1%nat -> (forall n, P n -> P (S (S n))) -> forall n, P n.
Proof. intros P H0 H1 HS n. assert (P n /\ P (S n)) as [H _]; auto. induction n as [|n [I1 I2]]; auto. Qed.

Lemma cos_pow_deriv : forall n x, derivable_pt_lim (fun y => cos y ^ n) x (- (INR n * cos x ^ (pred n) * sin x)).
Proof.
  intros n x. replace (- (INR n * cos x ^ (pred n) * sin x)) with (INR n * cos x ^ (pred n) * - sin x) by ring.
  apply (derivable_pt_lim_comp cos (fun y => y ^ n)); [apply derivable_pt_lim_cos|apply derivable_pt_lim_pow].
Qed.
Lemma cospow_deriv : forall n x, derivable_pt_lim (cospow n) x (cos x ^ n).
Proof.
  induction n as [| |n IH] using cospow_ind2; intros x.
  - cbn. apply derivable_pt_lim_id.
  - replace (cos x ^ 1) with (cos x) by ring. apply derivable_pt_lim_sin.
  - pose proof (derivable_pt_lim_mult sin (fun y => cos y ^ (S n)) x _ _ (derivable_pt_lim_sin x) (cos_pow_deriv (S n) x)) as D1.
    pose proof (derivable_pt_lim_scal (cospow n) (INR (S n)) x _ (IH x)) as D2.
    pose proof (derivable_pt_lim_plus _ _ x _ _ D1 D2) as D3.
    pose proof (derivable_pt_lim_scal _ (/ INR (S (S n))) x _ D3) as D4.
    assert (N0 : INR (S (S n)) <> 0) by (apply not_0_INR; lia).
    match type of D4 with derivable_pt_lim ?f x ?l => assert (E : l = cos x ^ (S (S n))) end.
    { cbn [pred]. pose proof (sin2_cos2 x) as SC. unfold Rsqr in SC. apply (Rmult_eq_reg_l (INR (S (S n)))); auto. rewrite <- Rmult_assoc, Rinv_r, Rmult_1_l by auto.
      rewrite (S_INR (S n)). set (N := INR (S n)). set (c := cos x) in *. set (s := sin x) in *. assert (E : s * s = 1 - c * c) by lra.
      transitivity (c * c ^ S n - N * c ^ n * (s * s) + N * c ^ n); [ring|]. rewrite E. cbn [pow]. ring. }
    match type of D4 with derivable_pt_lim ?f x ?l => assert (D5 : derivable_pt_lim f x (cos x ^ S (S n))) by (rewrite <- E; exact D4) end. clear D4. rename D5 into D4. intros eps Heps. destruct (D4 eps Heps) as (del & Hd). exists del. intros h Hh Hl. specialize (Hd h Hh Hl).
    rewrite !cospow_SS. unfold mult_real_fct, plus_fct, mult_fct in Hd.
    match type of Hd with Rabs (?a - _) < _ => match goal with |- Rabs (?b - _) < _ => replace b with a; [exact Hd|] end end. unfold Rdiv. ring.
Qed.

Lemma deriv_incr : forall f f' a b, a <= b -> (forall c, derivable_pt_lim f c (f' c)) -> (forall c, a < c < b -> 0 <= f' c) -> f a <= f b.
Proof.
  intros f f' a b Hab HD HP. destruct (Rle_lt_or_eq_dec a b Hab) as [H| ->]; [|lra].
  destruct (MVT_cor2 f f' a b H) as (c & E & Hc); [intros; apply HD|]. specialize (HP c Hc). nra.
Qed.

Lemma cos_decr : forall a b, 0 <= a -> a <= b -> b <= PI / 2 -> 0 <= cos b <= cos a.
Proof.
  intros a b Ha Hab Hb. pose proof PI_RGT_0. split; [apply cos_ge_0; lra|]. apply cos_decr_1; lra.
Qed.

(** [c * (sin b - sin a)] is less or greater than the growth of the primitive. *)
Lemma cospow_lower : forall m a b, 0 <= a -> a <= b -> b <= PI / 2 -> cos b ^ m * (sin b - sin a) <= cospow (S m) b - cospow (S m) a.
Proof.
  intros m a b Ha Hab Hb. set (k := cos b ^ m).
  assert (H : cospow (S m) a - k * sin a <= cospow (S m) b - k * sin b).
  { apply (deriv_incr (fun x => cospow (S m) x - k * sin x) (fun x => cos x ^ (S m) - k * cos x)); auto.
    - intros c. apply derivable_pt_lim_minus; [apply cospow_deriv|]. apply (derivable_pt_lim_scal sin k c (cos c)), derivable_pt_lim_sin.
    - intros c Hc. destruct (cos_decr c b ltac:(lra) ltac:(lra) Hb) as [C1 C2]. assert (k <= cos c ^ m) by (apply pow_incr; lra). cbn [pow]. nra. }
  lra.
Qed.
Lemma cospow_upper : forall m a b, 0 <= a -> a <= b -> b <= PI / 2 -> cospow (S m) b - cospow (S m) a <= cos a ^ m * (sin b - sin a).
Proof.
  intros m a b Ha Hab Hb. set (k := cos a ^ m).
  assert (H : k * sin a - cospow (S m) a <= k * sin b - cospow (S m) b).
  { apply (deriv_incr (fun x => k * sin x - cospow (S m) x) (fun x => k * cos x - cos x ^ (S m))); auto.
    - intros c. apply derivable_pt_lim_minus; [|apply cospow_deriv]. apply (derivable_pt_lim_scal sin k c (cos c)), derivable_pt_lim_sin.
    - intros c Hc. destruct (cos_decr a c ltac:(lra) ltac:(lra) ltac:(lra)) as [C1 C2]. assert (cos c ^ m <= k) by (apply pow_incr; lra). cbn [pow]. nra. }
  lra.
Qed.
Lemma cospow_0 : forall n, cospow n 0 = 0.
Proof.
  induction n as [| |n IH] using cospow_ind2; [reflexivity|apply sin_0|]. rewrite cospow_SS, IH, sin_0. unfold Rdiv. ring.
Qed.

(** ** Volumes of unit balls *)
Definition half (n : nat) : R := cospow n (PI / 2).
Lemma half_SS : forall n, half (S (S n)) = INR (S n) / INR (S (S n)) * half n.
Proof. intros n. unfold half. rewrite cospow_SS, cos_PI2. cbn [pow]. unfold Rdiv. ring. Qed.
Lemma ball_SS : forall n, ball (S (S n)) = 2 * PI / INR (S (S n)) * ball n.
Proof. reflexivity. Qed.
Theorem ball_ratio : forall n, ball (S n) = 2 * half (S n) * ball n.
Proof.
  assert (N0 : forall n, INR (S n) <> 0) by (intros; apply not_0_INR; lia).
  induction n as [| |n IH] using cospow_ind2.
  - cbn. rewrite sin_PI2. ring.
  - rewrite ball_SS. unfold half. rewrite cospow_SS, cos_PI2. cbn. field.
  - rewrite !ball_SS, half_SS. rewrite IH. field. split; apply N0.
Qed.

(** ** Sums over integers *)
Lemma Rabs_def2' : forall x a, Rabs x <= a -> - a <= x <= a.
Proof. intros x a H. pose proof (Rle_abs x). pose proof (Rle_abs (- x)). rewrite Rabs_Ropp in H1. lra. Qed.
Lemma asin_mono : forall x y, -1 <= x -> x <= y -> y <= 1 -> asin x <= asin y.
Proof.
  intros x y Hx Hxy Hy. destruct (Rle_or_lt (asin x) (asin y)) as [H|H]; auto. exfalso.
  pose proof (asin_bound x). pose proof (asin_bound y). assert (sin (asin y) < sin (asin x)) by (apply sin_increasing_1; lra). rewrite !sin_asin in H2 by lra. lra.
Qed.

Section Line.
  Variables (r h : R) (m : nat).
  Hypothesis Hr : 0 <= r.
  Hypothesis Hh : 0 < h.
  Definition slice (t : R) : R := sqrt (r * r - h * t * (h * t)) ^ m.
  Let g (t : R) : R := if Rle_dec (h * t) r then slice t else 0.
  Let ratio (t : R) : R := Rmin 1 (h * t / r).
  Let prim (t : R) : R := r ^ (S m) / h * cospow (S m) (asin (ratio t)).
  Let J : R := r ^ (S m) / h * half (S m).

  Lemma coef_nonneg : 0 <= r ^ m.
  Proof. apply pow_le. auto. Qed.
  Lemma ratio_range : forall t, 0 < r -> 0 <= t -> 0 <= ratio t <= 1.
  Proof.
    intros t Hr0 Ht. unfold ratio. split; [|apply Rmin_l]. apply Rmin_glb; [lra|]. apply Rmult_le_pos; [nra|left; apply Rinv_0_lt_compat; auto].
  Qed.
  Lemma ratio_in : forall t, 0 < r -> h * t <= r -> ratio t = h * t / r.
  Proof.
    intros t Hr0 Ht. apply Rmin_right. apply (Rmult_le_reg_r r); auto. unfold Rdiv. rewrite Rmult_assoc, Rinv_l by lra. lra.
  Qed.
  Lemma ratio_out : forall t, 0 < r -> r <= h * t -> ratio t = 1.
  Proof.
    intros t Hr0 Ht. apply Rmin_left. apply (Rmult_le_reg_r r); auto. unfold Rdiv. rewrite Rmult_assoc, Rinv_l by lra. lra.
  Qed.
  Lemma slice_cos : forall t, 0 < r -> 0 <= t -> h * t <= r -> slice t = r ^ m * cos (asin (ratio t)) ^ m.
  Proof.
    intros t Hr0 H0 Ht. pose proof (ratio_range t Hr0 H0). rewrite cos_asin by lra. rewrite <- Rpow_mult_distr. unfold slice. f_equal. rewrite ratio_in by auto.
    assert (HT : 0 <= h * t / r <= 1) by (rewrite <- ratio_in by auto; auto). set (X := 1 - (h * t / r)²). replace (r * sqrt X) with (sqrt (r * r) * sqrt X) by (rewrite sqrt_square by auto; auto). unfold X. rewrite <- sqrt_mult.
    - f_equal. unfold Rsqr. field. lra.
    - nra.
    - unfold Rsqr. nra.
  Qed.
  Lemma sin_ratio : forall t, 0 < r -> 0 <= t -> h * t <= r -> sin (asin (ratio t)) * r = h * t.
  Proof. intros t Hr0 H0 Ht. pose proof (ratio_range t Hr0 H0). rewrite sin_asin by lra. rewrite ratio_in by auto. field. lra. Qed.
  Lemma asin_ratio : forall t, 0 < r -> 0 <= t -> 0 <= asin (ratio t) <= PI / 2.
  Proof. intros t Hr0 H0. pose proof (ratio_range t Hr0 H0). split; [rewrite <- asin_0; apply asin_mono; lra|apply asin_bound]. Qed.

  Lemma prim_zero : r = 0 -> forall t, prim t = 0.
  Proof. intros E t. unfold prim. rewrite E. cbn [pow]. unfold Rdiv. ring. Qed.
  Lemma in_range : forall x y, 0 < r -> 0 <= x -> x <= y -> h * y <= r ->
    slice y * (y - x) <= prim y - prim x <= slice x * (y - x).
  Proof.
    intros x y Hr0 H0 Hxy Hy. assert (Hx : h * x <= r) by nra. assert (0 <= y) by lra.
    pose proof (asin_ratio x Hr0 H0) as RX. pose proof (asin_ratio y Hr0 H) as RY.
    assert (MO : asin (ratio x) <= asin (ratio y)).
    { pose proof (ratio_range x Hr0 H0). pose proof (ratio_range y Hr0 H). apply asin_mono; try lra. rewrite !ratio_in by auto. unfold Rdiv. apply Rmult_le_compat_r; [left; apply Rinv_0_lt_compat; auto|nra]. }
    pose proof (cospow_lower m (asin (ratio x)) (asin (ratio y)) ltac:(lra) MO ltac:(lra)) as LO.
    pose proof (cospow_upper m (asin (ratio x)) (asin (ratio y)) ltac:(lra) MO ltac:(lra)) as UP.
    pose proof (sin_ratio x Hr0 H0 Hx) as SX. pose proof (sin_ratio y Hr0 H Hy) as SY.
    rewrite (slice_cos x), (slice_cos y) by auto. unfold prim.
    set (a := asin (ratio x)) in *. set (b := asin (ratio y)) in *.
    assert (D : y - x = r / h * (sin b - sin a)). { apply (Rmult_eq_reg_l h); [|lra]. transitivity (r * (sin b - sin a)); [lra|field; lra]. }
    assert (K0 : 0 <= r ^ S m / h). { apply Rmult_le_pos; [apply pow_le; auto|left; apply Rinv_0_lt_compat; auto]. }
    rewrite D. cbn [pow] in *. split.
    - apply Rle_trans with (r * r ^ m / h * (cos b ^ m * (sin b - sin a))); [apply Req_le; field; lra|]. apply Rle_trans with (r * r ^ m / h * (cospow (S m) b - cospow (S m) a)); [apply Rmult_le_compat_l; auto|apply Req_le; ring].
    - apply Rle_trans with (r * r ^ m / h * (cos a ^ m * (sin b - sin a))); [|apply Req_le; field; lra]. apply Rle_trans with (r * r ^ m / h * (cospow (S m) b - cospow (S m) a)); [apply Req_le; ring|apply Rmult_le_compat_l; auto].
  Qed.
  Lemma slice_nonneg : forall t, 0 <= slice t.
  Proof. intros t. apply pow_le, sqrt_pos. Qed.
  Lemma slice_max : forall t, slice t <= r ^ m.
  Proof. intros t. apply pow_incr. split; [apply sqrt_pos|]. apply Rle_trans with (sqrt (r * r)); [apply sqrt_le_1_alt; nra|rewrite sqrt_square by auto; lra]. Qed.
  Lemma prim_out : forall t, r <= h * t -> prim t = J.
  Proof.
    intros t Ht. destruct (Req_dec r 0) as [E|E]; [rewrite prim_zero by auto; unfold J; rewrite E; cbn [pow]; unfold Rdiv; ring|].
    unfold prim, J, half. rewrite ratio_out by lra. rewrite asin_1. auto.
  Qed.
  Lemma edge : 0 < r -> prim (r / h) = J /\ h * (r / h) = r /\ 0 <= r / h.
  Proof.
    intros Hr0. assert (E : h * (r / h) = r) by (field; lra). split; [apply prim_out; lra|]. split; auto. left. apply Rdiv_lt_0_compat; auto.
  Qed.
  Lemma g_range : forall x y, 0 <= x -> x <= y -> g y * (y - x) <= prim y - prim x <= g x * (y - x).
  Proof.
    intros x y H0 Hxy. destruct (Req_dec r 0) as [E|E].
    { rewrite !prim_zero by auto. unfold g. destruct (Rle_dec (h * y) r) as [H1|H1], (Rle_dec (h * x) r) as [H2|H2]; pose proof (slice_nonneg x); try (assert (y = 0) by nra; assert (x = 0) by nra; subst; lra); try nra. }
    assert (Hr0 : 0 < r) by lra. destruct (edge Hr0) as (E1 & E2 & E3).
    unfold g. destruct (Rle_dec (h * y) r) as [H1|H1].
    - destruct (Rle_dec (h * x) r) as [H2|H2]; [apply in_range; auto|nra].
    - destruct (Rle_dec (h * x) r) as [H2|H2].
      + rewrite (prim_out y) by lra. rewrite <- E1. assert (x <= r / h) by nra. pose proof (in_range x (r / h) Hr0 H0 H ltac:(lra)) as [I1 I2]. pose proof (slice_nonneg x). pose proof (slice_nonneg (r / h)). assert (r / h <= y) by nra.
        split; [|apply Rle_trans with (slice x * (r / h - x)); [auto|apply Rmult_le_compat_l; lra]]. assert (0 <= slice (r / h) * (r / h - x)) by (apply Rmult_le_pos; lra). lra.
      + rewrite !prim_out by lra. lra.
  Qed.
  Lemma g_bounds : forall t, 0 <= g t <= r ^ m.
  Proof. intros t. unfold g. pose proof coef_nonneg. destruct (Rle_dec (h * t) r); [split; [apply slice_nonneg|apply slice_max]|lra]. Qed.
  Lemma prim_at0 : prim 0 = 0.
  Proof.
    unfold prim, ratio. replace (h * 0 / r) with 0 by (unfold Rdiv; ring). rewrite Rmin_right by lra. rewrite asin_0, cospow_0. ring.
  Qed.

  Lemma sum_lower : forall N a, 0 <= a -> prim (a + INR N) - prim a <= rsum (map (fun j => g (a + INR j)) (seq 0 N)).
  Proof.
    induction N as [|N IH]; intros a Ha; [cbn; rewrite Rplus_0_r; lra|].
    cbn [seq map]. rewrite <- seq_shift, map_map. unfold rsum. cbn [fold_right]. fold (rsum (map (fun j => g (a + INR (S j))) (seq 0 N))).
    replace (map (fun j => g (a + INR (S j))) (seq 0 N)) with (map (fun j => g (a + 1 + INR j)) (seq 0 N)) by (apply map_ext; intros j; rewrite S_INR; f_equal; ring).
    specialize (IH (a + 1) ltac:(lra)). replace (a + INR (S N)) with (a + 1 + INR N) by (rewrite S_INR; ring). cbn [INR]. rewrite Rplus_0_r.
    pose proof (proj2 (g_range a (a + 1) Ha ltac:(lra))). lra.
  Qed.
  Lemma sum_upper : forall N a, 0 <= a -> rsum (map (fun j => g (a + INR j)) (seq 0 (S N))) <= g a + (prim (a + INR N) - prim a).
  Proof.
    induction N as [|N IH]; intros a Ha; [cbn; rewrite !Rplus_0_r; lra|].
    cbn [seq map]. rewrite <- !seq_shift, !map_map. unfold rsum. cbn [fold_right map]. 
    replace (map (fun j => g (a + INR (S (S j)))) (seq 0 N)) with (map (fun j => g (a + 1 + INR (S j))) (seq 0 N)) by (apply map_ext; intros j; f_equal; rewrite (S_INR (S j)); ring).
    specialize (IH (a + 1) ltac:(lra)). cbn [seq map] in IH. rewrite <- seq_shift, map_map in IH. unfold rsum in IH. cbn [fold_right] in IH.
    replace (a + INR (S N)) with (a + 1 + INR N) by (rewrite S_INR; ring). cbn [INR] in *. rewrite Rplus_0_r in *.
    pose proof (proj1 (g_range a (a + 1) Ha ltac:(lra))). lra.
  Qed.
  Lemma side_sum : forall N a, 0 <= a <= 1 -> r <= h * INR N -> Rabs (rsum (map (fun j => g (a + INR j)) (seq 0 (S N))) - J) <= r ^ m.
  Proof.
    intros N a Ha HN. pose proof (sum_lower (S N) a ltac:(lra)) as LO. pose proof (sum_upper N a ltac:(lra)) as UP.
    assert (0 <= h * a) by (apply Rmult_le_pos; lra).
    rewrite (prim_out (a + INR (S N))) in LO by (rewrite S_INR, !Rmult_plus_distr_l; lra). rewrite (prim_out (a + INR N)) in UP by (rewrite Rmult_plus_distr_l; lra).
    pose proof (g_range 0 a ltac:(lra) ltac:(lra)) as GA. rewrite prim_at0, !Rminus_0_r in GA. pose proof (g_bounds a) as Ga. pose proof (g_bounds 0) as G0.
    assert (g 0 * a <= r ^ m) by nra. assert (0 <= g a * a) by nra. apply Rabs_le. lra.
  Qed.
End Line.

Lemma rsum_app : forall a b, rsum (a ++ b) = rsum a + rsum b.
Proof. unfold rsum. induction a as [|x a IH]; intros b; cbn [app fold_right]; [ring|]. rewrite IH. ring. Qed.
Lemma rsum_filter : forall A (c : A -> bool) (f : A -> R) l, rsum (map f (filter c l)) = rsum (map (fun a => if c a then f a else 0) l).
Proof. intros A c f. induction l as [|a l IH]; auto. cbn. destruct (c a); unfold rsum in *; cbn; rewrite IH; ring. Qed.

Lemma nat_above : forall x, exists n : nat, x < INR n.
Proof.
  intros x. exists (Z.to_nat (up x)). destruct (archimed x) as [H _]. destruct (Z_le_gt_dec 0 (up x)) as [L|L].
  - rewrite INR_IZR_INZ, Z2Nat.id by lia. lra.
  - pose proof (pos_INR (Z.to_nat (up x))). assert (IZR (up x) <= -1) by (apply IZR_le; lia). lra.
Qed.

(** The integers [l] with |h (l - s)| at most [r], and the sums over them of the powers of the remaining distance. *)
Theorem line_sum : forall r h s, 0 <= r -> 0 < h -> exists ls : list Z, NoDup ls /\
  (forall l, In l ls <-> h * (IZR l - s) * (h * (IZR l - s)) <= r * r) /\
  forall m, Rabs (rsum (map (fun l => sqrt (r * r - h * (IZR l - s) * (h * (IZR l - s))) ^ m) ls) - 2 * (r ^ (S m) / h * half (S m))) <= 2 * r ^ m.
Proof.
  intros r h s Hr Hh. set (l0 := up s). destruct (archimed s) as [A1 A2]. fold l0 in A1, A2. set (a := IZR l0 - s).
  destruct (nat_above (r / h)) as (N & HN). assert (HN' : r <= h * INR N). { apply (Rmult_le_reg_r (/ h)); [apply Rinv_0_lt_compat; auto|]. replace (h * INR N * / h) with (INR N) by (field; lra). unfold Rdiv in HN. lra. }
  set (inside := fun l => if Rle_dec (h * (IZR l - s) * (h * (IZR l - s))) (r * r) then true else false).
  set (right := map (fun j => (l0 + Z.of_nat j)%Z) (seq 0 (S N))). set (left := map (fun j => (l0 - 1 - Z.of_nat j)%Z) (seq 0 (S N))).
  assert (IN : forall l, inside l = true <-> h * (IZR l - s) * (h * (IZR l - s)) <= r * r) by (intros l; unfold inside; destruct (Rle_dec _ _); split; auto; discriminate).
  assert (G : forall (t : R) l m, 0 <= t -> (IZR l - s = t \/ IZR l - s = - t) ->
    (if inside l then sqrt (r * r - h * (IZR l - s) * (h * (IZR l - s))) ^ m else 0) = (if Rle_dec (h * t) r then slice r h m t else 0)).
  { intros t l m Ht El. assert (E : h * (IZR l - s) * (h * (IZR l - s)) = h * t * (h * t)) by (destruct El as [El|El]; rewrite El; ring).
    unfold inside, slice. rewrite !E. destruct (Rle_dec (h * t * (h * t)) (r * r)) as [H1|H1], (Rle_dec (h * t) r) as [H2|H2]; auto; exfalso; [apply H2; nra|apply H1; assert (0 <= h * t) by nra; nra]. }
  assert (ER : forall j, IZR (l0 + Z.of_nat j) - s = a + INR j) by (intros j; rewrite plus_IZR, <- INR_IZR_INZ; unfold a; ring).
  assert (EL : forall j, IZR (l0 - 1 - Z.of_nat j) - s = - (1 - a + INR j)) by (intros j; rewrite !minus_IZR, <- INR_IZR_INZ; unfold a; ring).
  assert (Ha : 0 <= a <= 1) by (unfold a; lra).
  exists (filter inside (right ++ left)). split; [|split].
  - apply NoDup_filter. apply NoDup_app_iff. split; [|split].
    + apply FinFun.Injective_map_NoDup; [intros x y; lia|apply seq_NoDup].
    + apply FinFun.Injective_map_NoDup; [intros x y; lia|apply seq_NoDup].
    + intros x H1 H2. apply in_map_iff in H1, H2. destruct H1 as (x1 & H1 & _), H2 as (x2 & H2 & _). lia.
  - intros l. rewrite filter_In, IN. split; [tauto|]. intros H. split; auto. apply in_or_app.
    assert (B : Rabs (h * (IZR l - s)) <= r). { apply Rsqr_le_abs_0 in H. rewrite (Rabs_right r) in H by lra. auto. }
    assert (B' : Rabs (IZR l - s) <= INR N). { rewrite Rabs_mult, (Rabs_right h) in B by lra. nra. }
    destruct (Z_le_gt_dec l0 l) as [L|L].
    + left. apply in_map_iff. exists (Z.to_nat (l - l0)). rewrite in_seq. split; [lia|]. split; [lia|]. cbn. apply Nat.lt_succ_r. apply INR_le. rewrite INR_IZR_INZ, Z2Nat.id by lia. rewrite minus_IZR.
      apply Rabs_def2' in B'. unfold a in Ha. lra.
    + right. apply in_map_iff. exists (Z.to_nat (l0 - 1 - l)). rewrite in_seq. split; [lia|]. split; [lia|]. cbn. apply Nat.lt_succ_r. apply INR_le. rewrite INR_IZR_INZ, Z2Nat.id by lia. rewrite !minus_IZR.
      apply Rabs_def2' in B'. unfold a in Ha. lra.
  - intros m. rewrite rsum_filter, map_app, rsum_app. unfold right, left. rewrite !map_map.
    erewrite (map_ext _ (fun j => if Rle_dec (h * (a + INR j)) r then slice r h m (a + INR j) else 0)); cycle 1.
    { intros j. apply G; [pose proof (pos_INR j); lra|left; apply ER]. }
    erewrite (map_ext (fun x => if inside (l0 - 1 - Z.of_nat x)%Z then _ else 0) (fun j => if Rle_dec (h * (1 - a + INR j)) r then slice r h m (1 - a + INR j) else 0)); cycle 1.
    { intros j. apply G; [pose proof (pos_INR j); lra|right; apply EL]. }
    pose proof (side_sum r h m Hr Hh N a Ha HN') as S1. pose proof (side_sum r h m Hr Hh N (1 - a) ltac:(lra) HN') as S2.
    apply Rabs_def2' in S1, S2. apply Rabs_le. lra.
Qed.
