(** binary64 without overflow: the arithmetic of numpy's float64, rounding to nearest with
    ties to even, as functions on real numbers. *)
From Coq Require Import List ZArith Lia Reals Lra Psatz Permutation.
From Verif Require Import Base NNModel CalcProofs RoundModel SpecRound RoundSum RoundProofs.
Import ListNotations.
Open Scope R_scope.

(** The nearest integer; of two at the same distance, the even one. *)
Definition nearest_even (t : R) : Z :=
  let f := Int_part t in
  if Rlt_dec (t - IZR f) (1 / 2) then f
  else if Rlt_dec (1 / 2) (t - IZR f) then (f + 1)%Z
  else if Z.even f then f else (f + 1)%Z.

(** The exponent of the leading binary digit of x. *)
Definition lead (x : R) : Z := Int_part (ln (Rabs x) / ln 2).

(** Rounding to a multiple of 2^e, and to 53 significant digits. *)
Definition round_at (e : Z) (x : R) : R := IZR (nearest_even (x / powerRZ 2 e)) * powerRZ 2 e.
Definition round53 (x : R) : R := if Req_EM_T x 0 then 0 else round_at (lead x - 52) x.
(** The same, with the smallest subnormal number 2^-1074. *)
Definition round64 (x : R) : R := if Req_EM_T x 0 then 0 else round_at (Z.max (lead x - 52) (-1074)) x.

Definition u64 : R := powerRZ 2 (-53).
Definition eta64 : R := powerRZ 2 (-1075).

(** The operations on numbers of the format. Sums, differences, roots and integers of the
    format do not underflow.  Sums and scalar products may be evaluated in any order, also with
    fused multiplications and additions.  Compiled with fastmath, a division may become a
    multiplication by a rounded reciprocal. *)
Record binary64 (u : R) (ar : arith) : Prop := {
  b_add : forall x y, r_add ar x y = round53 (x + y);
  b_sub : forall x y, r_sub ar x y = round53 (x - y);
  b_mul : forall x y, r_mul ar x y = round64 (x * y);
  b_sqrt : forall x, r_sqrt ar x = round53 (sqrt x);
  b_ofZ : forall z, r_ofZ ar z = round53 (IZR z);
  b_sum : any_order_sum u64 (r_sum ar);
  b_dot : any_order_dot u64 eta64 (r_dot ar);
  b_div : (u = u64 /\ forall x y, r_div ar x y = round64 (x / y)) \/
          (u = 4 * u64 /\ forall x y, r_div ar x y = round64 (x / y) \/ r_div ar x y = round64 (x * round64 (1 / y)))
}.

(** One of them: sums and scalar products from left to right, and true divisions. *)
Definition seq_sum (l : list R) : R := fold_left (fun s x => round53 (s + x)) l 0.
Definition seq_dot (xs ys : list R) : R := seq_sum (map2 (fun x y => round64 (x * y)) xs ys).
Definition b64 : arith := {|
  r_add x y := round53 (x + y);
  r_sub x y := round53 (x - y);
  r_mul x y := round64 (x * y);
  r_div x y := round64 (x / y);
  r_sqrt x := round53 (sqrt x);
  r_ofZ z := round53 (IZR z);
  r_sum := seq_sum;
  r_dot := seq_dot
|}.

(** Another one: sums by halves, fused scalar products, and reciprocals. *)
Fixpoint half_sum (fuel : nat) (l : list R) : R :=
  match fuel, l with
  | _, [] => 0
  | O, x :: t => fold_left (fun s y => round53 (s + y)) t x
  | S f, [x] => x
  | S f, _ => round53 (half_sum f (firstn (Nat.div2 (length l)) l) + half_sum f (skipn (Nat.div2 (length l)) l))
  end.
Definition fused_dot (xs ys : list R) : R := fold_left (fun s p => round64 (fst p * snd p + s)) (combine xs ys) 0.
Definition fast64 : arith := {|
  r_add x y := round53 (x + y);
  r_sub x y := round53 (x - y);
  r_mul x y := round64 (x * y);
  r_div x y := round64 (x * round64 (1 / y));
  r_sqrt x := round53 (sqrt x);
  r_ofZ z := round53 (IZR z);
  r_sum l := half_sum (length l) l;
  r_dot := fused_dot
|}.

Lemma two_pos : forall e, 0 < powerRZ 2 e.
Proof. intros. apply powerRZ_lt. lra. Qed.
Lemma two_add : forall a b, powerRZ 2 (a + b) = powerRZ 2 a * powerRZ 2 b.
Proof. intros. apply powerRZ_add. lra. Qed.
Lemma two_le : forall a b, (a <= b)%Z -> powerRZ 2 a <= powerRZ 2 b.
Proof.
  intros a b H. replace b with (a + (b - a))%Z by ring. rewrite two_add. rewrite <- (Rmult_1_r (powerRZ 2 a)) at 1. apply Rmult_le_compat_l; [left; apply two_pos|].
  replace (b - a)%Z with (Z.of_nat (Z.to_nat (b - a))) by lia. rewrite <- pow_powerRZ. apply pow_R1_Rle. lra.
Qed.
Lemma two_nat : forall n, (0 <= n)%Z -> powerRZ 2 n = IZR (2 ^ n).
Proof. intros n H. replace n with (Z.of_nat (Z.to_nat n)) at 1 by lia. rewrite <- pow_powerRZ. rewrite pow_IZR. f_equal. f_equal. lia. Qed.
Lemma two_lt_inv : forall a b, powerRZ 2 a < powerRZ 2 b -> (a < b)%Z.
Proof. intros a b H. destruct (Z_lt_le_dec a b) as [L|L]; auto. apply two_le in L. lra. Qed.

Lemma nearest_even_err : forall t, Rabs (IZR (nearest_even t) - t) <= 1 / 2.
Proof.
  intros t. unfold nearest_even. destruct (base_Int_part t) as [A C]. destruct (Rlt_dec _ _) as [H|H]; [apply Rabs_le; lra|].
  destruct (Rlt_dec _ _) as [H2|H2]; [rewrite plus_IZR; apply Rabs_le; lra|]. destruct (Z.even _); [|rewrite plus_IZR]; apply Rabs_le; lra.
Qed.

Lemma nearest_even_IZR : forall z, nearest_even (IZR z) = z.
Proof.
  intros z. unfold nearest_even. assert (E : Int_part (IZR z) = z). { destruct (base_Int_part (IZR z)) as [A C]. apply le_IZR in A. assert (IZR z < IZR (Int_part (IZR z) + 1)) by (rewrite plus_IZR; lra). apply lt_IZR in H. lia. }
  rewrite E. destruct (Rlt_dec _ _); auto. lra.
Qed.

Lemma nearest_even_pos : forall t, 0 <= t -> (0 <= nearest_even t)%Z.
Proof.
  intros t H. assert (0 <= Int_part t)%Z. { destruct (base_Int_part t) as [A C]. assert (IZR (-1) < IZR (Int_part t)) by (simpl; lra). apply lt_IZR in H0. lia. }
  unfold nearest_even. repeat destruct (Rlt_dec _ _); try destruct (Z.even _); lia.
Qed.

Lemma lead_spec : forall x, x <> 0 -> powerRZ 2 (lead x) <= Rabs x < powerRZ 2 (lead x + 1).
Proof.
  intros x H. pose proof (Rabs_pos_lt x H) as P. assert (L2 : 0 < ln 2) by (rewrite <- ln_1; apply ln_increasing; lra).
  unfold lead. set (t := ln (Rabs x) / ln 2). destruct (base_Int_part t) as [A C]. set (f := Int_part t) in *.
  assert (E : Rabs x = Rpower 2 t). { unfold Rpower, t. replace (ln (Rabs x) / ln 2 * ln 2) with (ln (Rabs x)) by (field; lra). rewrite exp_ln; auto. }
  rewrite E, !powerRZ_Rpower by lra. split; [apply Rle_Rpower; lra|]. apply Rpower_lt; [lra|]. rewrite plus_IZR. lra.
Qed.

Lemma round_at_err : forall e x, Rabs (round_at e x - x) <= powerRZ 2 (e - 1).
Proof.
  intros e x. unfold round_at. pose proof (two_pos e) as P. replace (IZR (nearest_even (x / powerRZ 2 e)) * powerRZ 2 e - x) with ((IZR (nearest_even (x / powerRZ 2 e)) - x / powerRZ 2 e) * powerRZ 2 e) by (field; lra).
  rewrite Rabs_mult, (Rabs_right (powerRZ 2 e)) by lra. replace (e - 1)%Z with (-1 + e)%Z by ring. rewrite two_add. apply Rmult_le_compat_r; [lra|]. eapply Rle_trans; [apply nearest_even_err|]. simpl. lra.
Qed.

Lemma half_unit : forall x, x <> 0 -> powerRZ 2 (lead x - 52 - 1) <= u64 * Rabs x.
Proof.
  intros x H. destruct (lead_spec x H) as [A _]. replace (lead x - 52 - 1)%Z with (-53 + lead x)%Z by ring. rewrite two_add. unfold u64. apply Rmult_le_compat_l; auto. left. apply two_pos.
Qed.

Lemma round53_err : forall x, Rabs (round53 x - x) <= u64 * Rabs x.
Proof.
  intros x. unfold round53. destruct (Req_EM_T x 0) as [->|H]; [rewrite Rminus_0_r, Rabs_R0; lra|]. eapply Rle_trans; [apply round_at_err|]. apply half_unit; auto.
Qed.
Lemma round64_err : forall x, Rabs (round64 x - x) <= u64 * Rabs x + eta64.
Proof.
  intros x. pose proof (two_pos (-1075)) as E0. pose proof (two_pos (-53)) as U0. unfold round64. destruct (Req_EM_T x 0) as [->|H]; [rewrite Rminus_0_r, Rabs_R0; unfold eta64; lra|].
  eapply Rle_trans; [apply round_at_err|]. pose proof (half_unit x H). pose proof (Rabs_pos x). assert (0 <= u64 * Rabs x) by (apply Rmult_le_pos; auto; unfold u64; lra). destruct (Z.max_spec (lead x - 52) (-1074)) as [[_ ->]|[_ ->]].
  - change (-1074 - 1)%Z with (-1075)%Z. fold eta64. lra.
  - unfold eta64. lra.
Qed.

(** Rounding keeps the order. *)
Lemma nearest_even_mono : forall t s, t <= s -> (nearest_even t <= nearest_even s)%Z.
Proof.
  intros t s H. destruct (base_Int_part t) as [A B], (base_Int_part s) as [C D]. unfold nearest_even.
  assert (L : (Int_part t <= Int_part s)%Z). { assert (X : IZR (Int_part t) < IZR (Int_part s + 1)) by (rewrite plus_IZR; lra). apply lt_IZR in X. lia. }
  destruct (Z.eq_dec (Int_part t) (Int_part s)) as [E|E].
  - rewrite E in *. repeat destruct (Rlt_dec _ _); try destruct (Z.even _); try lia; exfalso; lra.
  - repeat destruct (Rlt_dec _ _); try destruct (Z.even (Int_part t)); try destruct (Z.even (Int_part s)); lia.
Qed.
Lemma div_two_mono : forall e x y, x <= y -> x / powerRZ 2 e <= y / powerRZ 2 e.
Proof. intros e x y H. apply Rmult_le_compat_r; auto. left. apply Rinv_0_lt_compat, two_pos. Qed.
Lemma round_at_mono : forall e x y, x <= y -> round_at e x <= round_at e y.
Proof.
  intros e x y H. unfold round_at. apply Rmult_le_compat_r; [left; apply two_pos|]. apply IZR_le, nearest_even_mono, div_two_mono; auto.
Qed.
Lemma u64_pos : 0 < u64.
Proof. apply two_pos. Qed.
Lemma round64_normal : forall x, x <> 0 -> (-1022 <= lead x)%Z -> round64 x = round53 x.
Proof. intros x H L. unfold round64, round53. destruct (Req_EM_T x 0); [congruence|]. rewrite Z.max_l by lia. reflexivity. Qed.

(** A product with a rounded reciprocal, for a divisor of at most 2^51. *)
Lemma reciprocal_err : forall x y, 1 / 2 <= y -> 4 * u64 * y <= 1 -> Rabs (round64 (x * round64 (1 / y)) - x / y) <= 4 * u64 * Rabs (x / y) + eta64.
Proof.
  intros x y H1 H2. pose proof u64_pos as u0. assert (u1 : u64 <= 1) by (apply (two_le (-53) 0); lia). assert (i0 : 0 < 1 / y) by (apply Rdiv_lt_0_compat; lra).
  assert (L : (-1022 <= lead (1 / y))%Z).
  { assert (powerRZ 2 (-51) <= 1 / y).
    { apply (Rmult_le_reg_r y); [lra|]. replace (1 / y * y) with 1 by (field; lra). assert (E : powerRZ 2 (-51) = 4 * u64) by (unfold u64; replace (-51)%Z with (2 + -53)%Z by ring; rewrite two_add; f_equal; simpl; ring). rewrite E. exact H2. }
    destruct (lead_spec (1 / y)) as [_ B]; [lra|]. rewrite Rabs_right in B by lra. assert (X : powerRZ 2 (-51) < powerRZ 2 (lead (1 / y) + 1)) by lra. apply two_lt_inv in X. lia. }
  rewrite (round64_normal (1 / y)) by (auto; lra). pose proof (round53_err (1 / y)) as E. set (r := round53 (1 / y)) in *. pose proof (round64_err (x * r)) as F.
  assert (G : Rabs (x * r - x / y) <= u64 * Rabs (x / y)).
  { replace (x * r - x / y) with (x * (r - 1 / y)) by (field; lra). replace (x / y) with (x * (1 / y)) by (field; lra). rewrite !Rabs_mult. pose proof (Rabs_pos x). nra. }
  assert (K : Rabs (x * r) <= 2 * Rabs (x / y)).
  { replace (x * r) with ((x * r - x / y) + x / y) by ring. eapply Rle_trans; [apply Rabs_triang|]. pose proof (Rabs_pos (x / y)). nra. }
  replace (round64 (x * r) - x / y) with ((round64 (x * r) - x * r) + (x * r - x / y)) by ring. eapply Rle_trans; [apply Rabs_triang|]. pose proof (Rabs_pos (x / y)). assert (u64 * Rabs (x * r) <= u64 * (2 * Rabs (x / y))) by (apply Rmult_le_compat_l; lra). assert (0 <= u64 * Rabs (x / y)) by (apply Rmult_le_pos; lra). lra.
Qed.

Lemma round64_zero : round64 0 = 0.
Proof. unfold round64. destruct (Req_EM_T 0 0); [auto|congruence]. Qed.
Lemma round64_pos : forall x, 0 <= x -> 0 <= round64 x.
Proof.
  intros x H. unfold round64. destruct (Req_EM_T x 0); [lra|]. unfold round_at. apply Rmult_le_pos; [|left; apply two_pos]. apply (IZR_le 0). apply nearest_even_pos.
  apply Rmult_le_pos; auto. left. apply Rinv_0_lt_compat, two_pos.
Qed.

Lemma binary64_u : forall u ar, binary64 u ar -> u64 <= u <= 4 * u64.
Proof. intros u ar H. pose proof u64_pos. destruct (b_div _ _ H) as [[-> _]|[-> _]]; lra. Qed.

Theorem b64_float_like : forall u ar, binary64 u ar -> float_like u eta64 ar.
Proof.
  intros u ar H. pose proof (binary64_u u ar H) as U. pose proof u64_pos as u0. assert (UR : forall x, u64 * Rabs x <= u * Rabs x) by (intros x; apply Rmult_le_compat_r; [apply Rabs_pos|lra]).
  constructor; intros; rewrite ?(b_add _ _ H), ?(b_sub _ _ H), ?(b_mul _ _ H), ?(b_sqrt _ _ H), ?(b_ofZ _ _ H).
  - lra.
  - left. apply two_pos.
  - eapply Rle_trans; [apply round53_err|apply UR].
  - eapply Rle_trans; [apply round53_err|apply UR].
  - eapply Rle_trans; [apply round64_err|]. apply Rplus_le_compat_r, UR.
  - rewrite Rmult_0_l. apply round64_zero.
  - apply round64_pos. auto.
  - assert (T : Rabs (round64 (x / y) - x / y) <= u * Rabs (x / y) + eta64) by (eapply Rle_trans; [apply round64_err|apply Rplus_le_compat_r, UR]).
    destruct (b_div _ _ H) as [[Eu D]|[Eu D]]; [rewrite D; exact T|]. destruct (D x y) as [D'|D']; rewrite D'; [exact T|]. subst u. apply reciprocal_err; auto.
  - eapply Rle_trans; [apply round53_err|]. rewrite (Rabs_right (sqrt x)); [|apply Rle_ge, sqrt_pos]. apply Rmult_le_compat_r; [apply sqrt_pos|lra].
  - eapply Rle_trans; [apply round53_err|apply UR].
  - intros l. apply (sum_within_le u64); [lra|apply (b_sum _ _ H)].
  - intros xs ys L. destruct (b_dot _ _ H xs ys L) as (ps & L1 & P & S1). exists ps. split; auto. split; [|apply (sum_within_le u64); [lra|auto]].
    intros i Hi. destruct (P i Hi) as (A & B & C). split; [|auto]. eapply Rle_trans; [exact A|]. apply Rplus_le_compat_r, UR.
Qed.

(** Sums from left to right. *)
Lemma seq_sum_any : any_order_sum u64 seq_sum.
Proof. intros l. apply (sum_within_seq u64 (fun s x => round53 (s + x)) (fun x y => round53_err (x + y)) l [0] 0); [discriminate|constructor]. Qed.
Lemma product64 : forall x y, product_within u64 eta64 x y (round64 (x * y)).
Proof. intros x y. split; [apply round64_err|]. split; [apply round64_pos|]. intros ->. apply round64_zero. Qed.
Lemma seq_dot_any : any_order_dot u64 eta64 seq_dot.
Proof.
  intros xs ys L. exists (map2 (fun x y => round64 (x * y)) xs ys). split; [rewrite map2_length_eq; auto|]. split; [|apply seq_sum_any].
  intros i Hi. replace (nth i (map2 (fun x y => round64 (x * y)) xs ys) 0) with (round64 (nth i xs 0 * nth i ys 0)); [apply product64|].
  revert ys L i Hi. induction xs as [|x xs IH]; intros [|y ys] L i Hi; cbn in L, Hi; try lia. destruct i as [|i]; cbn; auto. apply IH; lia.
Qed.
Lemma b64_binary64 : binary64 u64 b64.
Proof. constructor; cbn; intros; auto using seq_sum_any, seq_dot_any. Qed.

(** Sums by halves. *)
Lemma half_sum_within : forall f l, l <> [] -> sum_within u64 l (half_sum f l).
Proof.
  induction f as [|f IH]; intros [|x [|y t]] N; try congruence; cbn [half_sum].
  - constructor.
  - apply (sum_within_seq u64 (fun s x => round53 (s + x)) (fun x y => round53_err (x + y)) (y :: t) [x] x); [discriminate|constructor].
  - constructor.
  - set (l := x :: y :: t) in *. set (n := Nat.div2 (length l)).
    assert (Hn : (1 <= n < length l)%nat) by (unfold n, l; cbn [length Nat.div2]; pose proof (Nat.div2_decr (length t) (length t) (le_S _ _ (le_n _))); lia).
    apply (sum_add u64 (firstn n l) (skipn n l) l (half_sum f (firstn n l)) (half_sum f (skipn n l))).
    + intros E. apply (f_equal (@length R)) in E. rewrite firstn_length in E. cbn [length] in E. lia.
    + intros E. apply (f_equal (@length R)) in E. rewrite skipn_length in E. cbn [length] in E. lia.
    + apply IH. intros E. apply (f_equal (@length R)) in E. rewrite firstn_length in E. cbn [length] in E. lia.
    + apply IH. intros E. apply (f_equal (@length R)) in E. rewrite skipn_length in E. cbn [length] in E. lia.
    + rewrite firstn_skipn. apply Permutation_refl.
    + apply round53_err.
Qed.
Lemma half_sum_any : any_order_sum u64 (fun l => half_sum (length l) l).
Proof.
  intros [|x l]; [constructor|]. apply sum_within_pad; [apply half_sum_within; discriminate|left; apply u64_pos].
Qed.

(** Fused multiplications and additions: where the result is subnormal, the error counts as one of
    the product. *)
Definition on_grid (x : R) : Prop := exists z, x = IZR z * powerRZ 2 (-1074).
Lemma round64_grid : forall x, on_grid (round64 x).
Proof.
  intros x. unfold round64. destruct (Req_EM_T x 0); [exists 0%Z; lra|]. set (e := Z.max (lead x - 52) (-1074)). assert (He : (-1074 <= e)%Z) by (unfold e; lia).
  unfold round_at. exists (nearest_even (x / powerRZ 2 e) * 2 ^ (e - -1074))%Z. rewrite mult_IZR, <- two_nat by lia. rewrite Rmult_assoc, <- two_add. do 2 f_equal. lia.
Qed.
Lemma fused_step : forall x y s, on_grid s -> exists p, product_within u64 eta64 x y p /\ Rabs (round64 (x * y + s) - (s + p)) <= u64 * Rabs (s + p).
Proof.
  intros x y s [z G]. pose proof u64_pos as u0. pose proof (two_pos (-1075)) as e0. fold eta64 in e0. set (t := x * y + s).
  assert (EX : product_within u64 eta64 x y (x * y)) by (split; [rewrite Rminus_eq_0, Rabs_R0; pose proof (Rabs_pos (x * y)); nra|auto]).
  destruct (Req_EM_T t 0) as [T|T].
  - exists (x * y). split; auto. rewrite T, round64_zero. replace (s + x * y) with 0 by (unfold t in T; lra). rewrite Rminus_0_r, Rabs_R0. lra.
  - destruct (Z_lt_le_dec (lead t) (-1022)) as [L|L].
    + assert (E : round64 t = round_at (-1074) t) by (unfold round64; destruct (Req_EM_T t 0); [congruence|]; rewrite Z.max_r by lia; reflexivity).
      assert (S0 : round_at (-1074) s = s). { unfold round_at. replace (s / powerRZ 2 (-1074)) with (IZR z) by (rewrite G; field; pose proof (two_pos (-1074)); lra). rewrite nearest_even_IZR. auto. }
      exists (round_at (-1074) t - s). rewrite E. split.
      * pose proof (round_at_err (-1074) t) as A. change (-1074 - 1)%Z with (-1075)%Z in A. fold eta64 in A. split; [|split].
        -- replace (round_at (-1074) t - s - x * y) with (round_at (-1074) t - t) by (unfold t; ring). pose proof (Rabs_pos (x * y)). nra.
        -- intros P. assert (round_at (-1074) s <= round_at (-1074) t) by (apply round_at_mono; unfold t; lra). lra.
        -- intros P. replace t with s by (unfold t; lra). lra.
      * replace (round_at (-1074) t - (s + (round_at (-1074) t - s))) with 0 by ring. rewrite Rabs_R0. apply Rmult_le_pos; [lra|apply Rabs_pos].
    + exists (x * y). split; auto. rewrite round64_normal by auto. replace (s + x * y) with t by (unfold t; ring). apply round53_err.
Qed.
Lemma fused_any : any_order_dot u64 eta64 fused_dot.
Proof.
  intros xs ys L. unfold fused_dot.
  assert (X : forall l s, l <> [] -> on_grid s -> sum_within u64 l s -> exists ps, length ps = length xs /\
    (forall i, (i < length xs)%nat -> product_within u64 eta64 (nth i xs 0) (nth i ys 0) (nth i ps 0)) /\
    sum_within u64 (l ++ ps) (fold_left (fun s p => round64 (fst p * snd p + s)) (combine xs ys) s)).
  { revert ys L. induction xs as [|x xs IH]; intros [|y ys] L l s N G H; try discriminate.
    - exists []. split; auto. split; [intros i Hi; inversion Hi|]. rewrite app_nil_r. auto.
    - cbn [combine fold_left fst snd]. destruct (fused_step x y s G) as (p & P & E).
      destruct (IH ys ltac:(cbn in L; lia) (l ++ [p]) (round64 (x * y + s))) as (ps & L1 & P1 & S1).
      + destruct l; discriminate.
      + apply round64_grid.
      + apply (sum_add u64 l [p] _ s p); auto; [discriminate|constructor].
      + exists (p :: ps). split; [cbn; auto|]. split; [intros [|i] Hi; cbn; auto; apply P1; cbn in Hi; lia|]. rewrite <- app_assoc in S1. exact S1. }
  apply (X [0] 0); [discriminate|exists 0%Z; lra|constructor].
Qed.
Lemma fast64_binary64 : binary64 (4 * u64) fast64.
Proof. constructor; cbn; intros; auto using half_sum_any, fused_any. Qed.

(** Numbers with 53 binary digits are not changed by rounding. *)
Lemma round53_format : forall z g, (Z.abs z < 2 ^ 53)%Z -> round53 (IZR z * powerRZ 2 g) = IZR z * powerRZ 2 g.
Proof.
  intros z g H. unfold round53. destruct (Req_EM_T _ 0) as [E|E]; auto. set (x := IZR z * powerRZ 2 g) in *. destruct (lead_spec x E) as [A _].
  assert (Hg : (lead x < g + 53)%Z).
  { apply two_lt_inv. eapply Rle_lt_trans; [exact A|]. unfold x. rewrite Rabs_mult, (Rabs_right (powerRZ 2 g)) by (left; apply two_pos). rewrite two_add, Rmult_comm. apply Rmult_lt_compat_l; [apply two_pos|].
    rewrite two_nat by lia. rewrite <- abs_IZR. apply IZR_lt. auto. }
  unfold round_at. set (e := (lead x - 52)%Z) in *. assert (X : x / powerRZ 2 e = IZR (z * 2 ^ (g - e))).
  { rewrite mult_IZR, <- two_nat by lia. unfold x. replace g with (e + (g - e))%Z at 1 by ring. rewrite two_add. field. pose proof (two_pos e). lra. }
  rewrite X, nearest_even_IZR, <- X. field. pose proof (two_pos e). lra.
Qed.
Lemma b64_representable : forall u ar z g, binary64 u ar -> (Z.abs z < 2 ^ 53)%Z -> representable ar (IZR z * powerRZ 2 g).
Proof. intros u ar z g H Hz. unfold representable. rewrite (b_add _ _ H), Rplus_0_r. apply round53_format; auto. Qed.

Lemma round_at_multiple : forall e g, (e <= g)%Z -> round_at e (powerRZ 2 g) = powerRZ 2 g.
Proof.
  intros e g H. unfold round_at. pose proof (two_pos e). assert (X : powerRZ 2 g / powerRZ 2 e = IZR (2 ^ (g - e))).
  { rewrite <- two_nat by lia. replace g with (e + (g - e))%Z at 1 by ring. rewrite two_add. field. lra. }
  rewrite X, nearest_even_IZR, <- X. field. lra.
Qed.
Lemma lead_mono : forall x y, 0 < x <= y -> (lead x <= lead y)%Z.
Proof.
  intros x y H. destruct (lead_spec x) as [A _]; [lra|]. destruct (lead_spec y) as [_ B]; [lra|]. rewrite Rabs_right in A, B by lra.
  assert (lead x < lead y + 1)%Z by (apply two_lt_inv; lra). lia.
Qed.
Lemma round64_mono : forall x y, 0 <= x <= y -> round64 x <= round64 y.
Proof.
  intros x y H. unfold round64. destruct (Req_EM_T x 0) as [X|X], (Req_EM_T y 0) as [Y|Y]; [lra| |lra|].
  - unfold round_at. apply Rmult_le_pos; [|left; apply two_pos]. apply (IZR_le 0). apply nearest_even_pos. apply Rmult_le_pos; [lra|]. left. apply Rinv_0_lt_compat, two_pos.
  - pose proof (lead_mono x y ltac:(lra)) as L. set (ex := Z.max (lead x - 52) (-1074)). set (ey := Z.max (lead y - 52) (-1074)).
    destruct (Z.eq_dec ex ey) as [E|E]; [rewrite E; apply round_at_mono; lra|].
    assert (G : (lead x + 1 <= lead y)%Z) by (unfold ex, ey in E; lia).
    destruct (lead_spec x X) as [_ A]. destruct (lead_spec y Y) as [B _]. rewrite Rabs_right in A, B by lra. apply two_le in G.
    apply Rle_trans with (powerRZ 2 (lead y)).
    + rewrite <- (round_at_multiple ex (lead y)) by (unfold ex, ey in *; lia). apply round_at_mono. lra.
    + rewrite <- (round_at_multiple ey (lead y)) at 1 by (unfold ex, ey in *; lia). apply round_at_mono. lra.
Qed.
Theorem b64_monotone_mul : forall u ar, binary64 u ar -> monotone_mul ar.
Proof.
  intros u ar BI x y f H F. rewrite !(b_mul _ _ BI). apply round64_mono. split; [apply Rmult_le_pos; lra|apply Rmult_le_compat_r; lra].
Qed.
