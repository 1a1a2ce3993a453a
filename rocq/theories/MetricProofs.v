(** Lemmas on metrics between rows and on EMD with any of them. *)
From Coq Require Import List ZArith Arith Bool Reals Lia Lra Permutation FinFun.
From Verif Require Import Num Outcome Base NNModel CalcModel EmdModel VecR Sums SpecEmd CalcProofs EmdInit EmdCert EmdMain EmdReal EmdRun
  Transport EmdThm EmdSym EmdTop SpecMetric MetricModel.
Import ListNotations.
Open Scope R_scope.

(** ** Minkowski distances *)
Lemma fold_power : forall (g : R * R -> R) u v a, length u = length v ->
  fold_left Rplus (map g (combine u v)) a = a + Sum (length u) (fun t => g (nth t u 0, nth t v 0)).
Proof.
  induction u as [|x u IH]; intros [|y v] a H; simpl in H; try lia; [cbn; lra|].
  cbn [combine map fold_left length]. rewrite IH by lia. change (S (length u)) with (1 + length u)%nat.
  rewrite Sum_app. cbn [Sum nth Nat.add]. lra.
Qed.

Lemma power_sum_Sum : forall n k u v, length u = k -> length v = k ->
  power_sum n u v = Sum k (fun t => Rabs (nth t u 0 - nth t v 0) ^ n).
Proof. intros n k u v Hu Hv. unfold power_sum. rewrite fold_power by lia. rewrite Hu. cbn [fst snd]. apply Rplus_0_l. Qed.

Lemma power_sum_pos : forall n k u v, length u = k -> length v = k -> 0 <= power_sum n u v.
Proof.
  intros n k u v Hu Hv. rewrite (power_sum_Sum n k) by auto. apply Sum_nonneg. intros t Ht. apply pow_le, Rabs_pos.
Qed.

Lemma nth_root_spec : forall n x, (0 < n)%nat -> 0 <= x -> 0 <= nth_root n x /\ nth_root n x ^ n = x.
Proof.
  intros n x Hn Hx. unfold nth_root. destruct (Req_EM_T x 0) as [->|N].
  - split; [lra|]. destruct n; [lia|]. cbn [pow]. lra.
  - assert (0 < x) by lra. assert (0 < Rpower x (/ INR n)) by apply exp_pos. split; [lra|].
    rewrite <- Rpower_pow by auto. rewrite Rpower_mult. rewrite Rinv_l by (apply not_0_INR; lia). now apply Rpower_1.
Qed.

Lemma minkowski_spec : forall n k u v, (0 < n)%nat -> length u = k -> length v = k -> is_minkowski n k u v (minkowski n u v).
Proof.
  intros n k u v Hn Hu Hv. unfold minkowski. destruct (nth_root_spec n (power_sum n u v) Hn (power_sum_pos n k u v Hu Hv)) as [H1 H2].
  split; [exact H1|]. rewrite H2. now apply power_sum_Sum.
Qed.

Lemma cityblock_spec : forall k u v, length u = k -> length v = k -> is_minkowski 1 k u v (cityblock u v).
Proof.
  intros k u v Hu Hv. split; [apply (power_sum_pos 1 k); auto|]. rewrite pow_1. now apply power_sum_Sum.
Qed.

Lemma euclidean_spec : forall k u v, length u = k -> length v = k -> is_minkowski 2 k u v (euclidean u v).
Proof.
  intros k u v Hu Hv. split; [apply sqrt_pos|]. unfold euclidean.
  rewrite <- (power_sum_Sum 2 k) by auto. cbn [pow]. rewrite Rmult_1_r. apply sqrt_sqrt. apply (power_sum_pos 2 k); auto.
Qed.

Lemma pow_lt_strict : forall n x y, (0 < n)%nat -> 0 <= x < y -> x ^ n < y ^ n.
Proof.
  induction n as [|n IH]; intros x y Hn [H1 H2]; [lia|]. destruct n as [|n]; [cbn; lra|].
  cbn [pow] in *. specialize (IH x y ltac:(lia) (conj H1 H2)).
  assert (0 <= x ^ n) by (now apply pow_le). assert (0 <= x * x ^ n) by (now apply Rmult_le_pos).
  apply Rle_lt_trans with (y * (x * x ^ n)); [apply Rmult_le_compat_r; lra|]. apply Rmult_lt_compat_l; lra.
Qed.

Lemma pow_le_inv : forall n x y, (0 < n)%nat -> 0 <= x -> 0 <= y -> x ^ n <= y ^ n -> x <= y.
Proof.
  intros n x y Hn Hx Hy H. destruct (Rle_or_lt x y) as [L|L]; auto. pose proof (pow_lt_strict n y x Hn (conj Hy L)). lra.
Qed.

Lemma pow_eq_inv : forall n x y, (0 < n)%nat -> 0 <= x -> 0 <= y -> x ^ n = y ^ n -> x = y.
Proof. intros n x y Hn Hx Hy H. apply Rle_antisym; apply (pow_le_inv n); auto; lra. Qed.

Lemma minkowski_unique : forall n k u v d d', (0 < n)%nat -> is_minkowski n k u v d -> is_minkowski n k u v d' -> d = d'.
Proof. intros n k u v d d' Hn [P1 E1] [P2 E2]. apply (pow_eq_inv n); auto. congruence. Qed.

(** Powers are convex. *)
Lemma pow_diff : forall n s t, 0 <= s -> 0 <= t -> 0 <= (s - t) * (s ^ n - t ^ n).
Proof.
  intros n s t Hs Ht. destruct (Rle_or_lt s t) as [L|L].
  - assert (s ^ n <= t ^ n) by (apply pow_incr; lra).
    replace ((s - t) * (s ^ n - t ^ n)) with ((t - s) * (t ^ n - s ^ n)) by ring. apply Rmult_le_pos; lra.
  - assert (t ^ n <= s ^ n) by (apply pow_incr; lra). apply Rmult_le_pos; lra.
Qed.

Lemma pow_convex : forall n l m s t, 0 <= l -> 0 <= m -> l + m = 1 -> 0 <= s -> 0 <= t ->
  (l * s + m * t) ^ n <= l * s ^ n + m * t ^ n.
Proof.
  induction n as [|n IH]; intros l m s t Hl Hm E Hs Ht; [cbn [pow]; lra|]. cbn [pow].
  assert (0 <= l * s + m * t) by (apply Rplus_le_le_0_compat; now apply Rmult_le_pos).
  apply Rle_trans with ((l * s + m * t) * (l * s ^ n + m * t ^ n)); [now apply Rmult_le_compat_l; [|apply IH]|].
  pose proof (pow_diff n s t Hs Ht) as D.
  assert (0 <= l * m * ((s - t) * (s ^ n - t ^ n))) by (apply Rmult_le_pos; [now apply Rmult_le_pos|auto]).
  replace m with (1 - l) in * by lra. nra.
Qed.

Lemma minkowski_triangle : forall n k u v w a b c, (0 < n)%nat ->
  is_minkowski n k u v a -> is_minkowski n k v w b -> is_minkowski n k u w c -> c <= a + b.
Proof.
  intros n k u v w a b c Hn [Pa Ea] [Pb Eb] [Pc Ec].
  assert (Z : forall x, 0 <= x -> x ^ n = 0 -> x = 0).
  { intros x Hx H. apply (pow_eq_inv n); auto; [lra|]. rewrite H. destruct n; [lia|]. cbn; lra. }
  assert (T : forall t, Rabs (nth t u 0 - nth t w 0) <= Rabs (nth t u 0 - nth t v 0) + Rabs (nth t v 0 - nth t w 0)).
  { intros t. replace (nth t u 0 - nth t w 0) with ((nth t u 0 - nth t v 0) + (nth t v 0 - nth t w 0)) by ring. apply Rabs_triang. }
  destruct (Req_dec a 0) as [A0|A0].
  { assert (S0 : forall t, (t < k)%nat -> Rabs (nth t u 0 - nth t v 0) = 0).
    { intros t Ht. apply Z; [apply Rabs_pos|]. apply (Sum_zero_inv k (fun t => Rabs (nth t u 0 - nth t v 0) ^ n)); auto.
      - intros i Hi. apply pow_le, Rabs_pos.
      - rewrite <- Ea, A0. destruct n; [lia|]. cbn; lra. }
    apply (pow_le_inv n); auto; [lra|]. rewrite A0, Rplus_0_l, Eb, Ec. apply Sum_le. intros t Ht.
    apply pow_incr. split; [apply Rabs_pos|]. specialize (T t). rewrite S0 in T by auto. lra. }
  destruct (Req_dec b 0) as [B0|B0].
  { assert (S0 : forall t, (t < k)%nat -> Rabs (nth t v 0 - nth t w 0) = 0).
    { intros t Ht. apply Z; [apply Rabs_pos|]. apply (Sum_zero_inv k (fun t => Rabs (nth t v 0 - nth t w 0) ^ n)); auto.
      - intros i Hi. apply pow_le, Rabs_pos.
      - rewrite <- Eb, B0. destruct n; [lia|]. cbn; lra. }
    apply (pow_le_inv n); auto; [lra|]. rewrite B0, Rplus_0_r, Ea, Ec. apply Sum_le. intros t Ht.
    apply pow_incr. split; [apply Rabs_pos|]. specialize (T t). rewrite S0 in T by auto. lra. }
  assert (0 < a) by lra. assert (0 < b) by lra.
  assert (An : 0 < a ^ n) by (now apply pow_lt). assert (Bn : 0 < b ^ n) by (now apply pow_lt).
  set (l := a / (a + b)). set (m := b / (a + b)).
  assert (Hl : 0 <= l) by (apply Rlt_le, Rdiv_lt_0_compat; lra). assert (Hm : 0 <= m) by (apply Rlt_le, Rdiv_lt_0_compat; lra).
  assert (LM : l + m = 1) by (unfold l, m; field; lra).
  apply (pow_le_inv n); auto; [lra|]. rewrite Ec.
  apply Rle_trans with (Sum k (fun t => (a + b) ^ n * (l * (Rabs (nth t u 0 - nth t v 0) / a) ^ n + m * (Rabs (nth t v 0 - nth t w 0) / b) ^ n))).
  - apply Sum_le. intros t Ht. set (x := Rabs (nth t u 0 - nth t v 0)). set (y := Rabs (nth t v 0 - nth t w 0)).
    assert (0 <= x) by apply Rabs_pos. assert (0 <= y) by apply Rabs_pos.
    apply Rle_trans with ((x + y) ^ n).
    + apply pow_incr. split; [apply Rabs_pos|apply T].
    + replace (x + y) with ((a + b) * (l * (x / a) + m * (y / b))) by (unfold l, m; field; lra).
      rewrite Rpow_mult_distr. apply Rmult_le_compat_l; [apply pow_le; lra|].
      apply pow_convex; auto; apply Rmult_le_pos; auto; apply Rlt_le, Rinv_0_lt_compat; lra.
  - rewrite Sum_scal, Sum_plus, !Sum_scal.
    assert (Q : forall z (f : nat -> R), 0 < z -> z ^ n = Sum k (fun t => f t ^ n) -> Sum k (fun t => (f t / z) ^ n) = 1).
    { intros z f Hz E. assert (0 < z ^ n) by (now apply pow_lt).
      rewrite (Sum_ext k _ (fun t => / z ^ n * f t ^ n)).
      - rewrite Sum_scal, <- E. field. lra.
      - intros t Ht. unfold Rdiv. rewrite Rpow_mult_distr, pow_inv. ring. }
    rewrite (Q a (fun t => Rabs (nth t u 0 - nth t v 0))), (Q b (fun t => Rabs (nth t v 0 - nth t w 0))) by auto.
    rewrite !Rmult_1_r, LM. lra.
Qed.

Lemma minkowski_sym : forall n k u v d, is_minkowski n k u v d -> is_minkowski n k v u d.
Proof.
  intros n k u v d [P E]. split; auto. rewrite E. apply Sum_ext. intros t Ht. now rewrite Rabs_minus_sym.
Qed.

Lemma minkowski_same : forall n k u, (0 < n)%nat -> is_minkowski n k u u 0.
Proof.
  intros n k u Hn. split; [lra|]. rewrite Sum_zero; [destruct n; [lia|cbn; lra]|]. intros t Ht.
  rewrite Rminus_diag_eq by reflexivity. rewrite Rabs_R0. destruct n; [lia|cbn; lra].
Qed.

Lemma minkowski_metric : forall n k f, (0 < n)%nat ->
  (forall u v, length u = k -> length v = k -> is_minkowski n k u v (f u v)) -> metric_on k f.
Proof.
  intros n k f Hn H. constructor.
  - intros u v Hu Hv. apply (H u v Hu Hv).
  - intros u Hu. apply (minkowski_unique n k u u); auto. now apply minkowski_same.
  - intros u v Hu Hv. apply (minkowski_unique n k u v); auto. apply minkowski_sym. auto.
  - intros u v w Hu Hv Hw. apply (minkowski_triangle n k u v w); auto.
Qed.

(** Greater orders give smaller distances, and the Chebyshev distance is below all. *)
Lemma minkowski_decreasing : forall n n' k u v d d', (0 < n <= n')%nat ->
  is_minkowski n k u v d -> is_minkowski n' k u v d' -> d' <= d.
Proof.
  intros n n' k u v d d' Hn [P E] [P' E'].
  assert (B : forall t, (t < k)%nat -> Rabs (nth t u 0 - nth t v 0) <= d).
  { intros t Ht. apply (pow_le_inv n); auto; [lia|apply Rabs_pos|]. rewrite E.
    apply (Sum_ge_one k (fun t => Rabs (nth t u 0 - nth t v 0) ^ n)); auto. intros; apply pow_le, Rabs_pos. }
  apply (pow_le_inv n'); auto; [lia|]. rewrite E'. replace n' with ((n' - n) + n)%nat by lia.
  rewrite pow_add, E, <- Sum_scal. apply Sum_le. intros t Ht. rewrite pow_add.
  apply Rmult_le_compat_r; [apply pow_le, Rabs_pos|]. apply pow_incr. split; [apply Rabs_pos|auto].
Qed.

Lemma chebyshev_below : forall n k u v d d', (0 < n)%nat -> is_minkowski n k u v d -> is_chebyshev k u v d' -> d' <= d.
Proof.
  intros n k u v d d' Hn [P E] [_ [->|(t & Ht & ->)]]; auto.
  apply (pow_le_inv n); auto; [apply Rabs_pos|]. rewrite E.
  apply (Sum_ge_one k (fun t => Rabs (nth t u 0 - nth t v 0) ^ n)); auto. intros; apply pow_le, Rabs_pos.
Qed.

(** ** EMD with any metric *)
Section Args.
  Variables (f : list R -> list R -> R) (k : nat) (p q : list (list R)).
  Hypothesis P : pdd_like k p.
  Hypothesis Q : pdd_like k q.
  Hypothesis F : nonneg_on k f.

  Definition dmf : list (list R) := map (fun u => map (fun v => f u v) (rows_of q)) (rows_of p).

  Lemma EMD_dmf : forall fuel, EMD_with f fuel p q = network_simplex fuel (weights_of p) (weights_of q) dmf.
  Proof. intros fuel. unfold EMD_with, cdist_with. rewrite !(width_pdd k), Nat.eqb_refl by auto. reflexivity. Qed.

  Lemma dmf_entry : forall i j, (i < length p)%nat -> (j < length q)%nat -> mx dmf i j = row_metric f p q i j.
  Proof.
    intros i j Hi Hj. unfold mx, dmf, rows_of, row_metric. rewrite !map_map.
    rewrite (nth_indep _ [] ((fun r => map (fun v => f (tl r) v) (map (@tl R) q)) [])) by (now rewrite map_length).
    rewrite (map_nth (fun r => map (fun v => f (tl r) v) (map (@tl R) q))). rewrite map_map.
    rewrite (nth_indep _ 0 (f (tl (nth i p [])) (tl []))) by (now rewrite map_length).
    apply (map_nth (fun r => f (tl (nth i p [])) (tl r))).
  Qed.

  Lemma row_metric_pos : forall i j, (i < length p)%nat -> (j < length q)%nat -> 0 <= row_metric f p q i j.
  Proof. intros i j Hi Hj. apply F; [apply (tl_len k _ p P) | apply (tl_len k _ q Q)]; apply nth_In; auto. Qed.

  Lemma dmf_matrix : cost_matrix (length (weights_of p)) (length (weights_of q)) dmf.
  Proof.
    rewrite !weights_len. constructor.
    - unfold dmf, rows_of. now rewrite !map_length.
    - unfold dmf. apply Forall_forall. intros r Hr. apply in_map_iff in Hr as (u & <- & _). unfold rows_of. now rewrite !map_length.
    - intros i j Hi Hj. rewrite dmf_entry by auto. now apply row_metric_pos.
  Qed.

  Lemma with_returns : exists v plan n, forall fuel, (n <= fuel)%nat -> EMD_with f fuel p q = Done (v, plan).
  Proof.
    set (b := run_bound (weights_of p) (weights_of q) dmf).
    destruct (network_simplex_run (weights_of p) (weights_of q) dmf (weights_weights k p P) (weights_weights k q Q) dmf_matrix (S (Z.to_nat b)))
      as (v & plan & X & E & _); [fold b; lia|].
    exists v, plan, (S (Z.to_nat b)). intros fuel Hf. rewrite EMD_dmf.
    replace fuel with (S (Z.to_nat b) + (fuel - S (Z.to_nat b)))%nat by lia. now apply network_simplex_mono.
  Qed.

  Lemma with_done : forall fuel v plan, EMD_with f fuel p q = Done (v, plan) -> exists X,
    length plan = length p /\ Forall (fun r => length r = length q) plan /\
    (forall i j, (i < length p)%nat -> (j < length q)%nat -> mx plan i j = planR X i j) /\
    v = transport_cost (length p) (length q) (fun i j => of_fp (to_fp (row_metric f p q i j))) (planR X) /\
    run (weights_of p) (weights_of q) (row_metric f p q) X.
  Proof.
    intros fuel v plan H. rewrite EMD_dmf in H.
    destruct (network_simplex_done _ _ _ _ _ _ (weights_weights k p P) (weights_weights k q Q) dmf_matrix H) as (X & H1 & H2 & H3 & H4 & H5).
    rewrite !weights_len in *. exists X. split; auto. split; auto. split; auto. split.
    - rewrite H4. apply cost_ext; auto. intros i j Hi Hj. now rewrite dmf_entry.
    - eapply run_ext; [|exact H5]. intros i j Hi Hj. rewrite weights_len in Hi, Hj. now apply dmf_entry.
  Qed.

  Lemma coupling_weights : forall Y, coupling (length p) (length q) (fun i => mx p i 0) (fun j => mx q j 0) Y <->
                         coupling (length p) (length q) (vx (weights_of p)) (vx (weights_of q)) Y.
  Proof.
    intros Y. unfold coupling. split; intros (H1 & H2 & H3); (split; [exact H1|split]); intros t Ht;
      rewrite ?weights_vx by auto; [rewrite H2|rewrite H3|rewrite H2|rewrite H3]; auto using weights_vx.
  Qed.

  Lemma with_near : forall dmax fuel v plan, below_cap (length p) (length q) (fun _ _ => dmax) (row_metric f p q) ->
    EMD_with f fuel p q = Done (v, plan) ->
    emd_within (length p) (length q) (fun i => mx p i 0) (fun j => mx q j 0) (row_metric f p q) (accuracy (length p) (length q) dmax) v.
  Proof.
    intros dmax fuel v plan M E. destruct (with_done fuel v plan E) as (X & L1 & L2 & HX & V & R).
    pose proof (value_within _ _ (weights_weights k p P) (weights_weights k q Q) (row_metric f p q) X R) as B.
    rewrite !weights_len in B. specialize (B row_metric_pos dmax M). rewrite <- V in B.
    fold (accuracy (length p) (length q) dmax) in B. destruct B as [B1 (Y & B2 & B3)]. split.
    - intros Z HZ. apply B1, coupling_weights, HZ.
    - exists Y. split; [now apply coupling_weights|auto].
  Qed.
End Args.
