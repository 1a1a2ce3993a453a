(** Property C85: EMD with other metrics than the default. *)
From Coq Require Import String List ZArith Arith Bool Reals Lia Lra Permutation FinFun.
From Verif Require Import Num Outcome Base NNModel CalcModel EmdModel VecR Sums SpecEmd EmdMain EmdReal EmdRun
  Transport EmdThm EmdSym EmdTop Props_Emd SpecMetric MetricModel MetricProofs.
Import ListNotations.
Open Scope R_scope.

(** ** C85 *)
(** Whatever the metric, as long as it is not negative, the call returns, and what it returns is
    within the accuracy of C27 of the Earth mover's distance for this metric. *)
Theorem C85_returns : forall f k p q, pdd_like k p -> pdd_like k q -> nonneg_on k f ->
  exists v plan n, forall fuel, (n <= fuel)%nat -> EMD_with f fuel p q = Done (v, plan).
Proof. intros f k p q P Q F. exact (with_returns f k p q P Q F). Qed.

Theorem C85_near_exact : forall f k p q dmax fuel v plan, pdd_like k p -> pdd_like k q -> nonneg_on k f ->
  below_cap (length p) (length q) (fun _ _ => dmax) (row_metric f p q) -> EMD_with f fuel p q = Done (v, plan) ->
  emd_within (length p) (length q) (fun i => mx p i 0) (fun j => mx q j 0) (row_metric f p q) (accuracy (length p) (length q) dmax) v.
Proof. intros f k p q dmax fuel v plan P Q F. exact (with_near f k p q P Q F dmax fuel v plan). Qed.

(** Different numbers of columns are rejected whatever the metric. *)
Theorem C85_columns : forall f k k' p q fuel, pdd_like k p -> pdd_like k' q -> k <> k' ->
  EMD_with f fuel p q = Raise ValueError.
Proof.
  intros f k k' p q fuel P Q N. unfold EMD_with, cdist_with. rewrite (width_pdd k p P), (width_pdd k' q Q).
  apply Nat.eqb_neq in N. now rewrite N.
Qed.

Lemma metric_nonneg : forall k f, metric_on k f -> nonneg_on k f.
Proof. intros k f M u v Hu Hv. exact (mo_pos k f M u v Hu Hv). Qed.

(** If the metric is one, so is EMD: 0 for PDDs with the same rows in any order, *)
Theorem C85_same_rows : forall f k p p' fuel v plan, pdd_like k p -> pdd_like k p' -> metric_on k f ->
  Permutation p p' -> EMD_with f fuel p p' = Done (v, plan) -> v = 0.
Proof.
  intros f k p p' fuel v plan P P' M HP E. destruct (perm_index p p' HP) as (Hl & g & Hg & Hi & Hn).
  pose proof (metric_nonneg k f M) as F.
  destruct (with_done f k p p' P P' F fuel v plan E) as (X & L1 & L2 & HX & V & R).
  rewrite V, value_cost, Hl.
  assert (Z0 : int_cost (length (weights_of p)) (length (weights_of p')) (row_metric f p p') X = 0%Z).
  { apply (value_zero (weights_of p) (weights_of p') g _); auto; rewrite ?weights_len; auto;
      try (apply weights_light); try (eapply weights_weights; eauto).
    - intros i H. apply (perm_weights p p' g); auto. now rewrite weights_len.
    - intros i j H1 H2. apply (row_metric_pos f k p p' P P' F); auto. now rewrite Hl.
    - intros i H. unfold row_metric. rewrite Hn by auto. apply (mo_same k f M). apply (tl_len k _ p P). apply nth_In. auto. }
  rewrite !weights_len, Hl in Z0. rewrite Z0. unfold Rdiv. apply Rmult_0_l.
Qed.

(** symmetric, *)
Theorem C85_symmetric : forall f k p q fuel fuel' v v' plan plan', pdd_like k p -> pdd_like k q -> metric_on k f ->
  (Z.of_nat (length p) <= 10000)%Z -> (Z.of_nat (length q) <= 10000)%Z ->
  EMD_with f fuel p q = Done (v, plan) -> EMD_with f fuel' q p = Done (v', plan') -> v = v'.
Proof.
  intros f k p q fuel fuel' v v' plan plan' P Q M Lp Lq E E'. pose proof (metric_nonneg k f M) as F.
  destruct (with_done f k p q P Q F fuel v plan E) as (X & _ & _ & _ & V & R).
  destruct (with_done f k q p Q P F fuel' v' plan' E') as (X' & _ & _ & _ & V' & R').
  assert (S : forall i j, (i < length p)%nat -> (j < length q)%nat -> row_metric f q p j i = row_metric f p q i j).
  { intros i j Hi Hj. apply (mo_sym k f M); [apply (tl_len k _ q Q)|apply (tl_len k _ p P)]; now apply nth_In. }
  apply run_flip in R'. cbv beta in R'.
  assert (R2 : run (weights_of p) (weights_of q) (row_metric f p q) (fun j i => X' i j)).
  { eapply run_ext; [|exact R']. intros i j Hi Hj. rewrite weights_len in Hi, Hj. cbv beta. auto. }
  rewrite V, V', !value_cost. f_equal. f_equal.
  rewrite (int_cost_flip (length q) (length p)).
  transitivity (int_cost (length p) (length q) (row_metric f p q) (fun j i => X' i j)).
  - rewrite <- (weights_len p), <- (weights_len q). apply run_unique; auto; try (rewrite weights_len; auto); eapply weights_weights; eauto.
  - unfold int_cost. apply ZSum_ext. intros i Hi. apply ZSum_ext. intros j Hj. now rewrite S.
Qed.

(** and with the triangle inequality up to the accuracies. *)
Theorem C85_triangle : forall f k p q r dmax f12 f23 f13 v12 v23 v13 t12 t23 t13,
  pdd_like k p -> pdd_like k q -> pdd_like k r -> metric_on k f ->
  below_cap (length p) (length q) (fun _ _ => dmax) (row_metric f p q) ->
  below_cap (length q) (length r) (fun _ _ => dmax) (row_metric f q r) ->
  below_cap (length p) (length r) (fun _ _ => dmax) (row_metric f p r) ->
  EMD_with f f12 p q = Done (v12, t12) -> EMD_with f f23 q r = Done (v23, t23) -> EMD_with f f13 p r = Done (v13, t13) ->
  v13 <= v12 + v23 + (accuracy (length p) (length q) dmax + accuracy (length q) (length r) dmax + accuracy (length p) (length r) dmax).
Proof.
  intros f k p q r dmax f12 f23 f13 v12 v23 v13 t12 t23 t13 P Q R M M12 M23 M13 E12 E23 E13.
  pose proof (metric_nonneg k f M) as F.
  pose proof (C85_near_exact _ _ _ _ _ _ _ _ P Q F M12 E12) as H12.
  pose proof (C85_near_exact _ _ _ _ _ _ _ _ Q R F M23 E23) as H23.
  pose proof (C85_near_exact _ _ _ _ _ _ _ _ P R F M13 E13) as H13.
  apply (C31_exact (length p) (length q) (length r) _ _ _ (row_metric f p q) (row_metric f q r) (row_metric f p r) _ _ _ _ _ _) with (4 := H23) (3 := H12) (5 := H13).
  - intros j Hj. pose proof (pl_weight _ _ Q) as W. rewrite Forall_forall in W. specialize (W (nth j q []) (nth_In _ _ Hj)). unfold mx. lra.
  - intros i j l Hi Hj Hl. apply (mo_triangle k f M); [apply (tl_len k _ p P)|apply (tl_len k _ q Q)|apply (tl_len k _ r R)]; now apply nth_In.
Qed.

(** The named metrics are what their names say, and all but sqeuclidean are metrics. *)
Theorem C85_named : forall k name n f, named_metric n name = Done f -> (0 < n)%nat ->
  forall u v, length u = k -> length v = k ->
  match name with
  | "chebyshev" => is_chebyshev k u v (f u v)
  | "cityblock" => is_minkowski 1 k u v (f u v)
  | "euclidean" => is_minkowski 2 k u v (f u v)
  | "minkowski" => is_minkowski n k u v (f u v)
  | _ => name = "sqeuclidean" /\ is_minkowski 2 k u v (sqrt (f u v)) /\ 0 <= f u v
  end%string.
Proof.
  intros k name n f H Hn u v Hu Hv. unfold named_metric in H.
  destruct (String.eqb_spec name "chebyshev") as [->|N1]; [injection H as <-; now apply cheb_spec|].
  destruct (String.eqb_spec name "cityblock") as [->|N2]; [injection H as <-; now apply cityblock_spec|].
  destruct (String.eqb_spec name "euclidean") as [->|N3]; [injection H as <-; now apply euclidean_spec|].
  destruct (String.eqb_spec name "sqeuclidean") as [->|N4].
  { injection H as <-. split; [reflexivity|]. split; [now apply euclidean_spec|now apply (power_sum_pos 2 k)]. }
  destruct (String.eqb_spec name "minkowski") as [->|N5]; [injection H as <-; now apply minkowski_spec|discriminate].
Qed.

(** The five names are accepted. *)
Theorem C85_names : forall name n, In name ["chebyshev"; "cityblock"; "euclidean"; "sqeuclidean"; "minkowski"]%string -> exists f, named_metric n name = Done f.
Proof. intros name n [<-|[<-|[<-|[<-|[<-|[]]]]]]; eexists; reflexivity. Qed.

Theorem C85_named_metrics : forall k name n f, named_metric n name = Done f -> (0 < n)%nat -> name <> "sqeuclidean"%string ->
  metric_on k f.
Proof.
  intros k name n f H Hn N. pose proof (C85_named k name n f H Hn) as S. unfold named_metric in H.
  destruct (String.eqb_spec name "chebyshev") as [->|N1].
  { constructor.
    - intros u v Hu Hv. apply (chebyshev_pos k u v). now apply S.
    - intros u Hu. apply (chebyshev_unique k u u); [now apply S|]. split; [|now left]. intros t Ht.
      rewrite Rminus_diag_eq by reflexivity. rewrite Rabs_R0. lra.
    - intros u v Hu Hv. apply (chebyshev_unique k u v); [now apply S|]. apply chebyshev_sym. now apply S.
    - intros u v w Hu Hv Hw. apply (chebyshev_triangle k u v w); now apply S. }
  destruct (String.eqb_spec name "cityblock") as [->|N2]; [now apply (minkowski_metric 1); [lia|]|].
  destruct (String.eqb_spec name "euclidean") as [->|N3]; [now apply (minkowski_metric 2); [lia|]|].
  destruct (String.eqb_spec name "sqeuclidean") as [->|N4]; [congruence|].
  destruct (String.eqb_spec name "minkowski") as [->|N5]; [now apply (minkowski_metric n)|discriminate].
Qed.

(** A smaller metric gives a smaller EMD, up to the accuracies. *)
Theorem C85_monotone : forall f g k p q dmax fuel fuel' v v' plan plan', pdd_like k p -> pdd_like k q ->
  nonneg_on k f -> (forall u v, length u = k -> length v = k -> f u v <= g u v) ->
  below_cap (length p) (length q) (fun _ _ => dmax) (row_metric g p q) ->
  EMD_with f fuel p q = Done (v, plan) -> EMD_with g fuel' p q = Done (v', plan') ->
  v <= v' + 2 * accuracy (length p) (length q) dmax.
Proof.
  intros f g k p q dmax fuel fuel' v v' plan plan' P Q F L M E E'.
  assert (LR : forall i j, (i < length p)%nat -> (j < length q)%nat -> row_metric f p q i j <= row_metric g p q i j).
  { intros i j Hi Hj. apply L; [apply (tl_len k _ p P)|apply (tl_len k _ q Q)]; now apply nth_In. }
  assert (G : nonneg_on k g) by (intros a b Ha Hb; eapply Rle_trans; [apply F|apply L]; auto).
  assert (Mf : below_cap (length p) (length q) (fun _ _ => dmax) (row_metric f p q)).
  { intros i j Hi Hj. eapply Rle_trans; [apply LR|apply M]; auto. }
  destruct (C85_near_exact f k p q dmax fuel v plan P Q F Mf E) as [H1 _].
  destruct (C85_near_exact g k p q dmax fuel' v' plan' P Q G M E') as [_ (Y & C & H2)].
  specialize (H1 Y C).
  assert (transport_cost (length p) (length q) (row_metric f p q) Y <= transport_cost (length p) (length q) (row_metric g p q) Y); [|lra].
  apply Sum_le. intros i Hi. apply Sum_le. intros j Hj. apply Rmult_le_compat_r; [|auto]. apply (proj1 C); auto.
Qed.

(** So EMD with the default metric is the smallest of those with chebyshev, cityblock, euclidean
    and minkowski; with minkowski it decreases with the order. *)
Theorem C85_orders : forall name name' n n' o o' f g k p q dmax fuel fuel' v v' plan plan', pdd_like k p -> pdd_like k q ->
  named_metric n name = Done f -> named_metric n' name' = Done g -> (0 < n)%nat -> (0 < n')%nat ->
  In (name', o') [("cityblock", 1%nat); ("euclidean", 2%nat); ("minkowski", n')]%string ->
  (name = "chebyshev" \/ In (name, o) [("cityblock", 1%nat); ("euclidean", 2%nat); ("minkowski", n)] /\ (o' <= o)%nat)%string ->
  below_cap (length p) (length q) (fun _ _ => dmax) (row_metric g p q) ->
  EMD_with f fuel p q = Done (v, plan) -> EMD_with g fuel' p q = Done (v', plan') ->
  v <= v' + 2 * accuracy (length p) (length q) dmax.
Proof.
  intros name name' n n' o o' f g k p q dmax fuel fuel' v v' plan plan' P Q Hf Hg Hn Hn' Ig If M E E'.
  pose proof (C85_named k name n f Hf Hn) as Sf. pose proof (C85_named k name' n' g Hg Hn') as Sg.
  assert (G : forall a b, length a = k -> length b = k -> is_minkowski o' k a b (g a b)).
  { intros a b Ha Hb. specialize (Sg a b Ha Hb). destruct Ig as [I|[I|[I|[]]]]; injection I as <- <-; exact Sg. }
  assert (O' : (0 < o')%nat) by (destruct Ig as [I|[I|[I|[]]]]; injection I as <- <-; lia).
  apply (C85_monotone f g k p q dmax fuel fuel' v v' plan plan'); auto.
  - apply metric_nonneg. apply (C85_named_metrics k name n f Hf Hn).
    destruct If as [->|[[I|[I|[I|[]]]] _]]; [discriminate| | |]; injection I as <- _; discriminate.
  - intros a b Ha Hb. specialize (Sf a b Ha Hb). specialize (G a b Ha Hb).
    destruct If as [->|[I L]].
    + exact (chebyshev_below o' k a b _ _ O' G Sf).
    + assert (S : is_minkowski o k a b (f a b)).
      { destruct I as [I|[I|[I|[]]]]; injection I as <- <-; exact Sf. }
      apply (minkowski_decreasing o' o k a b); auto.
Qed.

(** The average minimum distances differ by at most EMD with any of these metrics. *)
Theorem C85_average_below : forall name n f k p q dmax fuel v plan j, pdd_like k p -> pdd_like k q ->
  named_metric n name = Done f -> (0 < n)%nat -> name <> "sqeuclidean"%string ->
  below_cap (length p) (length q) (fun _ _ => dmax) (row_metric f p q) -> (j < k)%nat ->
  EMD_with f fuel p q = Done (v, plan) ->
  Rabs (row_mean p j - row_mean q j) <= v + accuracy (length p) (length q) dmax.
Proof.
  intros name n f k p q dmax fuel v plan j P Q Hf Hn N M Hj E.
  pose proof (C85_named_metrics k name n f Hf Hn N) as MO.
  destruct (C85_near_exact f k p q dmax fuel v plan P Q (metric_nonneg k f MO) M E) as [_ (Y & C & H)].
  eapply Rle_trans; [apply (C30_average_below_any_plan k p q (mx (dm p q)) Y j); auto; try (apply pl_cols; auto); now apply dm_dist|].
  eapply Rle_trans; [|exact H]. apply Sum_le. intros i Hi. apply Sum_le. intros l Hl.
  apply Rmult_le_compat_r; [apply (proj1 C); auto|].
  pose proof (dm_dist k p q P Q i l Hi Hl) as D.
  assert (Lu : length (tl (nth i p [])) = k) by (apply (tl_len k _ p P); now apply nth_In).
  assert (Lv : length (tl (nth l q [])) = k) by (apply (tl_len k _ q Q); now apply nth_In).
  pose proof (C85_named k name n f Hf Hn _ _ Lu Lv) as S. unfold row_metric.
  unfold named_metric in Hf.
  destruct (String.eqb_spec name "chebyshev") as [->|N1]; [apply Req_le; exact (chebyshev_unique k _ _ _ _ D S)|].
  destruct (String.eqb_spec name "cityblock") as [->|N2]; [exact (chebyshev_below 1 k _ _ _ _ ltac:(lia) S D)|].
  destruct (String.eqb_spec name "euclidean") as [->|N3]; [exact (chebyshev_below 2 k _ _ _ _ ltac:(lia) S D)|].
  destruct (String.eqb_spec name "sqeuclidean") as [->|N4]; [congruence|].
  destruct (String.eqb_spec name "minkowski") as [->|N5]; [exact (chebyshev_below n k _ _ _ _ Hn S D)|discriminate].
Qed.

(** The default is the EMD of C25 to C33. *)
Lemma default_is_EMD : forall n fuel p q, EMD_named "chebyshev" n fuel p q = EMD fuel p q.
Proof. reflexivity. Qed.

(** With sqeuclidean the result is no metric: three PDDs of one row. *)
Lemma one_pdd : forall x, pdd_like 1 [[1; x]].
Proof.
  intros x. constructor; [discriminate|repeat constructor| |].
  - constructor; [cbn [nth]; lra|constructor].
  - unfold mx. cbn [length Sum nth]. lra.
Qed.

Lemma one_value : forall f x y dmax fuel v plan, nonneg_on 1 f -> f [x] [y] <= dmax ->
  EMD_with f fuel [[1; x]] [[1; y]] = Done (v, plan) -> Rabs (v - f [x] [y]) <= accuracy 1 1 dmax.
Proof.
  intros f x y dmax fuel v plan F M E.
  assert (B : below_cap 1 1 (fun _ _ => dmax) (row_metric f [[1; x]] [[1; y]])).
  { intros i j Hi Hj. replace i with 0%nat by lia. replace j with 0%nat by lia. exact M. }
  destruct (C85_near_exact f 1 _ _ dmax fuel v plan (one_pdd x) (one_pdd y) F B E) as [H1 (Y & C & H2)].
  cbn [length] in *.
  assert (V : forall Z, coupling 1 1 (fun i => mx [[1; x]] i 0) (fun j => mx [[1; y]] j 0) Z ->
    transport_cost 1 1 (row_metric f [[1; x]] [[1; y]]) Z = f [x] [y]).
  { intros Z (_ & HZ & _). specialize (HZ 0%nat ltac:(lia)). unfold row_total, mx in HZ. cbn [Sum nth] in HZ.
    unfold transport_cost, row_metric. cbn [Sum nth tl]. replace (Z 0%nat 0%nat) with 1 by lra. ring. }
  specialize (H1 Y C). rewrite (V Y C) in *. unfold Rabs. destruct (Rcase_abs (v - f [x] [y])); lra.
Qed.

Theorem C85_sqeuclidean : exists f p q r v12 v23 v13 t12 t23 t13 fuel, named_metric 2 "sqeuclidean" = Done f /\
  pdd_like 1 p /\ pdd_like 1 q /\ pdd_like 1 r /\
  EMD_with f fuel p q = Done (v12, t12) /\ EMD_with f fuel q r = Done (v23, t23) /\ EMD_with f fuel p r = Done (v13, t13) /\
  v12 + v23 + 1 < v13.
Proof.
  assert (F : nonneg_on 1 sqeuclidean) by (intros u v Hu Hv; now apply (power_sum_pos 2 1)).
  assert (S : forall x y, sqeuclidean [x] [y] = (x - y) * (x - y)).
  { intros x y. unfold sqeuclidean, power_sum. cbn [combine map fold_left fst snd]. rewrite pow2_abs. ring. }
  destruct (C85_returns sqeuclidean 1 _ _ (one_pdd 0) (one_pdd 1) F) as (v12 & t12 & n12 & E12).
  destruct (C85_returns sqeuclidean 1 _ _ (one_pdd 1) (one_pdd 2) F) as (v23 & t23 & n23 & E23).
  destruct (C85_returns sqeuclidean 1 _ _ (one_pdd 0) (one_pdd 2) F) as (v13 & t13 & n13 & E13).
  set (n := (n12 + n23 + n13)%nat).
  specialize (E12 n ltac:(lia)). specialize (E23 n ltac:(lia)). specialize (E13 n ltac:(lia)).
  exists sqeuclidean, [[1; 0]], [[1; 1]], [[1; 2]], v12, v23, v13, t12, t23, t13, n.
  split; [reflexivity|]. split; [apply one_pdd|]. split; [apply one_pdd|]. split; [apply one_pdd|].
  split; [exact E12|]. split; [exact E23|]. split; [exact E13|].
  pose proof (one_value sqeuclidean 0 1 4 _ _ _ F ltac:(rewrite S; lra) E12) as A12. rewrite S in A12.
  pose proof (one_value sqeuclidean 1 2 4 _ _ _ F ltac:(rewrite S; lra) E23) as A23. rewrite S in A23.
  pose proof (one_value sqeuclidean 0 2 4 _ _ _ F ltac:(rewrite S; lra) E13) as A13. rewrite S in A13.
  assert (AC : accuracy 1 1 4 = 21 / 100000000) by (unfold accuracy; cbn [Nat.max INR]; lra).
  rewrite AC in *. unfold Rabs in *.
  destruct (Rcase_abs (v12 - _)); destruct (Rcase_abs (v23 - _)); destruct (Rcase_abs (v13 - _)); lra.
Qed.

(** A case: two PDDs of two rows and three rows with two columns of distances, and the Euclidean
    metric. *)
Definition pdd_a : list (list R) := [[1/2; 1; 2]; [1/2; 1; 3]].
Definition pdd_b : list (list R) := [[1/4; 1; 2]; [1/4; 2; 2]; [1/2; 4; 6]].
Lemma pdd_a_ok : pdd_like 2 pdd_a.
Proof.
  constructor; [discriminate|repeat constructor| |].
  - repeat (constructor; [cbn [nth]; lra|]). constructor.
  - unfold mx. cbn [length pdd_a Sum nth]. lra.
Qed.
Lemma pdd_b_ok : pdd_like 2 pdd_b.
Proof.
  constructor; [discriminate|repeat constructor| |].
  - repeat (constructor; [cbn [nth]; lra|]). constructor.
  - unfold mx. cbn [length pdd_b Sum nth]. lra.
Qed.
Example C85_case : pdd_like 2 pdd_a /\ pdd_like 2 pdd_b /\ named_metric 2 "euclidean" = Done euclidean /\
  metric_on 2 euclidean /\ below_cap 2 3 (fun _ _ => 5) (row_metric euclidean pdd_a pdd_b) /\
  row_metric euclidean pdd_a pdd_b 0 2 = 5 /\ row_metric cityblock pdd_a pdd_b 0 2 = 7 /\ row_metric (fun u v => cheb u v) pdd_a pdd_b 0 2 = 4 /\
  exists v plan fuel, EMD_with euclidean fuel pdd_a pdd_b = Done (v, plan).
Proof.
  assert (MO : metric_on 2 euclidean) by (now apply (C85_named_metrics 2 "euclidean" 2); [|lia|]).
  assert (SQ : forall a b c d, euclidean [a; b] [c; d] = sqrt ((a - c) * (a - c) + (b - d) * (b - d))).
  { intros. unfold euclidean, power_sum. cbn [combine map fold_left fst snd]. rewrite !pow2_abs. f_equal. ring. }
  split; [exact pdd_a_ok|]. split; [exact pdd_b_ok|]. split; [reflexivity|]. split; [exact MO|]. split; [|split; [|split; [|split]]].
  - assert (S5 : sqrt 25 = 5) by (replace 25 with (5 * 5) by ring; apply sqrt_square; lra).
    intros [|[|i]] [|[|[|j]]] Hi Hj; try lia; unfold row_metric, pdd_a, pdd_b; cbn [nth tl]; rewrite SQ, <- S5; apply sqrt_le_1_alt; lra.
  - unfold row_metric, pdd_a, pdd_b. cbn [nth tl]. rewrite SQ. replace (_ + _) with (5 * 5) by ring. apply sqrt_square. lra.
  - unfold row_metric, pdd_a, pdd_b, cityblock, power_sum. cbn [nth tl combine map fold_left fst snd]. rewrite !pow_1.
    rewrite !Rabs_left by lra. lra.
  - unfold row_metric, pdd_a, pdd_b. cbn [nth tl].
    apply (chebyshev_unique 2 [1; 2] [4; 6]); [now apply cheb_spec|]. split.
    + intros [|[|t]] Ht; try lia; cbn [nth]; rewrite Rabs_left by lra; lra.
    + right. exists 1%nat. split; [lia|]. cbn [nth]. rewrite Rabs_left by lra. lra.
  - destruct (C85_returns euclidean 2 pdd_a pdd_b pdd_a_ok pdd_b_ok (metric_nonneg _ _ MO)) as (v & plan & n & E).
    exists v, plan, n. apply E. lia.
Qed.

Print Assumptions C85_returns.
Print Assumptions C85_near_exact.
Print Assumptions C85_columns.
Print Assumptions C85_same_rows.
Print Assumptions C85_symmetric.
Print Assumptions C85_triangle.
Print Assumptions C85_named.
Print Assumptions C85_names.
Print Assumptions C85_named_metrics.
Print Assumptions C85_monotone.
Print Assumptions C85_orders.
Print Assumptions C85_average_below.
Print Assumptions C85_sqeuclidean.
