(** Properties C25 to C33: the Earth mover's distance. *)
From Coq Require Import List ZArith Arith Bool Reals Lia Lra Permutation FinFun Sorted.
From Verif Require Import Num Outcome Base NNModel CalcModel EmdModel VecR Sums SpecEmd EmdInit EmdMain EmdReal EmdRun
  Transport EmdThm EmdSym EmdTop EmdEval.
Import ListNotations.
Open Scope R_scope.

Lemma thirds_dist : forall x y z, exists d, row_distance 1 (thirds x y z) halves d.
Proof. intros. eexists. apply (dm_dist 1 _ _ (thirds_pdd x y z) halves_pdd). Qed.

(** ** C25 *)
(** Supplies, demands, integer costs and capacities the solver works with. *)
Definition supplies (w1 w2 : list R) : list Z := fst (balance (map to_fp w1) (map to_fp w2)).
Definition demands (w1 w2 : list R) : list Z := snd (balance (map to_fp w1) (map to_fp w2)).
Definition solver_state (w1 w2 : list R) (c : list (list R)) : state -> Prop :=
  reachable (supplies w1 w2) (demands w1 w2) (map to_fp (concat c)) (int_caps w1 w2).
Definition solver_step (w1 w2 : list R) (c : list (list R)) : state -> outcome (option state) :=
  pivot (make_net (supplies w1 w2) (demands w1 w2) (map to_fp (concat c)) (int_caps w1 w2))
    (S (S (length (supplies w1 w2) + length (demands w1 w2)))).

(** In every state the solver comes to, the tables describe one spanning tree and the flow is
    conserved and within its bounds; the next pivot reads no array out of its bounds, raises
    nothing and needs no more than the number of nodes + 2 iterations in each inner loop. *)
Theorem C25_every_state : forall w1 w2 c st,
  weights w1 -> weights w2 -> cost_matrix (length w1) (length w2) c -> solver_state w1 w2 c st ->
  state_ok (supplies w1 w2) (demands w1 w2) (int_caps w1 w2) st /\
  (solver_step w1 w2 c st = Done None \/
   exists st', solver_step w1 w2 c st = Done (Some st') /\ solver_state w1 w2 c st').
Proof.
  intros w1 w2 c st W1 W2 C H. exact (reachable_ok _ _ _ _ (balanced_run w1 w2 c W1 W2 C) st H).
Qed.

Theorem C25_initial_state : forall w1 w2 c,
  solver_state w1 w2 c (init_state (supplies w1 w2) (demands w1 w2) (map to_fp (concat c)) (int_caps w1 w2)).
Proof. intros. apply EmdTerm.reach_refl. Qed.

(** So no call leaves the arrays or raises, whatever the number of pivots allowed. *)
Theorem C25_no_error : forall w1 w2 c fuel,
  weights w1 -> weights w2 -> cost_matrix (length w1) (length w2) c ->
  network_simplex fuel w1 w2 c = OutOfFuel \/ exists r, network_simplex fuel w1 w2 c = Done r.
Proof.
  intros w1 w2 c fuel W1 W2 C.
  assert (Q : forall f st, solver_state w1 w2 c st -> forall N, N = make_net (supplies w1 w2) (demands w1 w2) (map to_fp (concat c)) (int_caps w1 w2) ->
    pivots N f (S (S (length (supplies w1 w2) + length (demands w1 w2)))) st = OutOfFuel \/
    exists r, pivots N f (S (S (length (supplies w1 w2) + length (demands w1 w2)))) st = Done r).
  { induction f as [|f IH]; intros st H N E; [now left|]. cbn [pivots].
    destruct (C25_every_state w1 w2 c st W1 W2 C H) as [_ [K|(st' & K & H')]];
      unfold solver_step in K; rewrite <- E in K; rewrite K; cbn [obind]; [right; eauto|]. now apply IH. }
  unfold network_simplex. pose proof (Q fuel _ (C25_initial_state w1 w2 c) _ eq_refl) as Q'. unfold supplies, demands in *.
  destruct (balance _ _) as [src snk]. cbn [fst snd] in Q'. unfold simplex.
  destruct Q' as [-> | (r & ->)]; cbn [obind]; [now left|right; eauto].
Qed.

Example C25_case : weights [1/3; 1/3; 1/3] /\ weights [1/2; 1/2] /\ cost_matrix 3 2 [[0; 1]; [0; 1]; [1; 0]].
Proof.
  split; [|split].
  - exact (weights_weights 1 _ (thirds_pdd 0 0 1)).
  - exact (weights_weights 1 _ halves_pdd).
  - constructor; [reflexivity|repeat constructor|]. intros [|[|[|i]]] [|[|j]] H1 H2; try lia; cbn; lra.
Qed.

(** ** C26 *)
Lemma EMD_facts : forall k p q d fuel v plan, pdd_like k p -> pdd_like k q -> row_distance k p q d ->
  EMD fuel p q = Done (v, plan) -> exists X,
    length plan = length p /\ Forall (fun r => length r = length q) plan /\
    (forall i j, (i < length p)%nat -> (j < length q)%nat -> mx plan i j = planR X i j) /\
    v = transport_cost (length p) (length q) (fun i j => of_fp (to_fp (d i j))) (planR X) /\
    run (weights_of p) (weights_of q) d X /\ weights (weights_of p) /\ weights (weights_of q).
Proof.
  intros k p q d fuel v plan P Q D E. destruct (EMD_done k p q P Q d D fuel v plan E) as (X & H1 & H2 & H3 & H4 & H5).
  exists X. repeat (split; [assumption|]). split; eapply weights_weights; eauto.
Qed.

Lemma gap_small : forall w w', weights w -> weights w' -> IZR (gap w w') / 100000000 <= INR (length w - 1) / 100000000.
Proof.
  intros w w' W W'. pose proof (gap_lt w w' W W') as G. pose proof (weights_pos w W).
  assert (IZR (gap w w') <= INR (length w - 1)) by (rewrite INR_IZR_INZ; apply IZR_le; lia). lra.
Qed.

(** Entries are at least 0 and at most both weights; rows and columns ship at most their weights,
    except that one row or one column may ship up to (number of rows - 1) * 1e-8 more; less than
    max(number of rows) * 1e-8 is left. *)
Theorem C26_plan : forall k p q fuel v plan, pdd_like k p -> pdd_like k q -> EMD fuel p q = Done (v, plan) ->
  length plan = length p /\ Forall (fun r => length r = length q) plan /\
  (forall i j, (i < length p)%nat -> (j < length q)%nat -> 0 <= mx plan i j <= Rmin (mx p i 0) (mx q j 0)) /\
  (exists i0 j0 dp dq,
    0 <= dp <= INR (length p - 1) / 100000000 /\ 0 <= dq <= INR (length q - 1) / 100000000 /\ (dp = 0 \/ dq = 0) /\
    (forall i, (i < length p)%nat -> row_total (length q) (mx plan) i <= mx p i 0 + (if Nat.eqb i i0 then dp else 0)) /\
    (forall j, (j < length q)%nat -> col_total (length p) (mx plan) j <= mx q j 0 + (if Nat.eqb j j0 then dq else 0))) /\
  1 - INR (Nat.max (length p) (length q)) / 100000000 < mass (length p) (length q) (mx plan).
Proof.
  intros k p q fuel v plan P Q E.
  destruct (EMD_facts k p q _ fuel v plan P Q (dm_dist k p q P Q) E) as (X & L1 & L2 & HX & _ & R & W1 & W2).
  pose proof (plan_entry _ _ W1 W2 _ X R) as N. pose proof (plan_row _ _ W1 _ X R) as RR.
  pose proof (plan_col _ _ W2 _ X R) as RC. pose proof (plan_mass _ _ W1 W2 _ X R) as M.
  rewrite !weights_len in *. split; [auto|]. split; [auto|]. split; [|split].
  - intros i j Hi Hj. rewrite HX, <- (weights_vx p i Hi), <- (weights_vx q j Hj) by auto. auto.
  - exists (top (weights_of p)), (top (weights_of q)), (IZR (gap (weights_of p) (weights_of q)) / 100000000),
      (IZR (gap (weights_of q) (weights_of p)) / 100000000).
    pose proof (gap_small _ _ W1 W2) as S1. pose proof (gap_small _ _ W2 W1) as S2. rewrite !weights_len in *.
    assert (G1 : 0 <= IZR (gap (weights_of p) (weights_of q))) by (apply IZR_le; unfold gap; lia).
    assert (G2 : 0 <= IZR (gap (weights_of q) (weights_of p))) by (apply IZR_le; unfold gap; lia).
    split; [lra|]. split; [lra|]. split; [|split].
    + assert (gap (weights_of p) (weights_of q) = 0%Z \/ gap (weights_of q) (weights_of p) = 0%Z) as [-> | ->]
        by (unfold gap; lia); [left|right]; unfold Rdiv; apply Rmult_0_l.
    + intros i Hi. rewrite <- (weights_vx p i Hi). eapply Rle_trans; [|apply RR; auto].
      apply Req_le. apply Sum_ext. auto.
    + intros j Hj. rewrite <- (weights_vx q j Hj). eapply Rle_trans; [|apply RC; auto].
      apply Req_le. apply Sum_ext. auto.
  - eapply Rlt_le_trans; [apply M|]. apply Req_le. apply Sum_ext. intros i Hi. apply Sum_ext. intros j Hj. symmetry. auto.
Qed.

(** ** C27 *)
(** Among all plans with the row and column totals of the returned one and the capacities used,
    none is cheaper, at the costs used. *)
Theorem C27_fixed_point_optimal : forall k p q d fuel v plan,
  pdd_like k p -> pdd_like k q -> row_distance k p q d -> EMD fuel p q = Done (v, plan) ->
  v = transport_cost (length p) (length q) (fun i j => round8 (d i j)) (mx plan) /\
  below_cap (length p) (length q) (fun i j => round8 (Rmin (mx p i 0) (mx q j 0))) (mx plan) /\
  forall Y, nonneg (length p) (length q) Y ->
    below_cap (length p) (length q) (fun i j => round8 (Rmin (mx p i 0) (mx q j 0))) Y ->
    (forall i, (i < length p)%nat -> row_total (length q) Y i = row_total (length q) (mx plan) i) ->
    (forall j, (j < length q)%nat -> col_total (length p) Y j = col_total (length p) (mx plan) j) ->
    v <= transport_cost (length p) (length q) (fun i j => round8 (d i j)) Y.
Proof.
  intros k p q d fuel v plan P Q D E.
  destruct (EMD_facts k p q d fuel v plan P Q D E) as (X & L1 & L2 & HX & V & R & W1 & W2).
  assert (R8 : forall x, 0 <= x -> of_fp (to_fp x) = round8 x).
  { intros x Hx. unfold of_fp, round8, to_fp, trunc, fp_multiplier. destruct (Rle_dec 0 (x * 100000000)); [reflexivity|]. lra. }
  assert (DP := d_pos k p q d D).
  assert (CE : forall Y, transport_cost (length p) (length q) (fun i j => of_fp (to_fp (d i j))) Y =
                         transport_cost (length p) (length q) (fun i j => round8 (d i j)) Y).
  { intros Y. apply Sum_ext. intros i Hi. apply Sum_ext. intros j Hj. now rewrite R8 by auto. }
  assert (CAP : forall i j, (i < length p)%nat -> (j < length q)%nat ->
    of_fp (to_fp (Rmin (vx (weights_of p) i) (vx (weights_of q) j))) = round8 (Rmin (mx p i 0) (mx q j 0))).
  { intros i j Hi Hj. rewrite !weights_vx by auto. apply R8. apply Rmin_glb; rewrite <- weights_vx by auto.
    - pose proof (vx_min _ i W1) as B. rewrite weights_len in B. specialize (B Hi). lra.
    - pose proof (vx_min _ j W2) as B. rewrite weights_len in B. specialize (B Hj). lra. }
  split; [|split].
  - rewrite V, CE. apply Sum_ext. intros i Hi. apply Sum_ext. intros j Hj. now rewrite HX by auto.
  - intros i j Hi Hj. rewrite HX, <- CAP by auto. unfold planR, of_fp, fp_multiplier.
    pose proof (X_range _ _ _ _ R i j) as B. rewrite !weights_len in B. destruct (B Hi Hj) as [_ B'].
    rewrite !iw_eq in B'.
    pose proof (vx_min _ i W1) as B1. pose proof (vx_min _ j W2) as B2. rewrite weights_len in B1, B2. specialize (B1 Hi). specialize (B2 Hj).
    rewrite <- to_fp_min in B' by lra. apply IZR_le in B'. lra.
  - intros Y N C RT CT. rewrite V, <- CE.
    pose proof (value_optimal _ _ W1 W2 d X R Y) as O. rewrite !weights_len in O. apply O; auto.
    + intros i j Hi Hj. rewrite CAP by auto. auto.
    + intros i Hi. rewrite RT by auto. apply Sum_ext. auto.
    + intros j Hj. rewrite CT by auto. apply Sum_ext. auto.
Qed.

(** The returned value is within (1 + 5 * rows * greatest distance) * 1e-8 of the exact Earth
    mover's distance. *)
Theorem C27_near_exact : forall k p q d dmax fuel v plan,
  pdd_like k p -> pdd_like k q -> row_distance k p q d -> below_cap (length p) (length q) (fun _ _ => dmax) d ->
  EMD fuel p q = Done (v, plan) ->
  emd_within (length p) (length q) (fun i => mx p i 0) (fun j => mx q j 0) d (accuracy (length p) (length q) dmax) v.
Proof.
  intros k p q d dmax fuel v plan P Q D M E.
  destruct (EMD_facts k p q d fuel v plan P Q D E) as (X & L1 & L2 & HX & V & R & W1 & W2).
  pose proof (value_within _ _ W1 W2 d X R) as B. rewrite !weights_len in B.
  specialize (B (d_pos k p q d D) dmax M). rewrite <- V in B. fold (accuracy (length p) (length q) dmax) in B.
  assert (CP : forall Y, coupling (length p) (length q) (fun i => mx p i 0) (fun j => mx q j 0) Y <->
                         coupling (length p) (length q) (vx (weights_of p)) (vx (weights_of q)) Y).
  { intros Y. unfold coupling. split; intros (H1 & H2 & H3); (split; [exact H1|split]); intros t Ht;
      rewrite ?weights_vx by auto; [rewrite H2|rewrite H3|rewrite H2|rewrite H3]; auto using weights_vx. }
  destruct B as [B1 (Y & B2 & B3)]. split.
  - intros Z HZ. apply B1, CP, HZ.
  - exists Y. split; [now apply CP|auto].
Qed.

(** ** C28 *)
Lemma perm_index : forall (p p' : list (list R)), Permutation p p' -> length p' = length p /\ exists f,
  bFun (length p) f /\ bInjective (length p) f /\ (forall i, (i < length p)%nat -> nth i p' [] = nth (f i) p []).
Proof. intros p p' H. apply (Permutation_nth p p' []) in H. exact H. Qed.

Lemma perm_weights : forall p p' f, length p' = length p -> bFun (length p) f ->
  (forall i, (i < length p)%nat -> nth i p' [] = nth (f i) p []) ->
  forall i, (i < length (weights_of p))%nat -> vx (weights_of p') i = vx (weights_of p) (f i).
Proof.
  intros p p' f Hl Hf H i Hi. rewrite weights_len in Hi. rewrite !weights_vx; auto; [|lia]. unfold mx. now rewrite H.
Qed.

Theorem C28_rows_of_one_pdd : forall k p p' fuel v plan,
  pdd_like k p -> pdd_like k p' -> Permutation p p' -> EMD fuel p p' = Done (v, plan) -> v = 0.
Proof.
  intros k p p' fuel v plan P P' HP E. destruct (perm_index p p' HP) as (Hl & f & Hf & Hi & Hn).
  pose proof (dm_dist k p p' P P') as D.
  destruct (EMD_facts k p p' _ fuel v plan P P' D E) as (X & L1 & L2 & HX & V & R & W1 & W2).
  rewrite V, value_cost, Hl.
  assert (Z0 : int_cost (length (weights_of p)) (length (weights_of p')) (mx (dm p p')) X = 0%Z).
  { apply (value_zero (weights_of p) (weights_of p') f _); auto; rewrite ?weights_len; auto.
    - intros i H. apply (perm_weights p p' f); auto. now rewrite weights_len.
    - intros i j H1 H2. apply (d_pos k p p' _ D); auto. now rewrite Hl.
    - intros i H. pose proof (D (f i) i (Hf i H) ltac:(lia)) as C. rewrite Hn in C by auto.
      apply (chebyshev_unique k _ _ _ _ C). split.
      + intros t Ht. rewrite Rminus_diag_eq by reflexivity. rewrite Rabs_R0. lra.
      + now left. }
  rewrite !weights_len, Hl in Z0. rewrite Z0. unfold Rdiv. apply Rmult_0_l.
Qed.

Theorem C28_same_pdd : forall k p, pdd_like k p -> exists plan F, forall fuel, (F <= fuel)%nat -> EMD fuel p p = Done (0, plan).
Proof.
  intros k p P. destruct (EMD_returns k p p P P) as (v & plan & F & H). exists plan, F. intros fuel Hf.
  rewrite (H fuel Hf). f_equal. f_equal. exact (C28_rows_of_one_pdd k p p F v plan P P (Permutation_refl p) (H F (le_n F))).
Qed.

Example C28_case : Permutation (thirds 0 0 1) (thirds 1 0 0).
Proof. unfold thirds. apply perm_trans with ([1/3; 0] :: [1/3; 1] :: [[1/3; 0]]); [apply perm_skip, perm_swap|apply perm_swap]. Qed.

(** ** C29 *)
Lemma chebyshev_sym : forall k u v d, is_chebyshev k u v d -> is_chebyshev k v u d.
Proof.
  intros k u v d [H1 H2]. split.
  - intros t Ht. rewrite Rabs_minus_sym. auto.
  - destruct H2 as [H2|(t & Ht & ->)]; [now left|]. right. exists t. split; auto. apply Rabs_minus_sym.
Qed.

Lemma row_distance_sym : forall k p q d, row_distance k p q d -> row_distance k q p (fun j i => d i j).
Proof. intros k p q d H j i Hj Hi. apply chebyshev_sym. auto. Qed.

Lemma int_cost_flip : forall n1 n2 c X, int_cost n1 n2 c X = int_cost n2 n1 (fun j i => c i j) (fun j i => X i j).
Proof. intros. unfold int_cost. apply ZSum_swap. Qed.

Theorem C29_symmetric_partial : forall k p q fuel fuel' v v' plan plan',
  pdd_like k p -> pdd_like k q -> (Z.of_nat (length p) <= 10000)%Z -> (Z.of_nat (length q) <= 10000)%Z ->
  EMD fuel p q = Done (v, plan) -> EMD fuel' q p = Done (v', plan') -> v = v'.
Proof.
  intros k p q fuel fuel' v v' plan plan' P Q Lp Lq E E'. pose proof (dm_dist k p q P Q) as D.
  destruct (EMD_facts k p q _ fuel v plan P Q D E) as (X & _ & _ & _ & V & R & W1 & W2).
  destruct (EMD_facts k q p _ fuel' v' plan' Q P (row_distance_sym _ _ _ _ D) E') as (X' & _ & _ & _ & V' & R' & _ & _).
  apply run_flip in R'. cbv beta in R'. rewrite V, V', !value_cost. f_equal. f_equal.
  rewrite (int_cost_flip (length q) (length p)). rewrite <- (weights_len p), <- (weights_len q).
  apply run_unique; auto; rewrite weights_len; auto.
Qed.

Lemma within_flip : forall n1 n2 a b c eps v, emd_within n1 n2 a b c eps v -> emd_within n2 n1 b a (fun j i => c i j) eps v.
Proof.
  intros n1 n2 a b c eps v [H1 (Y & H2 & H3)]. split.
  - intros Y' HY'. pose proof (H1 (fun i j => Y' j i)) as H. eapply Rle_trans; [apply H|].
    + destruct HY' as (A1 & A2 & A3). split; [|split]; auto. intros i j Hi Hj. auto.
    + apply Rplus_le_compat_r. apply Req_le. unfold transport_cost.
      rewrite (Sum_swap n1 n2 (fun i j => c i j * Y' j i)). reflexivity.
  - exists (fun j i => Y i j). split.
    + destruct H2 as (A1 & A2 & A3). split; [|split]; auto. intros i j Hi Hj. auto.
    + eapply Rle_trans; [|exact H3]. apply Req_le. unfold transport_cost.
      rewrite (Sum_swap n2 n1 (fun j i => c i j * Y i j)). reflexivity.
Qed.

(** Without a bound on the numbers of rows, within twice the accuracy. *)
Theorem C29_symmetric_close : forall k p q d dmax fuel fuel' v v' plan plan',
  pdd_like k p -> pdd_like k q -> row_distance k p q d -> below_cap (length p) (length q) (fun _ _ => dmax) d ->
  EMD fuel p q = Done (v, plan) -> EMD fuel' q p = Done (v', plan') ->
  Rabs (v - v') <= 2 * accuracy (length p) (length q) dmax.
Proof.
  intros k p q d dmax fuel fuel' v v' plan plan' P Q D M E E'.
  pose proof (C27_near_exact k p q d dmax fuel v plan P Q D M E) as H1.
  pose proof (C27_near_exact k q p _ dmax fuel' v' plan' Q P (row_distance_sym _ _ _ _ D) (fun j i Hj Hi => M i j Hi Hj) E') as H2.
  apply within_flip in H2. pose proof (within_unique _ _ _ _ _ _ _ _ _ H1 H2) as B.
  unfold accuracy in *. rewrite (Nat.max_comm (length q)) in B. lra.
Qed.

(** ** C30 *)
(** The difference of the weighted averages is at most the cost of any transport plan, hence at
    most the exact distance. *)
Theorem C30_average_below_any_plan : forall k p q d Y j,
  Forall (fun r => length r = S k) p -> Forall (fun r => length r = S k) q -> row_distance k p q d -> (j < k)%nat ->
  coupling (length p) (length q) (fun i => mx p i 0) (fun i => mx q i 0) Y ->
  Rabs (row_mean p j - row_mean q j) <= transport_cost (length p) (length q) d Y.
Proof.
  intros k p q d Y j Cp Cq D Hj C. unfold row_mean.
  apply (average_bound (length p) (length q) (fun i => mx p i 0) (fun i => mx q i 0) d Y
    (fun i => mx p i (S j)) (fun i => mx q i (S j)) C).
  intros i i' Hi Hi'. destruct (D i i' Hi Hi') as [H _]. specialize (H j Hj). unfold mx.
  destruct (nth i p []) as [|a u] eqn:E1.
  { rewrite Forall_forall in Cp. assert (In [] p) as HIn by (rewrite <- E1; now apply nth_In). apply Cp in HIn. discriminate. }
  destruct (nth i' q []) as [|b w] eqn:E2.
  { rewrite Forall_forall in Cq. assert (In [] q) as HIn by (rewrite <- E2; now apply nth_In). apply Cq in HIn. discriminate. }
  exact H.
Qed.

Theorem C30_average_below_value : forall k p q d dmax fuel v plan j,
  pdd_like k p -> pdd_like k q -> row_distance k p q d -> below_cap (length p) (length q) (fun _ _ => dmax) d ->
  (j < k)%nat -> EMD fuel p q = Done (v, plan) ->
  Rabs (row_mean p j - row_mean q j) <= v + accuracy (length p) (length q) dmax.
Proof.
  intros k p q d dmax fuel v plan j P Q D M Hj E.
  destruct (C27_near_exact k p q d dmax fuel v plan P Q D M E) as [_ (Y & C & H)].
  eapply Rle_trans; [|exact H]. apply (C30_average_below_any_plan k); auto; apply pl_cols; auto.
Qed.

(** ** C31 *)
Lemma chebyshev_triangle : forall k u v w a b c, is_chebyshev k u v a -> is_chebyshev k v w b -> is_chebyshev k u w c -> c <= a + b.
Proof.
  intros k u v w a b c Ha Hb [_ [->|(t & Ht & ->)]].
  - pose proof (chebyshev_pos k u v a Ha). pose proof (chebyshev_pos k v w b Hb). lra.
  - destruct Ha as [Ha _], Hb as [Hb _]. specialize (Ha t Ht). specialize (Hb t Ht).
    replace (nth t u 0 - nth t w 0) with ((nth t u 0 - nth t v 0) + (nth t v 0 - nth t w 0)) by ring.
    eapply Rle_trans; [apply Rabs_triang|]. lra.
Qed.

(** Exactly, for costs with the triangle inequality. *)
Theorem C31_exact : forall n1 n2 n3 a b c d12 d23 d13 e12 e23 e13 v12 v23 v13,
  (forall j, (j < n2)%nat -> 0 < b j) ->
  (forall i j l, (i < n1)%nat -> (j < n2)%nat -> (l < n3)%nat -> d13 i l <= d12 i j + d23 j l) ->
  emd_within n1 n2 a b d12 e12 v12 -> emd_within n2 n3 b c d23 e23 v23 -> emd_within n1 n3 a c d13 e13 v13 ->
  v13 <= v12 + v23 + (e12 + e23 + e13).
Proof.
  intros n1 n2 n3 a b c d12 d23 d13 e12 e23 e13 v12 v23 v13 B T [_ (P & CP & HP)] [_ (Q & CQ & HQ)] [H13 _].
  destruct (glue n1 n2 n3 a b c d12 d23 d13 P Q CP CQ B T) as (S & CS & HS). specialize (H13 S CS). lra.
Qed.

Theorem C31_triangle : forall k p q r d12 d23 d13 dmax f12 f23 f13 v12 v23 v13 t12 t23 t13,
  pdd_like k p -> pdd_like k q -> pdd_like k r ->
  row_distance k p q d12 -> row_distance k q r d23 -> row_distance k p r d13 ->
  below_cap (length p) (length q) (fun _ _ => dmax) d12 -> below_cap (length q) (length r) (fun _ _ => dmax) d23 ->
  below_cap (length p) (length r) (fun _ _ => dmax) d13 ->
  EMD f12 p q = Done (v12, t12) -> EMD f23 q r = Done (v23, t23) -> EMD f13 p r = Done (v13, t13) ->
  v13 <= v12 + v23 + (accuracy (length p) (length q) dmax + accuracy (length q) (length r) dmax + accuracy (length p) (length r) dmax).
Proof.
  intros k p q r d12 d23 d13 dmax f12 f23 f13 v12 v23 v13 t12 t23 t13 P Q R D12 D23 D13 M12 M23 M13 E12 E23 E13.
  pose proof (C27_near_exact _ _ _ _ _ _ _ _ P Q D12 M12 E12) as H12.
  pose proof (C27_near_exact _ _ _ _ _ _ _ _ Q R D23 M23 E23) as H23.
  pose proof (C27_near_exact _ _ _ _ _ _ _ _ P R D13 M13 E13) as H13.
  apply (C31_exact (length p) (length q) (length r) _ _ _ d12 d23 d13 _ _ _ _ _ _ ) with (4 := H23) (3 := H12) (5 := H13).
  - intros j Hj. rewrite <- (weights_vx q j Hj). pose proof (vx_min (weights_of q) j (weights_weights k q Q)) as B.
    rewrite weights_len in B. specialize (B Hj). lra.
  - intros i j l Hi Hj Hl. eapply chebyshev_triangle; [apply D12|apply D23|apply D13]; auto.
Qed.

(** ** C32 *)
Theorem C32_returns : forall k p q, pdd_like k p -> pdd_like k q ->
  exists v plan F, forall fuel, (F <= fuel)%nat -> EMD fuel p q = Done (v, plan).
Proof. exact EMD_returns. Qed.

(** The solver itself: a bound on the number of pivots. *)
Theorem C32_solver_returns : forall w1 w2 c, weights w1 -> weights w2 -> cost_matrix (length w1) (length w2) c ->
  exists r, forall fuel, (run_bound w1 w2 c < Z.of_nat fuel)%Z -> network_simplex fuel w1 w2 c = Done r.
Proof.
  intros w1 w2 c W1 W2 C. set (F := Z.to_nat (Z.max 0 (run_bound w1 w2 c) + 1)).
  destruct (network_simplex_run w1 w2 c W1 W2 C F ltac:(lia)) as (v & plan & X & E & _). exists (v, plan). intros fuel Hf.
  destruct (network_simplex_run w1 w2 c W1 W2 C fuel Hf) as (v' & plan' & X' & E' & _). rewrite E'.
  destruct (Nat.le_ge_cases F fuel) as [L|L].
  - pose proof (network_simplex_mono F (fuel - F) w1 w2 c _ E) as E2. replace (F + (fuel - F))%nat with fuel in E2 by lia. congruence.
  - pose proof (network_simplex_mono fuel (F - fuel) w1 w2 c _ E') as E2. replace (fuel + (F - fuel))%nat with F in E2 by lia. congruence.
Qed.

(** Weights below 1e-8 are rounded to 0, and then the solver can go on for ever. *)
Theorem C32_tiny_weights_refuted : exists k p q,
  Forall (fun r => length r = S k /\ 0 < nth 0 r 0 /\ Forall (fun x => 0 <= x) r /\ StronglySorted Rle (tl r)) p /\
  Forall (fun r => length r = S k /\ 0 < nth 0 r 0 /\ Forall (fun x => 0 <= x) r /\ StronglySorted Rle (tl r)) q /\
  Sum (length p) (fun i => mx p i 0) = 1 /\ Sum (length q) (fun i => mx q i 0) = 1 /\
  forall fuel, EMD fuel p q = OutOfFuel.
Proof.
  exists 3%nat, tiny1, tiny2. split; [|split; [|split; [|split]]].
  - unfold tiny1. repeat (apply Forall_cons; [split; [reflexivity|split; [cbn [nth]; lra|split]]|]); try apply Forall_nil; cbn [tl];
      repeat (apply Forall_cons; [lra|]); try apply Forall_nil; repeat (apply SSorted_cons); try apply SSorted_nil;
      repeat (apply Forall_cons; [lra|]); apply Forall_nil.
  - unfold tiny2. repeat (apply Forall_cons; [split; [reflexivity|split; [cbn [nth]; lra|split]]|]); try apply Forall_nil; cbn [tl];
      repeat (apply Forall_cons; [lra|]); try apply Forall_nil; repeat (apply SSorted_cons); try apply SSorted_nil;
      repeat (apply Forall_cons; [lra|]); apply Forall_nil.
  - unfold mx, tiny1. cbn [length Sum nth]. lra.
  - unfold mx, tiny2. cbn [length Sum nth]. lra.
  - exact tiny_loops.
Qed.

(** ** C33 *)
Lemma round8_fp : forall x, 0 <= x -> round8 x = IZR (to_fp x) / 100000000.
Proof.
  intros x Hx. unfold round8, to_fp, trunc, fp_multiplier. destruct (Rle_dec 0 (x * 100000000)); [reflexivity|]. lra.
Qed.

Lemma round8_iw : forall k p i, pdd_like k p -> (i < length p)%nat -> round8 (mx p i 0) = IZR (iw (weights_of p) i) / 100000000.
Proof.
  intros k p i P Hi. rewrite iw_eq, weights_vx by auto. apply round8_fp.
  rewrite <- weights_vx by auto. pose proof (vx_min (weights_of p) i (weights_weights k p P)) as B.
  rewrite weights_len in B. specialize (B Hi). lra.
Qed.

(** The order of rows does not matter if the rounded weights of [p] sum to no less than those of
    [q], or one row of [p] has the greatest rounded weight. *)
Theorem C33_row_order_partial : forall k p p' q fuel fuel' v v' plan plan',
  pdd_like k p -> pdd_like k p' -> pdd_like k q -> Permutation p p' ->
  (Z.of_nat (length p) <= 10000)%Z -> (Z.of_nat (length q) <= 10000)%Z ->
  (Sum (length q) (fun j => round8 (mx q j 0)) <= Sum (length p) (fun i => round8 (mx p i 0)) \/
   exists m, (m < length p)%nat /\ forall i, (i < length p)%nat -> i <> m -> round8 (mx p i 0) < round8 (mx p m 0)) ->
  EMD fuel p q = Done (v, plan) -> EMD fuel' p' q = Done (v', plan') -> v = v'.
Proof.
  intros k p p' q fuel fuel' v v' plan plan' P P' Q HP Lp Lq HG E E'.
  destruct (perm_index p p' HP) as (Hl & f & Hf & Hi & Hn). pose proof (dm_dist k p q P Q) as D.
  assert (D' : row_distance k p' q (fun i j => mx (dm p q) (f i) j)).
  { intros i j H1 H2. rewrite Hl in H1. rewrite Hn by auto. apply D; auto. }
  destruct (EMD_facts k p q _ fuel v plan P Q D E) as (X & _ & _ & _ & V & R & W1 & W2).
  destruct (EMD_facts k p' q _ fuel' v' plan' P' Q D' E') as (X' & _ & _ & _ & V' & R' & W1' & _).
  pose proof (perm_weights p p' f Hl Hf Hn) as PW.
  destruct (run_perm (weights_of p) (weights_of p') (weights_of q) f ltac:(now rewrite !weights_len)
    ltac:(now rewrite weights_len) ltac:(now rewrite weights_len) PW (mx (dm p q)) X' W1 W1') as (Y & RY & EY); auto.
  - destruct HG as [HG|(m & Hm & HG)].
    + left. unfold gap. rewrite !weights_len.
      rewrite (Sum_ext _ _ (fun j => IZR (iw (weights_of q) j) * / 100000000)) in HG
        by (intros; rewrite (round8_iw k) by auto; reflexivity).
      rewrite (Sum_ext (length p) _ (fun i => IZR (iw (weights_of p) i) * / 100000000)) in HG
        by (intros; rewrite (round8_iw k) by auto; reflexivity).
      rewrite !Sum_scal_r in HG. rewrite <- !IZR_ZSum in HG.
      assert (IZR (ZSum (length q) (fun j => iw (weights_of q) j)) <= IZR (ZSum (length p) (fun i => iw (weights_of p) i))) as HG'
        by (apply Rmult_le_reg_r with (/ 100000000); [lra|exact HG]).
      apply le_IZR in HG'. change (fun j => iw (weights_of q) j) with (iw (weights_of q)) in HG'.
      change (fun j => iw (weights_of p) j) with (iw (weights_of p)) in HG'. lia.
    + right.
      assert (U : forall i, (i < length p)%nat -> i <> m -> (iw (weights_of p) i < iw (weights_of p) m)%Z).
      { intros i H1 H2. specialize (HG i H1 H2). rewrite !(round8_iw k) in HG by auto. apply lt_IZR. lra. }
      assert (U2 : forall i, (i < length p)%nat -> (iw (weights_of p) m <= iw (weights_of p) i)%Z -> i = m).
      { intros i H1 H2. destruct (Nat.eq_dec i m); auto. specialize (U i H1 n). lia. }
      pose proof (top_lt (weights_of p) W1) as T1. pose proof (top_lt (weights_of p') W1') as T2. rewrite !weights_len in T1, T2.
      rewrite Hl in T2. rewrite (U2 (top (weights_of p))); auto.
      * apply U2; [now apply Hf|].
        destruct (bij_inverse (length p) f Hf Hi) as (g & Hg & _ & _ & Hfg).
        assert (G : (g m < length p)%nat) by now apply Hg.
        pose proof (top_max (weights_of p') (g m) W1' ltac:(rewrite weights_len; lia)) as TM.
        rewrite !iw_eq in TM. rewrite !PW in TM by (rewrite weights_len; auto). rewrite Hfg in TM by auto.
        now rewrite !iw_eq.
      * apply (top_max (weights_of p) m W1). now rewrite weights_len.
  - rewrite V, V', !value_cost. f_equal. f_equal.
    pose proof (run_unique _ _ _ X Y W1 W2 ltac:(rewrite weights_len; auto) ltac:(rewrite weights_len; auto) R RY) as U.
    rewrite !weights_len in U. rewrite (weights_len p), (weights_len q), (weights_len p') in EY. rewrite U, EY. reflexivity.
Qed.

(** In general, within the accuracies. *)
Lemma Sum_fold : forall k f, Sum k f = fold_right Rplus 0 (map f (seq 0 k)).
Proof.
  induction k as [|k IH]; intros f; [reflexivity|]. rewrite seq_S, map_app. cbn [Sum map Nat.add]. rewrite IH.
  generalize (map f (seq 0 k)). induction l as [|a l IHl]; cbn [fold_right app]; [lra|]. rewrite <- IHl. lra.
Qed.

Lemma Sum_bij : forall k f g, bFun k f -> bInjective k f -> Sum k (fun i => g (f i)) = Sum k g.
Proof.
  intros k f g Hf Hi. rewrite !Sum_fold. rewrite <- (map_map f g).
  assert (H : Permutation (map g (map f (seq 0 k))) (map g (seq 0 k))) by (apply Permutation_map, bij_perm; auto).
  induction H; cbn [fold_right]; lra.
Qed.

Lemma within_perm : forall k p p' q d fuel v plan dmax, pdd_like k p -> pdd_like k p' -> pdd_like k q -> Permutation p p' ->
  row_distance k p q d -> below_cap (length p) (length q) (fun _ _ => dmax) d ->
  EMD fuel p' q = Done (v, plan) ->
  emd_within (length p) (length q) (fun i => mx p i 0) (fun j => mx q j 0) d (accuracy (length p) (length q) dmax) v.
Proof.
  intros k p p' q d fuel v plan dmax P P' Q HP D M E.
  destruct (perm_index p p' HP) as (Hl & f & Hf & Hi & Hn).
  destruct (bij_inverse (length p) f Hf Hi) as (g & Hg & Hgi & E1 & E2).
  assert (D' : row_distance k p' q (fun i j => d (f i) j)).
  { intros i j H1 H2. rewrite Hl in H1. rewrite Hn by auto. apply D; auto. }
  assert (M' : below_cap (length p') (length q) (fun _ _ => dmax) (fun i j => d (f i) j)).
  { intros i j H1 H2. rewrite Hl in H1. apply (M (f i) j); auto. }
  assert (SB : forall h, Sum (length p) (fun i => h (f i)) = Sum (length p) h).
  { intros h. now apply Sum_bij. }
  destruct (C27_near_exact k p' q _ dmax fuel v plan P' Q D' M' E) as [H1 (Y & (C1 & C2 & C3) & H3)]. rewrite Hl in *.
  assert (W' : forall i, (i < length p)%nat -> mx p' i 0 = mx p (f i) 0) by (intros; unfold mx; now rewrite Hn).
  split.
  - intros Z (Z1 & Z2 & Z3). eapply Rle_trans; [apply (H1 (fun i j => Z (f i) j))|].
    + split; [|split].
      * intros i j Hi' Hj. apply Z1; auto.
      * intros i Hi'. rewrite W' by auto. apply Z2. auto.
      * intros j Hj. rewrite <- Z3 by auto. apply (SB (fun i => Z i j)).
    + apply Rplus_le_compat_r, Req_le. apply (SB (fun i => Sum (length q) (fun j => d i j * Z i j))).
  - exists (fun i j => Y (g i) j). split; [split; [|split]|].
    + intros i j Hi' Hj. apply C1; auto.
    + intros i Hi'. transitivity (row_total (length q) Y (g i)); [reflexivity|]. rewrite C2, W', E2; auto.
    + intros j Hj. rewrite <- C3 by auto. unfold col_total. rewrite <- (SB (fun i => Y (g i) j)). apply Sum_ext.
      intros i Hi'. now rewrite E1.
    + eapply Rle_trans; [|exact H3]. apply Req_le. unfold transport_cost.
      rewrite <- (SB (fun i => Sum (length q) (fun j => d i j * Y (g i) j))). apply Sum_ext.
      intros i Hi'. now rewrite E1.
Qed.

Theorem C33_row_order_close : forall k p p' q d dmax fuel fuel' v v' plan plan',
  pdd_like k p -> pdd_like k p' -> pdd_like k q -> Permutation p p' ->
  row_distance k p q d -> below_cap (length p) (length q) (fun _ _ => dmax) d ->
  EMD fuel p q = Done (v, plan) -> EMD fuel' p' q = Done (v', plan') ->
  Rabs (v - v') <= 2 * accuracy (length p) (length q) dmax.
Proof.
  intros k p p' q d dmax fuel fuel' v v' plan plan' P P' Q HP D M E E'.
  pose proof (C27_near_exact k p q d dmax fuel v plan P Q D M E) as H1.
  pose proof (within_perm k p p' q d fuel' v' plan' dmax P P' Q HP D M E') as H2.
  pose proof (within_unique _ _ _ _ _ _ _ _ _ H1 H2). lra.
Qed.

(** Exactly, it does matter: the row that takes up the rounding error is the first with the
    greatest weight, whatever its distances. *)
Theorem C33_row_order_refuted : exists k p p' q fuel v v' plan plan',
  pdd_like k p /\ pdd_like k p' /\ pdd_like k q /\ Permutation p p' /\
  EMD fuel p q = Done (v, plan) /\ EMD fuel p' q = Done (v', plan') /\ v <> v'.
Proof.
  exists 1%nat, (thirds 0 0 1), (thirds 1 0 0), halves, 20%nat. do 4 eexists.
  split; [apply thirds_pdd|]. split; [apply thirds_pdd|]. split; [apply halves_pdd|]. split; [apply C28_case|].
  split; [apply thirds_1|]. split; [apply thirds_2|]. lra.
Qed.

Example C33_case : pdd_like 1 halves /\ pdd_like 1 (thirds 0 0 1) /\ Permutation halves (rev halves) /\
  Sum (length (thirds 0 0 1)) (fun j => round8 (mx (thirds 0 0 1) j 0)) <= Sum (length halves) (fun i => round8 (mx halves i 0)).
Proof.
  split; [apply halves_pdd|]. split; [apply thirds_pdd|]. split; [apply Permutation_rev|].
  unfold mx, thirds, halves. cbn [length Sum nth]. rewrite !round8_fp by lra. rewrite third_fp, half_fp. lra.
Qed.

(** The hypotheses of C26 to C31 are met by [thirds] and [halves]. *)
Example C27_case : pdd_like 1 (thirds 0 0 1) /\ pdd_like 1 halves /\
  (exists d, row_distance 1 (thirds 0 0 1) halves d /\ below_cap 3 2 (fun _ _ => 1) d) /\
  exists plan, EMD 20 (thirds 0 0 1) halves = Done (16666667 / 100000000, plan).
Proof.
  split; [apply thirds_pdd|]. split; [apply halves_pdd|]. split; [|eexists; apply thirds_1].
  exists (mx (dm (thirds 0 0 1) halves)). split; [apply (dm_dist 1 _ _ (thirds_pdd 0 0 1) halves_pdd)|].
  intros i j Hi Hj.
  assert (E : dm (thirds 0 0 1) halves = [[0; 1]; [0; 1]; [1; 0]]).
  { unfold dm. cbn [rows_of thirds halves map tl]. now rewrite !cheb1_0, cheb1_01, cheb1_10. }
  rewrite E. destruct i as [|[|[|i]]], j as [|[|j]]; try lia; cbn; lra.
Qed.

Print Assumptions C25_every_state.
Print Assumptions C25_initial_state.
Print Assumptions C25_no_error.
Print Assumptions C26_plan.
Print Assumptions C27_fixed_point_optimal.
Print Assumptions C27_near_exact.
Print Assumptions C28_rows_of_one_pdd.
Print Assumptions C28_same_pdd.
Print Assumptions C29_symmetric_partial.
Print Assumptions C29_symmetric_close.
Print Assumptions C30_average_below_any_plan.
Print Assumptions C30_average_below_value.
Print Assumptions C31_exact.
Print Assumptions C31_triangle.
Print Assumptions C32_returns.
Print Assumptions C32_solver_returns.
Print Assumptions C32_tiny_weights_refuted.
Print Assumptions C33_row_order_partial.
Print Assumptions C33_row_order_close.
Print Assumptions C33_row_order_refuted.
