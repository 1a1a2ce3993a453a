(** Concrete calls of EMD: a dependence on the order of rows, and a call that never returns. *)
From Coq Require Import List ZArith Arith Bool Reals Lia Lra.
From Verif Require Import Num Outcome Base NNModel CalcModel CalcProofs EmdModel VecR Sums SpecEmd EmdReal EmdRun EmdTop.
Import ListNotations.
Open Scope R_scope.

Ltac fp_eval := apply trunc_eq; [lia | unfold fp_multiplier; lra].

Lemma EMD_int : forall fuel p q wa wb C U fl, width (rows_of p) = width (rows_of q) ->
  map to_fp (weights_of p) = wa -> map to_fp (weights_of q) = wb ->
  map to_fp (concat (map (fun u => map (fun v => cheb u v) (rows_of q)) (rows_of p))) = C ->
  int_caps (weights_of p) (weights_of q) = U ->
  simplex fuel (fst (balance wa wb)) (snd (balance wa wb)) C U = fl ->
  EMD fuel p q = (f <- fl ;; Done (dot (map of_fp f) (map of_fp C), reshape (length p) (length q) (map of_fp f))).
Proof.
  intros fuel p q wa wb C U fl Hw <- <- <- <- <-. unfold EMD, cdist_cheb. rewrite Hw, Nat.eqb_refl. cbn [obind].
  unfold network_simplex. destruct (balance _ _) as [s t]. rewrite !weights_len. reflexivity.
Qed.

Lemma cheb_cons : forall k (u v : list R) d, length u = k -> length v = k -> is_chebyshev k u v d -> cheb u v = d.
Proof. intros k u v d H1 H2 H. exact (chebyshev_unique k u v _ _ (cheb_spec k u v H1 H2) H). Qed.

Lemma Rabs_le_iff : forall x d, - d <= x <= d -> Rabs x <= d.
Proof. intros x d H. unfold Rabs. destruct (Rcase_abs x); lra. Qed.

(** ** Thirds against halves *)
Definition thirds (x y z : R) : list (list R) := [[1/3; x]; [1/3; y]; [1/3; z]].
Definition halves : list (list R) := [[1/2; 0]; [1/2; 1]].

Lemma cheb1 : forall x y d, Rabs (x - y) = d -> cheb [x] [y] = d.
Proof.
  intros x y d H. apply (cheb_cons 1); auto. split; [|right; exists 0%nat; split; [lia|auto]].
  intros [|t] Ht; [simpl; lra|lia].
Qed.

Lemma cheb1_0 : forall x, cheb [x] [x] = 0.
Proof. intros x. apply cheb1. rewrite Rminus_diag_eq by reflexivity. apply Rabs_R0. Qed.
Lemma cheb1_01 : cheb [0] [1] = 1.
Proof. apply cheb1. rewrite Rabs_left; lra. Qed.
Lemma cheb1_10 : cheb [1] [0] = 1.
Proof. apply cheb1. rewrite Rabs_pos_eq; lra. Qed.

Lemma third_fp : to_fp (1/3) = 33333333%Z. Proof. fp_eval. Qed.
Lemma half_fp : to_fp (1/2) = 50000000%Z. Proof. fp_eval. Qed.
Lemma one_fp : to_fp 1 = 100000000%Z. Proof. fp_eval. Qed.

Lemma min_th : to_fp (Rmin (1/3) (1/2)) = 33333333%Z.
Proof. rewrite Rmin_left by lra. apply third_fp. Qed.


Ltac cheb1_eval := cbn [rows_of thirds halves map tl concat app]; rewrite ?cheb1_0, ?cheb1_01, ?cheb1_10; rewrite ?to_fp_0, ?one_fp; reflexivity.
Ltac thirds_eval := cbn [map weights_of thirds halves nth]; rewrite ?third_fp, ?half_fp; reflexivity.

Lemma thirds_caps : forall x y z, int_caps (weights_of (thirds x y z)) (weights_of halves) =
  [33333333; 33333333; 33333333; 33333333; 33333333; 33333333]%Z.
Proof. intros. unfold int_caps, weights_of, thirds, halves. cbn [map nth flat_map app]. now rewrite min_th. Qed.

Lemma thirds_1 : EMD 20 (thirds 0 0 1) halves =
  Done (16666667 / 100000000, [[33333333 / 100000000; 1 / 100000000]; [16666667 / 100000000; 16666666 / 100000000];
                               [0 / 100000000; 33333333 / 100000000]]).
Proof.
  rewrite (EMD_int 20 (thirds 0 0 1) halves [33333333; 33333333; 33333333]%Z [50000000; 50000000]%Z
    [0; 100000000; 0; 100000000; 100000000; 0]%Z [33333333; 33333333; 33333333; 33333333; 33333333; 33333333]%Z
    (Done [33333333; 1; 16666667; 16666666; 0; 33333333]%Z)).
  - cbn [obind]. unfold dot, sumR, of_fp, fp_multiplier. cbn [map map2 fold_right length thirds halves reshape firstn skipn].
    f_equal. f_equal. field.
  - reflexivity.
  - thirds_eval.
  - thirds_eval.
  - cheb1_eval.
  - apply thirds_caps.
  - vm_compute. reflexivity.
Qed.

Lemma thirds_2 : EMD 20 (thirds 1 0 0) halves =
  Done (16666668 / 100000000, [[1 / 100000000; 33333333 / 100000000]; [16666666 / 100000000; 16666667 / 100000000];
                               [33333333 / 100000000; 0 / 100000000]]).
Proof.
  rewrite (EMD_int 20 (thirds 1 0 0) halves [33333333; 33333333; 33333333]%Z [50000000; 50000000]%Z
    [100000000; 0; 0; 100000000; 0; 100000000]%Z [33333333; 33333333; 33333333; 33333333; 33333333; 33333333]%Z
    (Done [1; 33333333; 16666666; 16666667; 33333333; 0]%Z)).
  - cbn [obind]. unfold dot, sumR, of_fp, fp_multiplier. cbn [map map2 fold_right length thirds halves reshape firstn skipn].
    f_equal. f_equal. field.
  - reflexivity.
  - thirds_eval.
  - thirds_eval.
  - cheb1_eval.
  - apply thirds_caps.
  - vm_compute. reflexivity.
Qed.

Lemma thirds_pdd : forall x y z, pdd_like 1 (thirds x y z).
Proof.
  intros x y z. unfold thirds. constructor.
  - discriminate.
  - repeat (apply Forall_cons; [reflexivity|]). apply Forall_nil.
  - repeat (apply Forall_cons; [cbn [nth]; lra|]). apply Forall_nil.
  - unfold mx. cbn [length Sum nth]. lra.
Qed.

Lemma halves_pdd : pdd_like 1 halves.
Proof.
  unfold halves. constructor.
  - discriminate.
  - repeat (apply Forall_cons; [reflexivity|]). apply Forall_nil.
  - repeat (apply Forall_cons; [cbn [nth]; lra|]). apply Forall_nil.
  - unfold mx. cbn [length Sum nth]. lra.
Qed.

(** ** Weights below 1e-8 *)
Fixpoint after (N : net) (inner k : nat) (st : state) : option state :=
  match k with
  | O => Some st
  | S k' => match pivot N inner st with Done (Some st') => after N inner k' st' | _ => None end
  end.

Lemma pivots_after : forall N inner k st s, after N inner k st = Some s ->
  (forall f, pivots N f inner s = OutOfFuel) -> forall f, pivots N f inner st = OutOfFuel.
Proof.
  induction k as [|k IH]; intros st s H HS f; [injection H as <-; auto|]. destruct f as [|f]; [reflexivity|].
  cbn [after pivots] in *. destruct (pivot N inner st) as [[st'|]| | |]; try discriminate. cbn [obind]. eapply IH; eauto.
Qed.

Lemma pivots_cycle : forall N inner s, pivot N inner s = Done (Some s) -> forall f, pivots N f inner s = OutOfFuel.
Proof. intros N inner s H. induction f as [|f IH]; [reflexivity|]. cbn [pivots]. rewrite H. exact IH. Qed.

(** Rows of non-decreasing distances with positive weights of sum 1. *)
Definition tiny1 : list (list R) :=
  [[3 / 200000000; 8; 32; 47]; [1 / 200000000; 5; 32; 53]; [199999991 / 200000000; 6; 30; 45]; [5 / 200000000; 5; 26; 51]].
Definition tiny2 : list (list R) :=
  [[2 / 300000000; 1; 30; 50]; [5 / 300000000; 10; 21; 54]; [299999993 / 300000000; 10; 34; 41]].

Definition tiny_cost : list Z := map (Z.mul 100000000) [7; 11; 6; 4; 11; 12; 5; 9; 4; 4; 5; 10]%Z.
Definition tiny_cap : list Z := [0; 1; 1; 0; 0; 0; 0; 1; 99999995; 0; 1; 2]%Z.

Lemma cheb3 : forall x y z x' y' z' d, Rabs (x - x') <= d -> Rabs (y - y') <= d -> Rabs (z - z') <= d ->
  (d = Rabs (x - x') \/ d = Rabs (y - y') \/ d = Rabs (z - z')) -> cheb [x; y; z] [x'; y'; z'] = d.
Proof.
  intros x y z x' y' z' d H1 H2 H3 H. apply (cheb_cons 3); auto. split.
  - intros [|[|[|t]]] Ht; auto. lia.
  - right. destruct H as [H|[H|H]]; [exists 0%nat | exists 1%nat | exists 2%nat]; split; auto; lia.
Qed.

Lemma Rabs_is : forall x d, 0 <= d -> x = d \/ x = - d -> d = Rabs x.
Proof. intros x d Hd [-> | ->]; [symmetry; now apply Rabs_pos_eq|]. rewrite Rabs_Ropp. symmetry. now apply Rabs_pos_eq. Qed.

Ltac cheb3_tac := apply cheb3; [apply Rabs_le_iff; lra.. |
  first [left; apply Rabs_is; lra | right; left; apply Rabs_is; lra | right; right; apply Rabs_is; lra]].

Lemma cons_eq : forall (A : Type) (a b : A) l m, a = b -> l = m -> a :: l = b :: m.
Proof. intros. now subst. Qed.

Lemma tiny_dists : map (fun u => map (fun v => cheb u v) (rows_of tiny2)) (rows_of tiny1) =
  [[7; 11; 6]; [4; 11; 12]; [5; 9; 4]; [4; 5; 10]].
Proof.
  unfold rows_of, tiny1, tiny2. cbn [map tl].
  repeat (apply cons_eq; [repeat (apply cons_eq; [cheb3_tac|]); reflexivity|]). reflexivity.
Qed.

Lemma to_fp_int : forall z, (0 <= z)%Z -> to_fp (IZR z) = (100000000 * z)%Z.
Proof.
  intros z Hz. apply trunc_eq; [lia|]. unfold fp_multiplier. rewrite mult_IZR. split; lra.
Qed.

Lemma tiny_costs : map to_fp (concat (map (fun u => map (fun v => cheb u v) (rows_of tiny2)) (rows_of tiny1))) = tiny_cost.
Proof. rewrite tiny_dists. cbn [concat app map]. rewrite !to_fp_int by lia. reflexivity. Qed.

Lemma tiny_w1 : map to_fp (weights_of tiny1) = [1; 0; 99999995; 2]%Z.
Proof. unfold weights_of, tiny1. cbn [map nth]. repeat (apply cons_eq; [fp_eval|]). reflexivity. Qed.

Lemma tiny_w2 : map to_fp (weights_of tiny2) = [0; 1; 99999997]%Z.
Proof. unfold weights_of, tiny2. cbn [map nth]. repeat (apply cons_eq; [fp_eval|]). reflexivity. Qed.

Lemma tiny_caps : int_caps (weights_of tiny1) (weights_of tiny2) = tiny_cap.
Proof.
  unfold int_caps, weights_of, tiny1, tiny2, tiny_cap. cbn [map nth flat_map app].
  repeat (apply cons_eq; [first [rewrite Rmin_left by lra; fp_eval | rewrite Rmin_right by lra; fp_eval]|]). reflexivity.
Qed.


Definition tiny_net : net := make_net [1; 0; 99999995; 2]%Z [0; 1; 99999997]%Z tiny_cost tiny_cap.
Definition tiny_stuck : option state :=
  after tiny_net 9 11 (init_state [1; 0; 99999995; 2]%Z [0; 1; 99999997]%Z tiny_cost tiny_cap).

Lemma tiny_cycles : match tiny_stuck with Some s => pivot tiny_net 9 s | None => OutOfFuel end =
  match tiny_stuck with Some s => Done (Some s) | None => Done None end.
Proof. vm_compute. reflexivity. Qed.

Lemma tiny_loops : forall fuel, EMD fuel tiny1 tiny2 = OutOfFuel.
Proof.
  intros fuel.
  rewrite (EMD_int fuel tiny1 tiny2 [1; 0; 99999995; 2]%Z [0; 1; 99999997]%Z tiny_cost tiny_cap OutOfFuel); auto using tiny_w1, tiny_w2, tiny_costs, tiny_caps.
  change (fst (balance [1; 0; 99999995; 2] [0; 1; 99999997]))%Z with [1; 0; 99999995; 2]%Z.
  change (snd (balance [1; 0; 99999995; 2] [0; 1; 99999997]))%Z with [0; 1; 99999997]%Z.
  unfold simplex. fold tiny_net. change (S (S _)) with 9%nat.
  pose proof tiny_cycles as H. destruct tiny_stuck as [s|] eqn:E; [|discriminate].
  rewrite (pivots_after _ _ _ _ s E); [reflexivity|]. apply pivots_cycle.
  exact H.
Qed.
