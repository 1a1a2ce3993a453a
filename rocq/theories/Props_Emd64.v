(** Property C73: EMD on 64-bit integers. *)
From Coq Require Import List ZArith Arith Bool Reals Lia Lra.
From Verif Require Import Num Outcome Base NNModel CalcModel EmdModel VecR Sums SpecEmd SpecEmd64 EmdInit EmdMain EmdReal EmdRun
  Transport EmdThm EmdSym EmdTop EmdEval Emd64Model Emd64Proofs Emd64Run Emd64Real Props_Emd.
Import ListNotations.
Open Scope R_scope.

Lemma total_dm : forall k p q d, pdd_like k p -> pdd_like k q -> row_distance k p q d ->
  total_distance (length (weights_of p)) (length (weights_of q)) (mx (dm p q)) = total_distance (length p) (length q) d.
Proof.
  intros k p q d P Q D. rewrite !weights_len. unfold total_distance. apply Sum_ext. intros i Hi. apply Sum_ext. intros j Hj.
  symmetry. apply (dm_unique k p q P Q d D); auto.
Qed.

Lemma EMD64_dm : forall cast k p q fuel, pdd_like k p -> pdd_like k q ->
  EMD64 cast fuel p q = network_simplex64 cast fuel (weights_of p) (weights_of q) (dm p q).
Proof. intros cast k p q fuel P Q. unfold EMD64, cdist_cheb. rewrite (width_pdd k p P), (width_pdd k q Q), Nat.eqb_refl. reflexivity. Qed.

(** Nothing overflows as long as the distances between all rows add up to at most 10^10. *)
Theorem C73_same : forall cast k p q d fuel, truncates cast -> pdd_like k p -> pdd_like k q -> row_distance k p q d ->
  total_distance (length p) (length q) d <= 10000000000 -> EMD64 cast fuel p q = EMD fuel p q.
Proof.
  intros cast k p q d fuel HT P Q D HD. rewrite (EMD64_dm cast k), (EMD_dm k) by auto.
  apply network_simplex64_eq; auto; [exact (weights_weights k p P)|exact (weights_weights k q Q)|exact (dm_matrix k p q P Q)|].
  now rewrite (total_dm k p q d).
Qed.

Theorem C73_returns : forall cast k p q d, truncates cast -> pdd_like k p -> pdd_like k q -> row_distance k p q d ->
  total_distance (length p) (length q) d <= 10000000000 ->
  exists v plan F, forall fuel, (F <= fuel)%nat -> EMD64 cast fuel p q = Done (v, plan).
Proof.
  intros cast k p q d HT P Q D HD. destruct (C32_returns k p q P Q) as (v & plan & F & H). exists v, plan, F. intros fuel Hf.
  rewrite (C73_same cast k p q d fuel) by auto. auto.
Qed.

Theorem C73_near_exact : forall cast k p q d dmax fuel v plan, truncates cast ->
  pdd_like k p -> pdd_like k q -> row_distance k p q d -> below_cap (length p) (length q) (fun _ _ => dmax) d ->
  total_distance (length p) (length q) d <= 10000000000 -> EMD64 cast fuel p q = Done (v, plan) ->
  emd_within (length p) (length q) (fun i => mx p i 0) (fun j => mx q j 0) d (accuracy (length p) (length q) dmax) v.
Proof.
  intros cast k p q d dmax fuel v plan HT P Q D HB HD E. rewrite (C73_same cast k p q d fuel) in E by auto.
  exact (C27_near_exact k p q d dmax fuel v plan P Q D HB E).
Qed.

(** Between 1.6 * 10^10 and 3 * 10^10 twice the cost given to the artificial edges does not fit
    64 bits: the first reduced costs wrap around, no edge looks worth entering, and the result
    is 0 whatever the arguments. *)
Theorem C73_large_zero : forall cast k p q d fuel, truncates cast -> pdd_like k p -> pdd_like k q -> row_distance k p q d ->
  below_cap (length p) (length q) (fun _ _ => 1000000000) d ->
  16000000000 <= total_distance (length p) (length q) d <= 30000000000 ->
  exists plan, EMD64 cast (S fuel) p q = Done (0, plan).
Proof.
  intros cast k p q d fuel HT P Q D HB HD. rewrite (EMD64_dm cast k) by auto.
  apply network_simplex64_zero; auto; [exact (weights_weights k p P)|exact (weights_weights k q Q)|exact (dm_matrix k p q P Q)| |].
  - rewrite !weights_len. intros i j Hi Hj. rewrite <- (dm_unique k p q P Q d D) by auto. auto.
  - now rewrite (total_dm k p q d).
Qed.

(** ** Two matrices of four rows, a distance of 10^9 apart *)
Definition four (x : R) : list (list R) := [[1/4; x]; [1/4; x]; [1/4; x]; [1/4; x]].

Lemma four_pdd : forall x, pdd_like 1 (four x).
Proof.
  intros x. unfold four. constructor.
  - discriminate.
  - repeat (apply Forall_cons; [reflexivity|]). apply Forall_nil.
  - repeat (apply Forall_cons; [cbn [nth]; lra|]). apply Forall_nil.
  - unfold mx. cbn [length Sum nth]. lra.
Qed.

Lemma four_distance : forall x, row_distance 1 (four x) (four 0) (fun _ _ => Rabs x).
Proof.
  intros x i j Hi Hj. replace (tl (nth i (four x) [])) with [x] by (destruct i as [|[|[|[|i]]]]; try reflexivity; cbn in Hi; lia).
  replace (tl (nth j (four 0) [])) with [0] by (destruct j as [|[|[|[|j]]]]; try reflexivity; cbn in Hj; lia).
  split; [intros [|t] Ht; [cbn [nth]; rewrite Rminus_0_r; apply Rle_refl|lia]|].
  right. exists 0%nat. split; [lia|]. cbn [nth]. now rewrite Rminus_0_r.
Qed.

Lemma four_total : forall x, total_distance (length (four x)) (length (four 0)) (fun _ _ => Rabs x) = 16 * Rabs x.
Proof. intros x. unfold total_distance. cbn [length four Sum]. lra. Qed.

(** EMD is not within its accuracy, nor within 10^8, of the exact distance. *)
Theorem C73_large_refuted : exists k p q d, pdd_like k p /\ pdd_like k q /\ row_distance k p q d /\
  forall cast fuel, truncates cast -> exists plan, EMD64 cast (S fuel) p q = Done (0, plan) /\
    forall Y, coupling (length p) (length q) (fun i => mx p i 0) (fun j => mx q j 0) Y ->
      transport_cost (length p) (length q) d Y = 1000000000.
Proof.
  assert (A : Rabs 1000000000 = 1000000000) by (apply Rabs_pos_eq; lra).
  exists 1%nat, (four 1000000000), (four 0), (fun _ _ => Rabs 1000000000).
  split; [apply four_pdd|]. split; [apply four_pdd|]. split; [apply four_distance|]. intros cast fuel HT.
  destruct (C73_large_zero cast 1 (four 1000000000) (four 0) (fun _ _ => Rabs 1000000000) fuel HT (four_pdd _) (four_pdd _) (four_distance _)) as (plan & E).
  - intros i j _ _. rewrite A. apply Rle_refl.
  - rewrite four_total, A. lra.
  - exists plan. split; [exact E|]. intros Y (_ & HR & _). unfold transport_cost.
    rewrite (Sum_ext _ _ (fun i => Rabs 1000000000 * mx (four 1000000000) i 0)).
    + rewrite Sum_scal, A, (pl_total _ _ (four_pdd _)). lra.
    + intros i Hi. rewrite Sum_scal. f_equal. apply HR. exact Hi.
Qed.

Example C73_case_cast : truncates trunc.
Proof. intros r H. apply trunc_spec. lra. Qed.

Example C73_case : pdd_like 1 (four 3) /\ pdd_like 1 (four 0) /\ row_distance 1 (four 3) (four 0) (fun _ _ => Rabs 3) /\
  total_distance (length (four 3)) (length (four 0)) (fun _ _ => Rabs 3) <= 10000000000.
Proof.
  split; [apply four_pdd|]. split; [apply four_pdd|]. split; [apply four_distance|]. rewrite four_total, Rabs_pos_eq; lra.
Qed.

Example C73_case_large : 16000000000 <= total_distance (length (four 1000000000)) (length (four 0)) (fun _ _ => Rabs 1000000000) <= 30000000000.
Proof. rewrite four_total, Rabs_pos_eq; lra. Qed.

Print Assumptions C73_same.
Print Assumptions C73_returns.
Print Assumptions C73_near_exact.
Print Assumptions C73_large_zero.
Print Assumptions C73_large_refuted.
