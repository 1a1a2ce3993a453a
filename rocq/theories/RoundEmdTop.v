(** The error of EMD with rounded operations, from the weights and rows to the result. *)
From Coq Require Import List ZArith Arith Bool Reals Lia Lra Psatz Permutation.
From Verif Require Import Num Outcome Base NNModel CalcModel EmdModel VecR Sums SpecEmd SpecEmd64 EmdInit EmdMain EmdReal EmdRun Transport EmdThm EmdSym EmdTop
  Emd64Model Emd64Proofs Emd64Run Emd64Real EmdNear RoundModel SpecRound RoundSum RoundProofs RoundCalc RoundCollapse RoundEmdModel RoundEmd CalcProofs CalcProofs2.
Import ListNotations.
Open Scope R_scope.

Lemma emd_within_cost : forall n1 n2 a b c d eps k v, Sum n1 a = 1 ->
  (forall i j, (i < n1)%nat -> (j < n2)%nat -> Rabs (c i j - d i j) <= k) -> emd_within n1 n2 a b c eps v -> emd_within n1 n2 a b d (k + eps) v.
Proof.
  intros n1 n2 a b c d eps k v Sa Hcd [U L].
  assert (Q : forall Y, coupling n1 n2 a b Y -> Rabs (transport_cost n1 n2 c Y - transport_cost n1 n2 d Y) <= k).
  { intros Y (P & R & _). unfold transport_cost. rewrite <- Sum_minus. eapply Rle_trans; [apply Sum_abs_le|].
    apply Rle_trans with (Sum n1 (fun i => k * a i)); [|rewrite Sum_scal, Sa; lra]. apply Sum_le. intros i Hi. rewrite <- Sum_minus. eapply Rle_trans; [apply Sum_abs_le|].
    rewrite <- (R i Hi). unfold row_total. rewrite <- Sum_scal. apply Sum_le. intros j Hj. specialize (P i j Hi Hj). specialize (Hcd i j Hi Hj).
    replace (c i j * Y i j - d i j * Y i j) with ((c i j - d i j) * Y i j) by ring. rewrite Rabs_mult, (Rabs_right (Y i j)) by lra. apply Rmult_le_compat_r; auto. }
  split.
  - intros Y HY. specialize (U Y HY). specialize (Q Y HY). apply Rabs_le_both in Q. lra.
  - destruct L as (Y & HY & L). exists Y. split; auto. specialize (Q Y HY). apply Rabs_le_both in Q. lra.
Qed.

Lemma emd_within_value : forall n1 n2 a b d eps k v v', Rabs (v' - v) <= k -> emd_within n1 n2 a b d eps v -> emd_within n1 n2 a b d (eps + k) v'.
Proof.
  intros n1 n2 a b d eps k v v' H [U L]. apply Rabs_le_both in H. split.
  - intros Y HY. specialize (U Y HY). lra.
  - destruct L as (Y & HY & L). exists Y. split; auto. lra.
Qed.

Lemma emd_within_le : forall n1 n2 a b d eps eps' v, eps <= eps' -> emd_within n1 n2 a b d eps v -> emd_within n1 n2 a b d eps' v.
Proof.
  intros n1 n2 a b d eps eps' v H [U L]. split.
  - intros Y HY. specialize (U Y HY). lra.
  - destruct L as (Y & HY & L). exists Y. split; auto. lra.
Qed.

Section Weights.
  Variables (ar : arith) (u eta : R) (cast : R -> Z).
  Hypothesis FL : float_like u eta ar.
  Hypothesis Hu : u <= 1 / 100000000.
  Hypothesis He : eta <= 1 / 10000.
  Hypothesis HT : truncates cast.
  Notation F := (fixed ar cast).
  Variables (m : nat) (om : R) (w w' : list R).
  Hypothesis W : weights w.
  Hypothesis Hm : multiples m w.
  Hypothesis Hm7 : INR m <= 10000000.
  Hypothesis Hom : 0 <= om <= 1 / 10000.
  Hypothesis Hsmall : (100000000 * (om + 2 * u) + eta) * INR m < 1.
  Hypothesis HW : Forall2 (fun x x' => Rabs (x' - x) <= om * x) w w'.

  Lemma one_weight : forall x x', In x w -> Rabs (x' - x) <= om * x -> 0 <= x' <= 10000000000 /\ (1 <= F x')%Z /\ IZR (F x') <= x * 100000000 /\ x * 100000000 - IZR (F x') <= x * (100000000 * (om + u)) + 1 + eta.
  Proof.
    intros x x' Hx Hxx. pose proof (fl_u _ _ _ FL) as u0. pose proof (fl_eta _ _ _ FL) as e0.
    pose proof (weights_range w x (weights_light w W) Hx) as R0. apply Rabs_le_both in Hxx.
    unfold multiples in Hm. rewrite Forall_forall in Hm. destruct (Hm x Hx) as (c & Hc & Ex).
    assert (O1 : om * x <= 1 / 10000 * x) by (apply Rmult_le_compat_r; lra).
    assert (X0 : 0 <= x' <= 10000000000) by lra. split; [exact X0|].
    destruct (fixed_spec ar u eta cast FL Hu He HT x' X0) as (A & B & C).
    assert (M0 : 0 < INR m). { destruct m; [|rewrite S_INR; pose proof (pos_INR n); lra]. cbn in Ex. unfold Rdiv in Ex. rewrite Rinv_0, Rmult_0_r in Ex || idtac. lra. }
    assert (Mx : x * INR m = INR c) by (rewrite Ex; field; lra).
    apply le_INR in Hc. change (INR 1) with 1 in Hc.
    assert (Q : x' * 100000000 * (1 + u) + eta <= x * 100000000 + (100000000 * (om + 2 * u) + eta)).
    { assert (x' * (1 + u) <= x * (1 + om) * (1 + u)) by (apply Rmult_le_compat_r; lra).
      assert (om * u <= u) by nra. assert (x * (om + u + om * u) <= 1 * (om + 2 * u)) by (apply Rmult_le_compat; nra). nra. }
    assert (Up : IZR (F x') <= x * 100000000).
    { assert (L : IZR (F x') * INR m < INR c * 100000000 + 1) by (rewrite <- Mx; nra).
      rewrite !INR_IZR_INZ in L. rewrite <- !mult_IZR, <- plus_IZR in L. apply lt_IZR in L. assert (L' : (F x' * Z.of_nat m <= Z.of_nat c * 100000000)%Z) by lia. apply IZR_le in L'. rewrite !mult_IZR, <- !INR_IZR_INZ in L'.
      apply Rmult_le_reg_r with (INR m); [lra|]. nra. }
    assert (Lo : x * 100000000 - IZR (F x') <= x * (100000000 * (om + u)) + 1 + eta).
    { assert (x * (1 - om) * (1 - u) <= x' * (1 - u)) by (apply Rmult_le_compat_r; lra). assert (0 <= x * (om * u)) by (apply Rmult_le_pos; [lra|apply Rmult_le_pos; lra]). nra. }
    split; [|split; auto].
    assert (X7 : 1 / 10000000 <= x). { apply Rmult_le_reg_r with (INR m); [lra|]. rewrite Mx. lra. }
    assert (T : x * (100000000 * (om + u)) <= x * 20000) by (apply Rmult_le_compat_l; lra).
    assert (0 < IZR (F x')) as P by lra. apply lt_IZR in P. lia.
  Qed.

  Lemma weights_sized : sized ar cast w'.
  Proof.
    pose proof (F2_len _ _ _ _ _ HW) as L.
    assert (Q : forall i, (i < length w)%nat -> 0 <= nth i w' 0 <= 10000000000 /\ (1 <= F (nth i w' 0%R))%Z /\ IZR (F (nth i w' 0)) <= nth i w 0 * 100000000).
    { intros i Hi. destruct (one_weight (nth i w 0) (nth i w' 0)) as (A & B & C & _); [apply nth_In; auto|apply (F2_nth _ _ _ _ _ 0 0 HW i Hi)|]. auto. }
    constructor.
    - intros E. rewrite E in L. cbn in L. pose proof (EmdRun.weights_pos w (weights_light w W)). lia.
    - apply Forall_forall. intros x Hx. apply (In_nth _ _ 0) in Hx as (i & Hi & <-). apply Q. lia.
    - apply Forall_forall. intros x Hx. apply (In_nth _ _ 0) in Hx as (i & Hi & <-). apply Q. lia.
    - apply le_IZR. rewrite zsum_ZSum, map_length, IZR_ZSum. unfold EmdModel.FP. replace (IZR 100000000) with (Sum (length w') (fun i => nth i w 0 * 100000000)).
      + apply Sum_le. intros i Hi. rewrite (nth_indep _ 0%Z (F 0)) by now rewrite map_length. rewrite map_nth. apply Q. lia.
      + rewrite <- L, Sum_scal_r. pose proof (w_sum _ W) as S. unfold vx in S. rewrite S. lra.
  Qed.

  Lemma weights_off : Sum (length w) (fun i => Rabs (nth i w 0 * 100000000 - IZR (iw (cut ar cast w') i))) <= INR (length w) * (1 + eta) + 100000000 * (om + u).
  Proof.
    pose proof (F2_len _ _ _ _ _ HW) as L.
    apply Rle_trans with (Sum (length w) (fun i => nth i w 0 * (100000000 * (om + u)) + (1 + eta))).
    - apply Sum_le. intros i Hi. unfold iw. rewrite (cut_fp ar u eta cast FL Hu He HT w' (s_range _ _ _ weights_sized)).
      rewrite (nth_indep _ 0%Z (F 0)) by (rewrite map_length; lia). rewrite map_nth.
      destruct (one_weight (nth i w 0) (nth i w' 0)) as (A & B & C & D); [apply nth_In; auto|apply (F2_nth _ _ _ _ _ 0 0 HW i Hi)|]. rewrite Rabs_right by lra. lra.
    - rewrite Sum_plus, Sum_scal_r, Sum_const. pose proof (w_sum _ W) as S. unfold vx in S. rewrite S. lra.
  Qed.
End Weights.

Section Solve.
  Variables (ar : arith) (u eta : R) (cast : R -> Z).
  Hypothesis FL : float_like u eta ar.
  Hypothesis Hu : u <= 1 / 100000000.
  Hypothesis He : eta <= 1 / 10000.
  Hypothesis HT : truncates cast.
  Hypothesis HM : monotone_mul ar.
  Variables (m1 m2 : nat) (om del dmax : R) (w1 w2 w1' w2' : list R) (d : nat -> nat -> R) (c' : list (list R)).
  Hypothesis W1 : weights w1.
  Hypothesis W2 : weights w2.
  Hypothesis M1 : multiples m1 w1.
  Hypothesis M2 : multiples m2 w2.
  Hypothesis L1 : INR m1 <= 10000000.
  Hypothesis L2 : INR m2 <= 10000000.
  Hypothesis Hom : 0 <= om <= 1 / 10000.
  Hypothesis Q1 : (100000000 * (om + 2 * u) + eta) * INR m1 < 1.
  Hypothesis Q2 : (100000000 * (om + 2 * u) + eta) * INR m2 < 1.
  Hypothesis C1 : Forall2 (fun x x' => Rabs (x' - x) <= om * x) w1 w1'.
  Hypothesis C2 : Forall2 (fun x x' => Rabs (x' - x) <= om * x) w2 w2'.
  Notation n1 := (length w1).
  Notation n2 := (length w2).
  Hypothesis Hd : forall i j, (i < n1)%nat -> (j < n2)%nat -> 0 <= d i j <= dmax.
  Hypothesis Hdel : 0 <= del.
  Hypothesis HC : cost_matrix n1 n2 c'.
  Hypothesis HCd : forall i j, (i < n1)%nat -> (j < n2)%nat -> Rabs (mx c' i j - d i j) <= 2 * del + 3 * u * (dmax + 2 * del).
  Notation kap := (rounded_cost_error u del dmax).
  Hypothesis Hbig : INR (n1 * n2) * (dmax + kap) <= 10000000000.
  Hypothesis Eu : INR (n1 * n2) * u <= 1 / 2.
  Hypothesis Ee : INR (n1 * n2) * eta <= u.

  Lemma ns_pos : (1 <= n1)%nat /\ (1 <= n2)%nat.
  Proof. split; apply EmdRun.weights_pos; apply weights_light; auto. Qed.

  Lemma dmax_pos : 0 <= dmax.
  Proof. destruct ns_pos as [A B]. specialize (Hd 0%nat 0%nat ltac:(lia) ltac:(lia)). lra. Qed.

  Lemma cap_top : dmax + kap <= 10000000000.
  Proof.
    destruct ns_pos as [A B]. assert (1 <= INR (n1 * n2)) by (apply (le_INR 1); nia). pose proof dmax_pos. pose proof (fl_u _ _ _ FL) as u0.
    assert (0 <= dmax + kap) by (unfold rounded_cost_error; assert (0 <= 5 * u * (dmax + 2 * del)) by (apply Rmult_le_pos; lra); lra). nra.
  Qed.

  Lemma c_range : forall i j, (i < n1)%nat -> (j < n2)%nat -> mx c' i j <= dmax + (2 * del + 3 * u * (dmax + 2 * del)).
  Proof. intros i j Hi Hj. specialize (HCd i j Hi Hj). specialize (Hd i j Hi Hj). apply Rabs_le_both in HCd. lra. Qed.

  Lemma cut_near : forall i j, (i < n1)%nat -> (j < n2)%nat -> Rabs (of_fp (fixed ar cast (mx c' i j)) - d i j) <= kap.
  Proof.
    intros i j Hi Hj. pose proof (c_range i j Hi Hj) as R. pose proof (cm_pos _ _ _ HC i j Hi Hj) as P. pose proof cap_top as T. pose proof (fl_u _ _ _ FL) as u0. pose proof dmax_pos as D0.
    unfold rounded_cost_error in *. assert (U0 : 0 <= u * (dmax + 2 * del)) by (apply Rmult_le_pos; lra).
    pose proof (fixed_near ar u eta cast FL Hu He HT (mx c' i j) ltac:(lra)) as A. specialize (HCd i j Hi Hj).
    assert (B : u * mx c' i j <= u * (2 * (dmax + 2 * del))) by (apply Rmult_le_compat_l; nra).
    apply Rabs_le_both in A. apply Rabs_le_both in HCd. apply Rabs_le. lra.
  Qed.

  Theorem solve_near : exists v plan F, forall fuel, (F <= fuel)%nat ->
    network_simplex_r ar cast fuel w1' w2' c' = Done (v, plan) /\
    emd_within n1 n2 (vx w1) (vx w2) d (rounded_accuracy n1 n2 u om del dmax) v.
  Proof.
    pose proof (F2_len _ _ _ _ _ C1) as N1. pose proof (F2_len _ _ _ _ _ C2) as N2. destruct ns_pos as [P1 P2]. pose proof dmax_pos as D0. pose proof (fl_u _ _ _ FL) as u0. pose proof (fl_eta _ _ _ FL) as e0.
    assert (S1 : sized ar cast w1') by exact (weights_sized ar u eta cast FL Hu He HT m1 om w1 w1' W1 M1 L1 Hom Q1 C1). assert (S2 : sized ar cast w2') by exact (weights_sized ar u eta cast FL Hu He HT m2 om w2 w2' W2 M2 L2 Hom Q2 C2).
    assert (HC' : cost_matrix (length w1') (length w2') c') by (rewrite <- N1, <- N2; exact HC).
    assert (Ktop : forall i j, (i < length w1')%nat -> (j < length w2')%nat -> mx c' i j <= 10000000000).
    { intros i j Hi Hj. rewrite <- N1 in Hi. rewrite <- N2 in Hj. eapply Rle_trans; [apply c_range; auto|]. eapply Rle_trans; [|apply cap_top]. unfold rounded_cost_error. assert (0 <= u * (dmax + 2 * del)) by (apply Rmult_le_pos; lra). lra. }
    set (cc := cut_cost ar cast c').
    assert (CX : forall i j, (i < n1)%nat -> (j < n2)%nat -> Rabs (mx cc i j - d i j) <= kap).
    { intros i j Hi Hj. unfold cc. rewrite (cut_mx ar cast w1' w2' c' HC' i j) by lia. apply cut_near; auto. }
    assert (CB : forall i j, (i < n1)%nat -> (j < n2)%nat -> mx cc i j <= dmax + kap).
    { intros i j Hi Hj. specialize (CX i j Hi Hj). specialize (Hd i j Hi Hj). apply Rabs_le_both in CX. lra. }
    assert (Ht : total_distance (length w1') (length w2') (mx cc) <= 10000000000).
    { rewrite <- N1, <- N2. eapply Rle_trans; [|exact Hbig]. unfold total_distance. rewrite mult_INR, Rmult_assoc, <- Sum_const. apply Sum_le. intros i Hi. rewrite <- Sum_const. apply Sum_le. intros j Hj. auto. }
    pose proof (cut_light ar u eta cast FL Hu He HT w1' S1) as Li1. pose proof (cut_light ar u eta cast FL Hu He HT w2' S2) as Li2.
    assert (CMc : cost_matrix (length (cut ar cast w1')) (length (cut ar cast w2')) cc) by exact (cut_matrix ar u eta cast FL Hu He HT w1' w2' c' HC' Ktop).
    set (B := run_bound (cut ar cast w1') (cut ar cast w2') cc).
    set (F0 := S (Z.to_nat B)).
    assert (Main : forall fuel, (F0 <= fuel)%nat -> exists v plan, network_simplex_r ar cast fuel w1' w2' c' = Done (v, plan) /\ emd_within n1 n2 (vx w1) (vx w2) d (rounded_accuracy n1 n2 u om del dmax) v).
    { intros fuel Hf.
      destruct (solver_run ar u eta cast FL Hu He HT HM w1' w2' c' S1 S2 HC' Ktop Ht) with (C := dmax + kap) (fuel := fuel) as (v & plan & X & E & _ & _ & _ & HR & HV).
      - rewrite <- N1, <- N2. exact Eu.
      - rewrite <- N1, <- N2. exact Ee.
      - intros i j Hi Hj. apply CB; lia.
      - change (B < Z.of_nat fuel)%Z. unfold F0 in Hf. lia.
      - exists v, plan. split; [exact E|]. rewrite <- N1, <- N2 in HV. fold cc in HR, HV.
        set (K1 := INR n1 + 1 + 100000000 * (om + u)). set (K2 := INR n2 + 1 + 100000000 * (om + u)).
        assert (EN : forall n, (n <= n1 * n2)%nat -> INR n * eta <= 1).
        { intros n Hn. apply le_INR in Hn. pose proof (Rmult_le_compat_r eta _ _ e0 Hn) as G. eapply Rle_trans; [exact G|]. eapply Rle_trans; [exact Ee|]. lra. }
        pose proof (near_within (cut ar cast w1') (cut ar cast w2') Li1 Li2 (mx cc) X HR (vx w1) (vx w2) K1 K2) as NW.
        rewrite !cut_len in NW. rewrite <- N1, <- N2 in NW.
        specialize (NW ltac:(intros i Hi; pose proof (vx_min w1 i (weights_light w1 W1) Hi); lra) ltac:(intros i Hi; pose proof (vx_min w2 i (weights_light w2 W2) Hi); lra) (w_sum _ W1) (w_sum _ W2)).
        assert (D1 : Sum n1 (fun i => Rabs (vx w1 i * 100000000 - IZR (iw (cut ar cast w1') i))) <= K1).
        { eapply Rle_trans; [exact (weights_off ar u eta cast FL Hu He HT m1 om w1 w1' W1 M1 L1 Hom Q1 C1)|]. unfold K1. assert (INR n1 * eta <= 1) by (apply EN; nia). lra. }
        assert (D2 : Sum n2 (fun i => Rabs (vx w2 i * 100000000 - IZR (iw (cut ar cast w2') i))) <= K2).
        { eapply Rle_trans; [exact (weights_off ar u eta cast FL Hu He HT m2 om w2 w2' W2 M2 L2 Hom Q2 C2)|]. unfold K2. assert (INR n2 * eta <= 1) by (apply EN; nia). lra. }
        specialize (NW D1 D2). assert (CP : forall i j, (i < n1)%nat -> (j < n2)%nat -> 0 <= mx cc i j).
        { intros i j Hi Hj. apply (cm_pos _ _ _ CMc); rewrite cut_len; lia. }
        specialize (NW CP (dmax + kap) CB).
        apply (emd_within_cost _ _ _ _ _ d _ kap _ (w_sum _ W1) CX) in NW. apply (emd_within_value _ _ _ _ _ _ _ _ _ HV) in NW.
        eapply emd_within_le; [|exact NW]. unfold rounded_accuracy. cbv zeta. unfold K1, K2.
        assert (0 <= dmax + kap) by (unfold rounded_cost_error; assert (0 <= 5 * u * (dmax + 2 * del)) by (apply Rmult_le_pos; lra); lra).
        set (C := dmax + kap) in *. clearbody C. set (K := INR (n1 * n2)) in *. clearbody K.
        assert (0 <= u * C) by (apply Rmult_le_pos; lra). nra. }
    destruct (Main F0 (le_n _)) as (v & plan & E0 & H0). exists v, plan, F0. intros fuel Hf. split; [|exact H0].
    replace fuel with (F0 + (fuel - F0))%nat by lia. apply (solver_mono ar u eta cast FL Hu He HT HM w1' w2' c' S1 S2 HC' Ktop Ht). exact E0.
  Qed.
End Solve.
