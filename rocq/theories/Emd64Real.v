(** network_simplex on 64-bit integers: when it agrees with the model on unbounded ones, and when
    it stops before the first pivot. *)
From Coq Require Import List ZArith Arith Bool Reals Lia Lra.
From Verif Require Import Num Outcome Base NNModel CalcModel EmdModel VecR Sums SpecEmd SpecEmd64 EmdInit EmdMain EmdReal EmdRun
  Transport EmdThm EmdSym EmdTop EmdEval Emd64Model Emd64Proofs Emd64Run.
Import ListNotations.
Open Scope R_scope.

Lemma cast_trunc : forall cast r, truncates cast -> 0 <= r < 9223372036854775808 -> cast r = trunc r.
Proof.
  intros cast r H Hr. destruct (H r Hr) as [A B]. symmetry. apply trunc_eq; [|lra].
  assert (-1 < IZR (cast r)) as L by lra. apply lt_IZR in L. lia.
Qed.

Lemma to_fp64_eq : forall cast r, truncates cast -> 0 <= r < 92233720368 -> to_fp64 cast r = to_fp r.
Proof. intros cast r H Hr. unfold to_fp64, to_fp. apply cast_trunc; auto. unfold fp_multiplier. lra. Qed.

Lemma zsum_flat : forall (A : Type) (f : A -> list Z) l b, (forall a, In a l -> (zsum (f a) <= b)%Z) ->
  (zsum (flat_map f l) <= Z.of_nat (length l) * b)%Z.
Proof.
  intros A f. induction l as [|a l IH]; intros b H; [simpl; lia|]. cbn [flat_map length]. rewrite zsum_app.
  pose proof (H a (or_introl eq_refl)). specialize (IH b (fun x Hx => H x (or_intror Hx))). lia.
Qed.

Section Run.
  Variables (w1 w2 : list R) (c : list (list R)).
  Hypothesis W1 : light w1.
  Hypothesis W2 : light w2.
  Hypothesis HC : cost_matrix (length w1) (length w2) c.
  Notation n1 := (length w1).
  Notation n2 := (length w2).
  Notation total := (total_distance n1 n2 (mx c)).
  Notation icost := (map to_fp (concat c)).
  Notation icap := (int_caps w1 w2).

  Lemma cost_len : length (concat c) = (n1 * n2)%nat.
  Proof. rewrite (concat_len R c n2) by apply HC. now rewrite (cm_rows _ _ _ HC). Qed.

  Lemma total_concat : Sum (n1 * n2) (fun k => nth k (concat c) 0) = total.
  Proof.
    rewrite Sum_rect. unfold total_distance. apply Sum_ext. intros i Hi. apply Sum_ext. intros j Hj.
    rewrite (nth_concat R c n2); auto; [apply HC|now rewrite (cm_rows _ _ _ HC)].
  Qed.

  Lemma concat_nonneg : forall x, In x (concat c) -> 0 <= x.
  Proof.
    intros x Hx. apply in_concat in Hx. destruct Hx as (r & Hr & Hx). apply (In_nth _ _ []) in Hr. destruct Hr as (i & Hi & <-).
    apply (In_nth _ _ 0) in Hx. destruct Hx as (j & Hj & <-). apply (cm_pos _ _ _ HC); [rewrite <- (cm_rows _ _ _ HC); auto|].
    pose proof (cm_cols _ _ _ HC) as F. rewrite Forall_forall in F. rewrite <- (F (nth i c [])); [auto|now apply nth_In].
  Qed.

  Lemma concat_le_total : forall x, In x (concat c) -> x <= total.
  Proof.
    intros x Hx. rewrite <- total_concat. apply (In_nth _ _ 0) in Hx. destruct Hx as (k & Hk & <-). rewrite cost_len in Hk.
    apply (Sum_ge_one (n1 * n2) (fun k => nth k (concat c) 0)); auto. intros j Hj. apply concat_nonneg, nth_In. now rewrite cost_len.
  Qed.

  Lemma icost_sum : IZR (zsum icost) <= total * 100000000 /\ total * 100000000 <= IZR (zsum icost) + INR (n1 * n2).
  Proof.
    rewrite zsum_ZSum, map_length, cost_len, IZR_ZSum, <- total_concat, <- Sum_scal_r.
    assert (H : forall k, (k < n1 * n2)%nat -> IZR (nth k icost 0%Z) <= nth k (concat c) 0 * 100000000 < IZR (nth k icost 0%Z) + 1).
    { intros k Hk. replace (nth k icost 0%Z) with (to_fp (nth k (concat c) 0)).
      - apply to_fp_spec. apply concat_nonneg, nth_In. now rewrite cost_len.
      - symmetry. rewrite <- to_fp_0 at 1. apply map_nth. }
    split.
    - apply Sum_le. intros k Hk. apply H; auto.
    - rewrite <- (Rmult_1_r (INR _)), <- (Sum_const (n1 * n2) 1), <- Sum_plus. apply Sum_le. intros k Hk. specialize (H k Hk). lra.
  Qed.

  Lemma rows_bound : forall w, light w -> (Z.of_nat (length w) <= 100000000)%Z.
  Proof. intros w W. destruct (iw_le w W) as [L U]. unfold FP in U. lia. Qed.

  Lemma weights_range : forall w x, light w -> In x w -> 1 / 100000000 <= x <= 1.
  Proof.
    intros w x W Hx. pose proof (l_min _ W) as F. rewrite Forall_forall in F. split; [auto|].
    apply (In_nth _ _ 0) in Hx. destruct Hx as (i & Hi & <-). eapply Rle_trans; [|apply (l_sum _ W)]. apply (Sum_ge_one (length w) (vx w)); auto.
    intros j Hj. assert (1 / 100000000 <= vx w j) by (apply F, nth_In, Hj). lra.
  Qed.

  Lemma icap_sum : (zsum icap <= 10000000000000000)%Z.
  Proof.
    assert (H : (zsum icap <= Z.of_nat n1 * FP)%Z); [|pose proof (rows_bound w1 W1); unfold FP in H; lia].
    unfold int_caps. apply zsum_flat. intros a Ha. pose proof (weights_range w1 a W1 Ha) as Ra.
    destruct (iw_le w2 W2) as [_ U]. rewrite <- zsum_iw in U. eapply Z.le_trans; [|exact U].
    assert (Q : forall l, (forall b, In b l -> 0 <= b) -> (zsum (map (fun b => to_fp (Rmin a b)) l) <= zsum (map to_fp l))%Z).
    { induction l as [|b l IH]; intros Hb; [apply Z.le_refl|]. unfold zsum in *. cbn [map fold_right].
      pose proof (Hb b (or_introl eq_refl)) as B0. specialize (IH (fun x Hx => Hb x (or_intror Hx))).
      assert (to_fp (Rmin a b) <= to_fp b)%Z; [|lia]. apply to_fp_mono. split; [apply Rmin_glb; lra|apply Rmin_r]. }
    apply Q. intros b Hb. pose proof (weights_range w2 b W2 Hb). lra.
  Qed.

  Notation src := (fst (balance (map to_fp w1) (map to_fp w2))).
  Notation snk := (snd (balance (map to_fp w1) (map to_fp w2))).

  Lemma maxz_bound : forall l b, (0 <= b)%Z -> Forall (fun a => (a <= b)%Z) l -> (maxz l <= b)%Z.
  Proof. intros l b H0 H. induction H as [|a l Ha H IH]; [exact H0|]. unfold maxz in *. cbn [fold_right]. lia. Qed.

  Lemma max_weights : (maxz src <= FP)%Z /\ (maxz snk <= FP)%Z.
  Proof.
    pose proof (balanced_run w1 w2 c W1 W2 HC) as [_ _ P1 P2 E T _ _ _ _].
    assert (Q : forall l, Forall (fun a => (1 <= a)%Z) l -> (zsum l <= FP)%Z -> (maxz l <= FP)%Z).
    { intros l P S. apply maxz_bound; [unfold FP; lia|]. apply Forall_forall. intros a Ha. apply (In_nth _ _ 0%Z) in Ha.
      destruct Ha as (i & Hi & <-). pose proof (zsum_nth l i P Hi). lia. }
    split; apply Q; auto. lia.
  Qed.

  Lemma big_eq : (10000000000000000 <= zsum icost)%Z -> faux_inf src snk icost icap = (3 * zsum icost)%Z.
  Proof. intros H. pose proof icap_sum. pose proof max_weights. unfold faux_inf, FP in *. lia. Qed.

  Lemma big_le : forall b, (10000000000000000 <= b)%Z -> (zsum icost <= b)%Z -> (faux_inf src snk icost icap <= 3 * b)%Z.
  Proof. intros b H0 H. pose proof icap_sum. pose proof max_weights. unfold faux_inf, FP in *. lia. Qed.

  Variable cast : R -> Z.
  Hypothesis HT : truncates cast.

  Lemma map64 : forall l, (forall x, In x l -> 0 <= x < 92233720368) -> map (to_fp64 cast) l = map to_fp l.
  Proof. intros l H. apply map_ext_in. intros x Hx. apply to_fp64_eq; auto. Qed.

  Lemma weights64 : forall w, light w -> map (to_fp64 cast) w = map to_fp w.
  Proof. intros w W. apply map64. intros x Hx. pose proof (weights_range w x W Hx). lra. Qed.

  Lemma caps64 : int_caps64 cast w1 w2 = icap.
  Proof.
    unfold int_caps64, int_caps. rewrite !flat_map_concat_map. f_equal. apply map_ext_in. intros a Ha. apply map_ext_in. intros b Hb.
    pose proof (weights_range w1 a W1 Ha). pose proof (weights_range w2 b W2 Hb). apply to_fp64_eq; auto.
    split; [apply Rmin_glb; lra|]. pose proof (Rmin_l a b). lra.
  Qed.

  Lemma balance_eq : balance64 (map to_fp w1) (map to_fp w2) = balance (map to_fp w1) (map to_fp w2).
  Proof.
    destruct (iw_le w1 W1) as [_ U1], (iw_le w2 W2) as [_ U2]. rewrite <- zsum_iw in U1, U2.
    assert (P : forall w, light w -> Forall (fun x => (1 <= x)%Z) (map to_fp w)).
    { intros w W. apply Forall_forall. intros x Hx. apply (In_nth _ _ 0%Z) in Hx. destruct Hx as (i & Hi & <-). rewrite map_length in Hi.
      apply iw_spec; auto. }
    assert (P0 : forall w, light w -> Forall (fun x => (0 <= x)%Z) (map to_fp w)).
    { intros w W. apply Forall_impl with (2 := P w W). intros a Ha. cbv beta in *. lia. }
    assert (PF : forall w, light w -> (zsum (map to_fp w) <= FP)%Z -> Forall (fun x => (x <= FP)%Z) (map to_fp w)).
    { intros w W U. apply Forall_forall. intros x Hx. apply (In_nth _ _ 0%Z) in Hx. destruct Hx as (i & Hi & <-).
      pose proof (zsum_nth _ i (P w W) Hi). lia. }
    apply balance64_eq; auto.
  Qed.

  Theorem network_simplex64_eq : total <= 10000000000 -> forall fuel, network_simplex64 cast fuel w1 w2 c = network_simplex fuel w1 w2 c.
  Proof.
    intros HD fuel. unfold network_simplex64, network_simplex. rewrite !weights64, balance_eq, caps64 by auto.
    assert (Ec : map (to_fp64 cast) (concat c) = icost).
    { apply map64. intros x Hx. pose proof (concat_nonneg x Hx). pose proof (concat_le_total x Hx). lra. }
    rewrite Ec. pose proof (balanced_run w1 w2 c W1 W2 HC) as BR.
    assert (S : (zsum icost <= 1000000000000000000)%Z) by (apply le_IZR; destruct icost_sum; lra).
    pose proof (big_le 1000000000000000000 ltac:(lia) S) as HL.
    assert (HM : (3 * faux_inf src snk icost icap < int64_half)%Z) by (unfold int64_half; lia).
    assert (HM1 : (faux_inf src snk icost icap < int64_half)%Z) by (unfold int64_half; lia).
    destruct (balance (map to_fp w1) (map to_fp w2)) as [s t] eqn:E. cbn [fst snd] in *. now rewrite (simplex64_eq s t icost icap BR HM1 HM).
  Qed.

  Lemma dot_zero : forall (l : list Z) v, dot (map of_fp (map (fun _ => 0%Z) l)) v = 0.
  Proof.
    induction l as [|a l IH]; intros [|b v]; try reflexivity. cbn [map]. rewrite dot_cons, IH. unfold of_fp, fp_multiplier. lra.
  Qed.

  Theorem network_simplex64_zero : below_cap n1 n2 (fun _ _ => 1000000000) (mx c) -> 16000000000 <= total <= 30000000000 ->
    forall fuel, exists plan, network_simplex64 cast (S fuel) w1 w2 c = Done (0, plan).
  Proof.
    intros HB HD fuel. unfold network_simplex64. rewrite !weights64, balance_eq, caps64 by auto.
    assert (Ec : map (to_fp64 cast) (concat c) = icost).
    { apply map64. intros x Hx. pose proof (concat_nonneg x Hx). pose proof (concat_le_total x Hx). lra. }
    rewrite Ec. pose proof (balanced_run w1 w2 c W1 W2 HC) as BR.
    assert (HN : (Z.of_nat (n1 * n2) <= 10000000000000000)%Z).
    { pose proof (rows_bound w1 W1). pose proof (rows_bound w2 W2). rewrite Nat2Z.inj_mul. nia. }
    assert (S1 : (zsum icost <= 3000000000000000000)%Z) by (apply le_IZR; destruct icost_sum; lra).
    assert (S2 : (1590000000000000000 <= zsum icost)%Z).
    { apply le_IZR. destruct icost_sum as [_ U]. rewrite INR_IZR_INZ in U. apply IZR_le in HN. lra. }
    pose proof (big_eq ltac:(lia)) as EM.
    assert (HM1 : (faux_inf src snk icost icap < int64_half)%Z) by (rewrite EM; unfold int64_half; lia).
    assert (Hcm : Forall (fun a => (a <= 100000000000000000)%Z) icost).
    { apply Forall_forall. intros z Hz. apply in_map_iff in Hz. destruct Hz as (x & <- & Hx). apply le_IZR.
      pose proof (concat_nonneg x Hx) as X0. destruct (to_fp_spec x X0) as [[A _] _].
      assert (x <= 1000000000); [|lra]. apply in_concat in Hx. destruct Hx as (r & Hr & Hx). apply (In_nth _ _ []) in Hr.
      destruct Hr as (i & Hi & <-). apply (In_nth _ _ 0) in Hx. destruct Hx as (j & Hj & <-).
      pose proof (cm_cols _ _ _ HC) as F. rewrite Forall_forall in F. rewrite (F (nth i c [])) in Hj by now apply nth_In.
      apply (HB i j); [rewrite <- (cm_rows _ _ _ HC); auto|auto]. }
    destruct (balance (map to_fp w1) (map to_fp w2)) as [s t] eqn:E. cbn [fst snd] in *.
    rewrite (simplex64_stuck s t icost icap BR HM1 100000000000000000 Hcm).
    - cbn [obind]. rewrite dot_zero. eauto.
    - rewrite map_length, cost_len. unfold int64_half. lia.
    - rewrite EM. unfold int64_half. lia.
  Qed.
End Run.
