(** Termination of the pivot loop of _emd.py, with a bound on the number of pivots. *)
From Coq Require Import List ZArith Bool Lia Permutation.
From Verif Require Import Outcome EmdModel EmdArr EmdTree EmdOps EmdPath EmdFlow EmdSurgery EmdCycle EmdPivot.
Import ListNotations.
Open Scope outcome_scope.
Open Scope Z_scope.

Section Term.
  Variable I : inst.
  Notation n := (ns I + nd I).
  Notation e := (ns I * nd I).
  Notation m := (e + n).
  Hypothesis G : good I.

  (** Potentials differ by a cost along a tree edge. *)
  Lemma pi_step : forall F T x pi v, TInv I F T -> FInv I F x pi -> 0 <= v < n ->
    Z.abs (pi v - pi (fpar F v)) <= big I.
  Proof.
    intros F T x pi v HT HF Hv. destruct (t_ed _ _ _ HT v Hv) as [A B]. pose proof (f_rc _ _ _ _ HF v Hv) as R.
    pose proof (cost_bound I G _ A) as C. unfold rc in R.
    destruct B as [[B1 B2] | [B1 B2]]; rewrite B1, B2 in R; lia.
  Qed.

  Lemma pi_path : forall F T x pi l v, TInv I F T -> FInv I F x pi ->
    rpath (fpar F) (fsz F) (v :: l) -> Forall (inr n) (v :: l) -> lst (v :: l) = -1 ->
    Z.abs (pi v) <= Z.of_nat (length l) * big I.
  Proof.
    intros F T x pi l v HT HF. revert v. induction l as [|u l IH]; intros v Hp Hr Hl.
    - unfold lst in Hl. simpl in Hl. subst v. rewrite (f_pi0 _ _ _ _ HF). simpl. lia.
    - pose proof (rpath_nodup _ _ _ Hp) as Hn. apply rpath_tail in Hp. destruct Hp as (E & _ & Hp). rewrite lst_cons in Hl by congruence.
      assert (Hv : 0 <= v < n).
      { apply Forall_inv in Hr. assert (v <> -1). { intros ->. apply NoDup_cons_iff in Hn. apply Hn. rewrite <- Hl. apply lst_in. congruence. }
        unfold inr in Hr. lia. }
      pose proof (pi_step F T x pi v HT HF Hv) as S. rewrite E in S.
      assert (Hr' : Forall (inr n) (u :: l)) by (inversion Hr; auto).
      specialize (IH u Hp Hr' Hl). cbn [length]. lia.
  Qed.

  Lemma pi_bound : forall F T x pi v, TInv I F T -> FInv I F x pi -> 0 <= v < n -> Z.abs (pi v) <= n * big I.
  Proof.
    intros F T x pi v HT HF Hv.
    destruct (node_path I F T HT v) as (fs & tv & E & Hp & Hl & Hr); [unfold inr; lia|].
    pose proof (pi_path F T x pi _ v HT HF Hp Hr Hl) as B.
    assert (L : Z.of_nat (length (labs fs)) <= n).
    { unfold labs. rewrite map_length.
      assert (length fs <= Z.to_nat n)%nat; [|lia].
      assert (Q : (length (v :: labs fs) <= length (arange (-1) n))%nat).
      { apply NoDup_incl_length; [eapply rpath_nodup; eauto|]. intros y Hy. rewrite Forall_forall in Hr. apply arange_in.
        pose proof (Hr y Hy) as R. unfold inr in R. lia. }
      rewrite arange_length in Q. cbn [length] in Q. unfold labs in Q. rewrite map_length in Q. lia. }
    destruct G as [_ _ _ _ _ _ _ [gb _]]. nia.
  Qed.

  Definition pmax : Z := n * (n * big I).

  Lemma pi_sum_bound : forall F T x pi, TInv I F T -> FInv I F x pi -> - pmax <= lsum pi (arange 0 n) <= pmax.
  Proof.
    intros F T x pi HT HF. destruct G as [g1 g2 _ _ _ _ _ _].
    assert (B : forall v, In v (arange 0 n) -> - (n * big I) <= pi v <= n * big I).
    { intros v Hv. apply arange_in in Hv. pose proof (pi_bound F T x pi v HT HF Hv). lia. }
    assert (E : forall k, lsum (fun _ => k) (arange 0 n) = k * n).
    { intros k. rewrite lsum_const, arange_length. lia. }
    unfold pmax. split.
    - replace (- (n * (n * big I))) with (lsum (fun _ => - (n * big I)) (arange 0 n)) by (rewrite E; lia).
      apply lsum_le. intros v Hv. apply B, Hv.
    - replace (n * (n * big I)) with (lsum (fun _ => n * big I) (arange 0 n)) by (rewrite E; lia).
      apply lsum_le. intros v Hv. apply B, Hv.
  Qed.

  Lemma total_nonneg : forall F x pi, FInv I F x pi -> 0 <= total I x.
  Proof.
    intros F x pi HF. apply lsum_nonneg. intros a Ha. apply arange_in in Ha.
    pose proof (cost_bound I G a Ha). pose proof (f_cap _ _ _ _ HF a Ha). nia.
  Qed.

  Definition mu (x pi : Z -> Z) : Z := total I x * (2 * pmax + 1) + (pmax - lsum pi (arange 0 n)).

  (** States the loop goes through. *)
  Inductive reach (N : net) (fuel : nat) : state -> state -> Prop :=
  | reach_refl : forall st, reach N fuel st st
  | reach_step : forall st st1 st2, pivot N fuel st = Done (Some st1) -> reach N fuel st1 st2 -> reach N fuel st st2.

  Lemma reach_inv : forall N fuel st st', netrep I N -> (Z.to_nat (n + 1) < fuel)%nat -> reach N fuel st st' ->
    (exists F T x pi, Inv I st F T x pi) -> exists F T x pi, Inv I st' F T x pi.
  Proof.
    intros N fuel st st' NR Hf H. induction H as [st | st st1 st2 E H IH]; intros HI; auto.
    apply IH. destruct HI as (F & T & x & pi & HI).
    destruct (pivot_correct I G N fuel st F T x pi NR HI Hf) as [[E' _] | (st' & F' & T' & x2 & pi2 & E' & HI' & _)].
    - rewrite E in E'. discriminate.
    - rewrite E in E'. inversion E'; subst. eauto.
  Qed.

  Theorem pivots_correct : forall N inner k st F T x pi,
    netrep I N -> Inv I st F T x pi -> (Z.to_nat (n + 1) < inner)%nat -> mu x pi < Z.of_nat k ->
    exists st' F' T' x' pi', pivots N k inner st = Done st' /\ Inv I st' F' T' x' pi' /\
      reach N inner st st' /\ pivot N inner st' = Done None /\ (forall a, 0 <= a < e -> 0 <= srch I x' pi' a).
  Proof.
    intros N inner k. induction k as [|k IH]; intros st F T x pi NR HI Hin Hk.
    - exfalso. destruct HI as [_ _ _ _ HT HF]. pose proof (total_nonneg F x pi HF). pose proof (pi_sum_bound F T x pi HT HF).
      unfold mu in Hk. assert (0 <= pmax) by lia. nia.
    - cbn [pivots].
      destruct (pivot_correct I G N inner st F T x pi NR HI Hin) as [[E H] | (st' & F' & T' & x2 & pi2 & E & HI' & HM)].
      + rewrite E. cbn [obind]. exists st, F, T, x, pi. split; auto. split; auto. split; [constructor|]. auto.
      + rewrite E. cbn [obind].
        assert (Hmu : mu x2 pi2 < Z.of_nat k).
        { assert (B1 : - pmax <= lsum pi (arange 0 n) <= pmax) by (destruct HI as [_ _ _ _ HT HF]; eapply pi_sum_bound; eauto).
          assert (B2 : - pmax <= lsum pi2 (arange 0 n) <= pmax) by (destruct HI' as [_ _ _ _ HT HF]; eapply pi_sum_bound; eauto).
          unfold mu in *. assert (0 <= pmax) by lia.
          destruct HM as [HM | [HM1 HM2]]; [nia|]. rewrite HM1. lia. }
        destruct (IH st' F' T' x2 pi2 NR HI' Hin Hmu) as (st2 & F2 & T2 & x3 & pi3 & E2 & HI2 & HR & HO).
        exists st2, F2, T2, x3, pi3. split; auto. split; auto. split; auto. eapply reach_step; eauto.
  Qed.
End Term.
