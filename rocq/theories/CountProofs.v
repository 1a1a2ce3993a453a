(** Number of integer points at which a quadratic form in triangular shape is at most r^2: the volume of the
    ellipsoid, up to a bounded multiple of the next lower power of 1 + r. *)
From Coq Require Import List ZArith Arith Bool Lia Reals Lra.
From Verif Require Import Base SpecGeom SpecDet CalcProofs Props_PPC BallProofs.
Import ListNotations.
Open Scope R_scope.

Definition rprod (l : list R) : R := fold_right Rmult 1 l.
Lemma rprod_pos : forall l, Forall (fun h => 0 < h) l -> 0 < rprod l.
Proof. induction 1; cbn; [lra|]. apply Rmult_lt_0_compat; auto. Qed.

(** [q] is h_1^2 (l_1 - s)^2 plus a form of the same kind in the other coordinates, the centre of which may depend on l_1. *)
Fixpoint Tri (hs : list R) (q : list Z -> R) : Prop :=
  match hs with
  | [] => q [] = 0
  | h :: hs' => exists s, forall l, exists q', Tri hs' q' /\ forall ls, length ls = length hs' -> q (l :: ls) = h * (IZR l - s) * (h * (IZR l - s)) + q' ls
  end.
Lemma Tri_nonneg : forall hs q ls, Tri hs q -> length ls = length hs -> 0 <= q ls.
Proof.
  induction hs as [|h hs IH]; intros q ls HT HL.
  - destruct ls; [|discriminate]. cbn in HT. rewrite HT. lra.
  - destruct ls as [|l ls]; [discriminate|]. injection HL as HL. destruct HT as (s & HT). destruct (HT l) as (q' & H1 & H2). rewrite H2 by auto. pose proof (IH q' ls H1 HL). pose proof (Rle_0_sqr (h * (IZR l - s))). unfold Rsqr in *. lra.
Qed.

Definition lower_order (n : nat) (r : R) : R := match n with O => 0 | S k => (1 + r) ^ k end.
Lemma lower_nonneg : forall n r, 0 <= r -> 0 <= lower_order n r.
Proof. intros [|n] r Hr; cbn; [lra|apply pow_le; lra]. Qed.
Lemma lower_mono : forall n r r', 0 <= r -> r <= r' -> lower_order n r <= lower_order n r'.
Proof. intros [|n] r r' H0 H; cbn; [lra|apply pow_incr; lra]. Qed.
Lemma lower_S : forall n r, 0 <= r -> (1 + r) * lower_order n r <= lower_order (S n) r.
Proof. intros [|n] r Hr; cbn; lra. Qed.

Lemma choose_each : forall (A : Type) (P : Z -> A -> Prop) (d : A) ls, (forall l, In l ls -> exists a, P l a) -> exists f : Z -> A, forall l, In l ls -> P l (f l).
Proof.
  intros A P d. induction ls as [|l ls IH]; intros H; [exists (fun _ => d); intros l []|].
  destruct IH as (f & Hf); [intros; apply H; right; auto|]. destruct (H l (or_introl eq_refl)) as (a & Ha).
  exists (fun z => if Z.eq_dec z l then a else f z). intros z [<-|Hz]; [destruct (Z.eq_dec l l); [auto|congruence]|]. destruct (Z.eq_dec z l); [subst; auto|auto].
Qed.
Lemma length_flat : forall A B (f : A -> list B) l, INR (length (flat_map f l)) = rsum (map (fun a => INR (length (f a))) l).
Proof. intros A B f. induction l as [|a l IH]; [auto|]. cbn [flat_map map]. rewrite app_length, plus_INR, IH. auto. Qed.
Lemma rsum_close : forall A (f g : A -> R) e l, (forall a, In a l -> Rabs (f a - g a) <= e) -> Rabs (rsum (map f l) - rsum (map g l)) <= INR (length l) * e.
Proof.
  intros A f g e. induction l as [|a l IH]; intros H; [cbn; rewrite Rminus_0_r, Rabs_R0; lra|].
  cbn [map length]. unfold rsum in *. cbn [fold_right]. rewrite S_INR. pose proof (H a (or_introl eq_refl)) as H1. specialize (IH (fun b Hb => H b (or_intror Hb))).
  apply Rabs_def2' in H1, IH. apply Rabs_le. lra.
Qed.
Lemma rsum_const : forall A c (l : list A), rsum (map (fun _ => c) l) = INR (length l) * c.
Proof. intros A c. induction l as [|a l IH]; [cbn; ring|]. cbn [map length]. rewrite S_INR. unfold rsum in *. cbn [fold_right]. rewrite IH. ring. Qed.

Theorem count : forall hs, Forall (fun h => 0 < h) hs -> exists C, 0 <= C /\ forall q r, Tri hs q -> 0 <= r ->
  exists S : list (list Z), NoDup S /\ (forall ls, In ls S <-> length ls = length hs /\ q ls <= r * r) /\
  Rabs (INR (length S) - ball (length hs) * r ^ (length hs) / rprod hs) <= C * lower_order (length hs) r.
Proof.
  induction hs as [|h hs IH]; intros Hpos.
  - exists 0. split; [lra|]. intros q r HT Hr. exists [[]]. split; [repeat constructor; intros []|]. split.
    + intros ls. cbn in HT. split; [intros [<-|[]]; cbn; split; auto; rewrite HT; nra|]. intros (HL & _). destruct ls; [left; auto|discriminate].
    + cbn. apply Req_le. rewrite Rabs_right; lra.
  - inversion Hpos as [|? ? Hh Hpos']; subst. destruct (IH Hpos') as (C & HC & HCount). set (n := length hs) in *. pose proof (rprod_pos hs Hpos') as HP. pose proof (ball_pos n) as HB.
    exists (2 * (ball n / rprod hs) + (2 / h + 2) * C).
    assert (K1 : 0 <= ball n / rprod hs) by (left; apply Rdiv_lt_0_compat; auto). assert (K2 : 0 < 2 / h) by (apply Rdiv_lt_0_compat; lra).
    split; [assert (0 <= (2 / h + 2) * C) by (apply Rmult_le_pos; lra); lra|].
    intros q r (s & HT) Hr. destruct (line_sum r h s Hr Hh) as (ls0 & ND & IN & SUM).
    set (rho := fun l => sqrt (r * r - h * (IZR l - s) * (h * (IZR l - s)))).
    assert (RHO : forall l, In l ls0 -> 0 <= rho l /\ rho l * rho l = r * r - h * (IZR l - s) * (h * (IZR l - s)) /\ rho l <= r).
    { intros l Hl. apply IN in Hl. pose proof (sqrt_pos (r * r - h * (IZR l - s) * (h * (IZR l - s)))) as P0. fold (rho l) in P0.
      assert (E : rho l * rho l = r * r - h * (IZR l - s) * (h * (IZR l - s))) by (apply sqrt_sqrt; lra). split; [auto|split; [auto|]]. pose proof (Rle_0_sqr (h * (IZR l - s))). unfold Rsqr in *. nra. }
    destruct (choose_each (list (list Z)) (fun l S => NoDup S /\ (forall ls, In ls S <-> length ls = n /\ q (l :: ls) <= r * r) /\ Rabs (INR (length S) - ball n * rho l ^ n / rprod hs) <= C * lower_order n r) [] ls0) as (F & HF).
    { intros l Hl. destruct (RHO l Hl) as (R1 & R2 & R3). destruct (HT l) as (q' & T1 & T2). destruct (HCount q' (rho l) T1 R1) as (S & S1 & S2 & S3). exists S. split; [auto|split].
      - intros ls. rewrite S2. split; intros (H1 & H2); split; auto; rewrite T2 in * by auto; lra.
      - eapply Rle_trans; [apply S3|]. apply Rmult_le_compat_l; auto. apply lower_mono; auto. }
    exists (flat_map (fun l => map (cons l) (F l)) ls0). split; [|split].
    + clear SUM IN RHO. induction ls0 as [|l ls0 IHl]; [constructor|]. cbn [flat_map]. inversion ND as [|? ? N1 N2]; subst. apply NoDup_app_iff. split; [|split].
      * apply FinFun.Injective_map_NoDup; [intros x y; congruence|]. apply HF. left; auto.
      * apply IHl; auto. intros z Hz. apply HF. right; auto.
      * intros x H1 H2. apply in_map_iff in H1. destruct H1 as (t & <- & _). apply in_flat_map in H2. destruct H2 as (z & Hz & H2). apply in_map_iff in H2. destruct H2 as (t' & E & _). injection E as -> _. auto.
    + intros ls. rewrite in_flat_map. split.
      * intros (l & Hl & H). apply in_map_iff in H. destruct H as (t & <- & Ht). destruct (HF l Hl) as (_ & H2 & _). apply H2 in Ht. cbn [length]. fold n. destruct Ht as (-> & Ht). auto.
      * intros (HL & HQ). destruct ls as [|l ls]; [discriminate|]. injection HL as HL. assert (Hl : In l ls0). { apply IN. destruct (HT l) as (q' & T1 & T2). rewrite T2 in HQ by auto. pose proof (Tri_nonneg hs q' ls T1 HL). lra. }
        exists l. split; auto. apply in_map. apply (proj1 (proj2 (HF l Hl))). auto.
    + rewrite length_flat. cbn [length]. fold n.
      assert (LEN : INR (length ls0) <= (2 / h + 2) * (1 + r)).
      { pose proof (SUM 0%nat) as S0. cbn [pow] in S0. rewrite rsum_const in S0. apply Rabs_def2' in S0.
        assert (half 1 = 1) by (unfold half; cbn; apply sin_PI2). rewrite H in S0.
        assert (0 <= 2 / h * 1 + 2 * r) by nra. replace (2 * (r * 1 / h * 1)) with (2 / h * r) in S0 by (field; lra). nra. }
      pose proof (SUM n) as SN. fold rho in SN. change (rsum (map (fun l => sqrt (r * r - h * (IZR l - s) * (h * (IZR l - s))) ^ n) ls0)) with (rsum (map (fun l => rho l ^ n) ls0)) in SN.
      assert (CL : Rabs (rsum (map (fun l => INR (length (map (cons l) (F l)))) ls0) - rsum (map (fun l => ball n / rprod hs * rho l ^ n) ls0)) <= INR (length ls0) * (C * lower_order n r)).
      { apply rsum_close. intros l Hl. rewrite map_length. destruct (HF l Hl) as (_ & _ & H3). replace (ball n / rprod hs * rho l ^ n) with (ball n * rho l ^ n / rprod hs) by (field; lra). auto. }
      assert (SC : rsum (map (fun l => ball n / rprod hs * rho l ^ n) ls0) = ball n / rprod hs * rsum (map (fun l => rho l ^ n) ls0)).
      { clear. induction ls0 as [|l ls IH]; [cbn; ring|]. cbn [map]. unfold rsum in *. cbn [fold_right]. rewrite IH. ring. }
      rewrite SC in CL.
      assert (MAIN : ball (S n) * r ^ S n / rprod (h :: hs) = ball n / rprod hs * (2 * (r ^ S n / h * half (S n)))).
      { rewrite ball_ratio. cbn [rprod fold_right]. fold (rprod hs). field. lra. }
      rewrite MAIN. 
      assert (PW : 0 <= r ^ n <= (1 + r) ^ n) by (split; [apply pow_le; auto|apply pow_incr; lra]).
      assert (E1 : INR (length ls0) * (C * lower_order n r) <= (2 / h + 2) * C * lower_order (S n) r).
      { pose proof (lower_nonneg n r Hr). pose proof (lower_S n r Hr). apply Rle_trans with ((2 / h + 2) * (1 + r) * (C * lower_order n r)); [apply Rmult_le_compat_r; auto; apply Rmult_le_pos; auto|].
        replace ((2 / h + 2) * (1 + r) * (C * lower_order n r)) with ((2 / h + 2) * C * ((1 + r) * lower_order n r)) by ring. apply Rmult_le_compat_l; auto. apply Rmult_le_pos; lra. }
      cbn [lower_order]. cbn [lower_order] in E1. set (k := ball n / rprod hs) in *. set (s1 := rsum (map (fun l => rho l ^ n) ls0)) in *. set (s0 := rsum (map (fun l => INR _) ls0)) in *. set (mm := 2 * (r ^ S n / h * half (S n))) in *.
      assert (E2 : Rabs (k * s1 - k * mm) <= 2 * k * (1 + r) ^ n).
      { rewrite <- Rmult_minus_distr_l, Rabs_mult, (Rabs_right k) by lra. apply Rle_trans with (k * (2 * r ^ n)); [apply Rmult_le_compat_l; auto|]. nra. }
      apply Rabs_def2' in E2, CL. apply Rabs_le. rewrite Rmult_plus_distr_r. lra.
Qed.
