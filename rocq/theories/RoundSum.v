(** Sums in any order, each addition with a relative error. *)
From Coq Require Import List ZArith Arith Lia Reals Lra Psatz Permutation.
From Verif Require Import RoundModel SpecGeom SpecRound.
Import ListNotations.
Open Scope R_scope.

Lemma Rabs_le_both : forall x a, Rabs x <= a -> - a <= x <= a.
Proof. intros x a H. unfold Rabs in H. destruct (Rcase_abs x); lra. Qed.

(** ** Sums in any order *)
Definition suml (l : list R) : R := fold_right Rplus 0 l.
Lemma suml_app : forall a b, suml (a ++ b) = suml a + suml b.
Proof. unfold suml. induction a as [|x a IH]; intros b; cbn; [lra|]. rewrite IH. lra. Qed.
Lemma suml_perm : forall a b, Permutation a b -> suml a = suml b.
Proof. unfold suml. intros a b H. induction H; cbn; lra. Qed.
Definition sumabs (l : list R) : R := suml (map Rabs l).
Lemma sumabs_pos : forall l, 0 <= sumabs l.
Proof. unfold sumabs, suml. induction l as [|x l IH]; cbn; [lra|]. pose proof (Rabs_pos x). lra. Qed.
Lemma suml_abs : forall l, Rabs (suml l) <= sumabs l.
Proof. unfold sumabs, suml. induction l as [|x l IH]; cbn; [rewrite Rabs_R0; lra|]. eapply Rle_trans; [apply Rabs_triang|]. lra. Qed.

Lemma sum_within_error : forall u l v, 0 <= u -> sum_within u l v -> Rabs (v - suml l) <= ((1 + u) ^ (length l - 1) - 1) * sumabs l.
Proof.
  intros u l v Hu H. induction H as [|x|l1 l2 l x y z N1 N2 H1 IH1 H2 IH2 P E].
  - cbn. rewrite Rminus_0_r, Rabs_R0. lra.
  - unfold sumabs, suml. cbn. replace (x - (x + 0)) with 0 by ring. rewrite Rabs_R0. lra.
  - rewrite (suml_perm _ _ P), suml_app. unfold sumabs. rewrite (suml_perm _ _ (Permutation_map Rabs P)), map_app, suml_app. fold (sumabs l1) (sumabs l2).
    rewrite (Permutation_length P), app_length.
    assert (L1 : (1 <= length l1)%nat) by (destruct l1; [congruence|simpl; lia]). assert (L2 : (1 <= length l2)%nat) by (destruct l2; [congruence|simpl; lia]).
    pose proof (sumabs_pos l1) as A1. pose proof (sumabs_pos l2) as A2. pose proof (suml_abs l1) as S1. pose proof (suml_abs l2) as S2.
    assert (G : forall n, 1 <= (1 + u) ^ n) by (intros n; apply pow_R1_Rle; lra).
    replace (length l1 + length l2 - 1)%nat with (S ((length l1 - 1) + (length l2 - 1)))%nat by lia. cbn [pow]. rewrite pow_add.
    pose proof (G (length l1 - 1)%nat) as G1. pose proof (G (length l2 - 1)%nat) as G2.
    set (g1 := (1 + u) ^ (length l1 - 1)) in *. set (g2 := (1 + u) ^ (length l2 - 1)) in *. clearbody g1 g2.
    assert (Gp : g1 <= g1 * g2) by nra. assert (Gq : g2 <= g1 * g2) by nra. set (g := g1 * g2) in *. clearbody g.
    set (s1 := suml l1) in *. set (s2 := suml l2) in *. set (a1 := sumabs l1) in *. set (a2 := sumabs l2) in *. clearbody s1 s2 a1 a2.
    assert (B1 : Rabs (x - s1) <= (g - 1) * a1) by (eapply Rle_trans; [exact IH1|]; nra).
    assert (B2 : Rabs (y - s2) <= (g - 1) * a2) by (eapply Rle_trans; [exact IH2|]; nra).
    assert (B3 : Rabs (x + y) <= g * (a1 + a2)).
    { replace (x + y) with ((x - s1) + (y - s2) + (s1 + s2)) by ring. eapply Rle_trans; [apply Rabs_triang|].
      pose proof (Rabs_triang (x - s1) (y - s2)). pose proof (Rabs_triang s1 s2). lra. }
    replace (z - (s1 + s2)) with ((z - (x + y)) + ((x - s1) + (y - s2))) by ring. eapply Rle_trans; [apply Rabs_triang|].
    pose proof (Rabs_triang (x - s1) (y - s2)). assert (u * Rabs (x + y) <= u * (g * (a1 + a2))) by (apply Rmult_le_compat_l; auto). nra.
Qed.

(** (1 + u)^n for small n u *)
Lemma pow_small : forall u n, 0 <= u -> INR n * u <= 1 / 2 -> (1 + u) ^ n <= 1 + 2 * (INR n * u).
Proof.
  intros u n Hu. induction n as [|n IH]; intros H; [cbn; lra|]. rewrite S_INR in *. assert (INR n * u <= 1 / 2) by nra. specialize (IH H0). cbn [pow].
  apply Rle_trans with ((1 + u) * (1 + 2 * (INR n * u))); [apply Rmult_le_compat_l; lra|]. pose proof (pos_INR n). nra.
Qed.

(** The same with other constants. *)
Lemma pow_near : forall c t u n, 0 <= u -> 1 + c * t <= c -> 0 <= c -> INR n * u <= t -> 1 <= (1 + u) ^ n <= 1 + c * (INR n * u).
Proof.
  intros c t u n Hu Hc Hc0. induction n as [|n IH]; intros H; [cbn; lra|]. rewrite S_INR in *. pose proof (pos_INR n) as P. assert (Q : 0 <= INR n * u) by nra.
  assert (H1 : INR n * u <= t) by nra. specialize (IH H1). cbn [pow]. split; [nra|].
  apply Rle_trans with ((1 + u) * (1 + c * (INR n * u))); [apply Rmult_le_compat_l; lra|]. set (x := INR n * u) in *.
  replace ((INR n + 1) * u) with (x + u) by (unfold x; ring). assert (c * x <= c * t) by (apply Rmult_le_compat_l; lra). assert (u * (1 + c * x) <= u * c) by (apply Rmult_le_compat_l; lra). lra.
Qed.

(** Sums of numbers [f a] close to [g a]. *)
Lemma sum_terms : forall A (f g h : A -> R) (c t u : R) (n : nat) l v, 0 <= u -> 1 + c * t <= c -> 0 <= c -> (length l <= n)%nat -> INR n * u <= t ->
  (forall a, In a l -> Rabs (f a - g a) <= h a) -> sum_within u (0 :: map f l) v ->
  Rabs (v - rsum (map g l)) <= c * (INR (length l) * u) * (rsum (map (fun a => Rabs (g a)) l) + rsum (map h l)) + rsum (map h l).
Proof.
  intros A f g h c t u n l v Hu Hc Hc0 HL Hn H X. apply sum_within_error in X; auto. cbn [length] in X. rewrite map_length in X. replace (S (length l) - 1)%nat with (length l) in X by lia.
  assert (Hl : INR (length l) * u <= t) by (apply le_INR in HL; nra).
  destruct (pow_near c t u (length l) Hu Hc Hc0 Hl) as [G1 G2]. pose proof (pos_INR (length l)) as P.
  assert (E1 : suml (0 :: map f l) = rsum (map f l)) by (unfold suml, rsum; cbn; lra). rewrite E1 in X.
  assert (B : Rabs (rsum (map f l) - rsum (map g l)) <= rsum (map h l) /\ sumabs (0 :: map f l) <= rsum (map (fun a => Rabs (g a)) l) + rsum (map h l)).
  { clear - H. unfold sumabs, suml, rsum. cbn [map fold_right]. rewrite Rabs_R0, Rplus_0_l. induction l as [|a l IH]; cbn [map fold_right]; [rewrite Rminus_0_r, Rabs_R0; lra|].
    destruct IH as [I1 I2]; [intros; apply H; right; auto|]. specialize (H a (or_introl eq_refl)).
    assert (Rabs (f a) <= Rabs (g a) + h a). { replace (f a) with (g a + (f a - g a)) by ring. eapply Rle_trans; [apply Rabs_triang|]. lra. }
    split; [|lra]. match goal with |- Rabs (?x + ?y - (?z + ?t)) <= _ => replace (x + y - (z + t)) with ((x - z) + (y - t)) by ring end.
    eapply Rle_trans; [apply Rabs_triang|]. lra. }
  destruct B as [B1 B2]. replace (v - rsum (map g l)) with ((v - rsum (map f l)) + (rsum (map f l) - rsum (map g l))) by ring.
  eapply Rle_trans; [apply Rabs_triang|]. apply Rplus_le_compat; auto. eapply Rle_trans; [exact X|].
  apply Rmult_le_compat; try lra. apply sumabs_pos.
Qed.

(** Sums of numbers which are not negative, and of zeros. *)
Lemma sum_within_nonneg : forall u l v, u <= 1 -> sum_within u l v -> Forall (fun x => 0 <= x) l -> 0 <= v.
Proof.
  intros u l v Hu H. induction H as [|x|l1 l2 l x y z N1 N2 H1 IH1 H2 IH2 P E]; intros F; [lra|inversion F; auto|].
  assert (F' : Forall (fun x => 0 <= x) (l1 ++ l2)) by (rewrite Forall_forall in *; intros a Ha; apply F; apply Permutation_sym in P; eapply Permutation_in; eauto).
  apply Forall_app in F' as [F1 F2]. specialize (IH1 F1). specialize (IH2 F2). rewrite (Rabs_right (x + y)) in E by lra.
  apply Rabs_le_both in E. nra.
Qed.
Lemma sum_within_zero : forall u l v, sum_within u l v -> Forall (fun x => x = 0) l -> v = 0.
Proof.
  intros u l v H. induction H as [|x|l1 l2 l x y z N1 N2 H1 IH1 H2 IH2 P E]; intros F; [auto|inversion F; auto|].
  assert (F' : Forall (fun x => x = 0) (l1 ++ l2)) by (rewrite Forall_forall in *; intros a Ha; apply F; apply Permutation_sym in P; eapply Permutation_in; eauto).
  apply Forall_app in F' as [F1 F2]. rewrite (IH1 F1), (IH2 F2), Rplus_0_l, Rabs_R0, Rmult_0_r in E. apply Rabs_le_both in E. lra.
Qed.

(** Additions in the order of the list, and in any order without the leading 0. *)
Lemma sum_within_seq : forall u (add : R -> R -> R), (forall x y, Rabs (add x y - (x + y)) <= u * Rabs (x + y)) ->
  forall t l s, l <> [] -> sum_within u l s -> sum_within u (l ++ t) (fold_left add t s).
Proof.
  intros u add HA. induction t as [|a t IH]; intros l s Hl H; cbn [fold_left]; [rewrite app_nil_r; auto|].
  replace (l ++ a :: t) with ((l ++ [a]) ++ t) by (rewrite <- app_assoc; reflexivity). apply IH; [destruct l; discriminate|].
  apply (sum_add u l [a] _ s a); auto; [discriminate|constructor].
Qed.
Lemma sum_within_pad : forall u l v, sum_within u l v -> 0 <= u -> sum_within u (0 :: l) v.
Proof.
  intros u l v H Hu. destruct l as [|x l]; [inversion H as [|?|l1 l2 ? ? ? ? N1 _ _ _ P]; subst; [constructor|apply Permutation_nil in P; destruct l1; [congruence|discriminate]]|].
  apply (sum_add u [0] (x :: l) _ 0 v); auto; try discriminate; [constructor|]. rewrite Rplus_0_l, Rminus_eq_0, Rabs_R0. apply Rmult_le_pos; auto. apply Rabs_pos.
Qed.
Lemma sum_within_le : forall u u' l v, u <= u' -> sum_within u l v -> sum_within u' l v.
Proof.
  intros u u' l v Hu H. induction H as [|x|l1 l2 l x y z N1 N2 H1 IH1 H2 IH2 P E]; [constructor|constructor|].
  apply (sum_add u' l1 l2 l x y z); auto. eapply Rle_trans; [exact E|]. apply Rmult_le_compat_r; auto. apply Rabs_pos.
Qed.
