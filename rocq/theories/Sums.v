(** Finite sums [f 0 + ... + f (k-1)] over R and Z. *)
From Coq Require Import Reals ZArith Lia Lra List.
Open Scope R_scope.

Fixpoint Sum (k : nat) (f : nat -> R) : R := match k with O => 0 | S j => Sum j f + f j end.
Fixpoint ZSum (k : nat) (f : nat -> Z) : Z := match k with O => 0%Z | S j => (ZSum j f + f j)%Z end.

Lemma Sum_ext : forall k f g, (forall i, (i < k)%nat -> f i = g i) -> Sum k f = Sum k g.
Proof. induction k as [|k IH]; intros f g H; cbn [Sum]; [reflexivity|]. rewrite (IH f g), (H k); auto. Qed.

Lemma ZSum_ext : forall k f g, (forall i, (i < k)%nat -> f i = g i) -> ZSum k f = ZSum k g.
Proof. induction k as [|k IH]; intros f g H; cbn [ZSum]; [reflexivity|]. rewrite (IH f g), (H k); auto. Qed.

Lemma IZR_ZSum : forall k f, IZR (ZSum k f) = Sum k (fun i => IZR (f i)).
Proof. induction k as [|k IH]; intros f; cbn [Sum ZSum]; [reflexivity|]. now rewrite plus_IZR, IH. Qed.

Lemma Sum_plus : forall k f g, Sum k (fun i => f i + g i) = Sum k f + Sum k g.
Proof. induction k as [|k IH]; intros f g; cbn [Sum]; [lra|]. rewrite IH. lra. Qed.

Lemma Sum_minus : forall k f g, Sum k (fun i => f i - g i) = Sum k f - Sum k g.
Proof. induction k as [|k IH]; intros f g; cbn [Sum]; [lra|]. rewrite IH. lra. Qed.

Lemma Sum_scal : forall k c f, Sum k (fun i => c * f i) = c * Sum k f.
Proof. induction k as [|k IH]; intros c f; cbn [Sum]; [lra|]. rewrite IH. lra. Qed.

Lemma Sum_scal_r : forall k c f, Sum k (fun i => f i * c) = Sum k f * c.
Proof. induction k as [|k IH]; intros c f; cbn [Sum]; [lra|]. rewrite IH. lra. Qed.

Lemma Sum_const : forall k c, Sum k (fun _ => c) = INR k * c.
Proof. induction k as [|k IH]; intros c; cbn [Sum]; [simpl; lra|]. rewrite IH, S_INR. lra. Qed.

Lemma Sum_zero : forall k f, (forall i, (i < k)%nat -> f i = 0) -> Sum k f = 0.
Proof. intros k f H. rewrite (Sum_ext k f (fun _ => 0)) by auto. rewrite Sum_const. lra. Qed.

Lemma Sum_le : forall k f g, (forall i, (i < k)%nat -> f i <= g i) -> Sum k f <= Sum k g.
Proof.
  induction k as [|k IH]; intros f g H; cbn [Sum]; [lra|].
  pose proof (IH f g ltac:(auto)). pose proof (H k ltac:(lia)). lra.
Qed.

Lemma Sum_nonneg : forall k f, (forall i, (i < k)%nat -> 0 <= f i) -> 0 <= Sum k f.
Proof. intros k f H. rewrite <- (Sum_zero k (fun _ => 0)) by auto. now apply Sum_le. Qed.

Lemma Sum_swap : forall k l f, Sum k (fun i => Sum l (fun j => f i j)) = Sum l (fun j => Sum k (fun i => f i j)).
Proof.
  induction k as [|k IH]; intros l f; cbn [Sum].
  - symmetry. now apply Sum_zero.
  - rewrite IH, <- Sum_plus. reflexivity.
Qed.

Lemma Sum_ge_one : forall k f i, (forall j, (j < k)%nat -> 0 <= f j) -> (i < k)%nat -> f i <= Sum k f.
Proof.
  induction k as [|k IH]; intros f i H Hi; [lia|]. cbn [Sum].
  pose proof (Sum_nonneg k f ltac:(auto)). pose proof (H k ltac:(lia)).
  destruct (Nat.eq_dec i k) as [-> | Hne]; [lra|]. pose proof (IH f i ltac:(auto) ltac:(lia)). lra.
Qed.

Lemma Sum_single : forall k f i, (i < k)%nat -> (forall j, (j < k)%nat -> j <> i -> f j = 0) -> Sum k f = f i.
Proof.
  induction k as [|k IH]; intros f i Hi H; [lia|]. cbn [Sum]. destruct (Nat.eq_dec i k) as [-> | Hne].
  - rewrite Sum_zero; [lra|]. intros j Hj. apply H; lia.
  - rewrite (IH f i), (H k); try lia; [lra|]. intros j Hj Hj'. apply H; lia.
Qed.

Lemma Sum_zero_inv : forall k f, (forall i, (i < k)%nat -> 0 <= f i) -> Sum k f = 0 -> forall i, (i < k)%nat -> f i = 0.
Proof. intros k f H E i Hi. pose proof (Sum_ge_one k f i H Hi). pose proof (H i Hi). lra. Qed.

Lemma Sum_abs : forall k f, Rabs (Sum k f) <= Sum k (fun i => Rabs (f i)).
Proof.
  induction k as [|k IH]; intros f; cbn [Sum]; [rewrite Rabs_R0; lra|].
  pose proof (Rabs_triang (Sum k f) (f k)). pose proof (IH f). lra.
Qed.

Lemma ZSum_plus : forall k f g, ZSum k (fun i => f i + g i)%Z = (ZSum k f + ZSum k g)%Z.
Proof. induction k as [|k IH]; intros f g; cbn [ZSum]; [lia|]. rewrite IH. lia. Qed.

Lemma ZSum_zero : forall k f, (forall i, (i < k)%nat -> f i = 0%Z) -> ZSum k f = 0%Z.
Proof. induction k as [|k IH]; intros f H; cbn [ZSum]; [reflexivity|]. rewrite IH, H by auto. lia. Qed.

Lemma ZSum_le : forall k f g, (forall i, (i < k)%nat -> (f i <= g i)%Z) -> (ZSum k f <= ZSum k g)%Z.
Proof.
  induction k as [|k IH]; intros f g H; cbn [ZSum]; [lia|].
  pose proof (IH f g ltac:(auto)). pose proof (H k ltac:(lia)). lia.
Qed.

Lemma ZSum_nonneg : forall k f, (forall i, (i < k)%nat -> (0 <= f i)%Z) -> (0 <= ZSum k f)%Z.
Proof. intros k f H. rewrite <- (ZSum_zero k (fun _ => 0%Z)) by auto. now apply ZSum_le. Qed.

Lemma ZSum_swap : forall k l f, ZSum k (fun i => ZSum l (fun j => f i j)) = ZSum l (fun j => ZSum k (fun i => f i j)).
Proof.
  induction k as [|k IH]; intros l f; cbn [ZSum].
  - symmetry. now apply ZSum_zero.
  - rewrite IH, <- ZSum_plus. reflexivity.
Qed.

Lemma ZSum_single : forall k f i, (i < k)%nat -> (forall j, (j < k)%nat -> j <> i -> f j = 0%Z) -> ZSum k f = f i.
Proof.
  induction k as [|k IH]; intros f i Hi H; [lia|]. cbn [ZSum]. destruct (Nat.eq_dec i k) as [-> | Hne].
  - rewrite ZSum_zero; [lia|]. intros j Hj. apply H; lia.
  - rewrite (IH f i), (H k); try lia. intros j Hj Hj'. apply H; lia.
Qed.

Lemma ZSum_const : forall k c, ZSum k (fun _ => c) = (Z.of_nat k * c)%Z.
Proof. induction k as [|k IH]; intros c; cbn [ZSum]; [lia|]. rewrite IH. lia. Qed.

Lemma ZSum_scal : forall k c f, ZSum k (fun i => c * f i)%Z = (c * ZSum k f)%Z.
Proof. induction k as [|k IH]; intros c f; cbn [ZSum]; [lia|]. rewrite IH. lia. Qed.

Lemma ZSum_ge_one : forall k f i, (forall j, (j < k)%nat -> (0 <= f j)%Z) -> (i < k)%nat -> (f i <= ZSum k f)%Z.
Proof.
  induction k as [|k IH]; intros f i H Hi; [lia|]. cbn [ZSum].
  pose proof (ZSum_nonneg k f ltac:(auto)). pose proof (H k ltac:(lia)).
  destruct (Nat.eq_dec i k) as [-> | Hne]; [lia|]. pose proof (IH f i ltac:(auto) ltac:(lia)). lia.
Qed.

(** A sum that is positive has a positive term. *)
Lemma ZSum_pos : forall k f, (0 < ZSum k f)%Z -> exists i, (i < k)%nat /\ (0 < f i)%Z.
Proof.
  induction k as [|k IH]; intros f H; cbn [ZSum] in H; [lia|].
  destruct (Z_lt_ge_dec 0 (f k)); [exists k; auto|].
  destruct (IH f ltac:(lia)) as (i & Hi & H'). exists i. split; auto.
Qed.

(** A sum below its number of terms, none negative, has a zero term. *)
Lemma ZSum_small : forall k f, (forall i, (i < k)%nat -> (0 <= f i)%Z) -> (ZSum k f < Z.of_nat k)%Z ->
  exists i, (i < k)%nat /\ f i = 0%Z.
Proof.
  induction k as [|k IH]; intros f H H'; cbn [ZSum] in H'; [lia|].
  destruct (Z.eq_dec (f k) 0); [exists k; auto|].
  pose proof (H k ltac:(lia)). destruct (IH f) as (i & Hi & E); [auto | lia |]. exists i. auto.
Qed.
