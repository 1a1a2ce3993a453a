(** Dual variables bounded by the largest cost, for the problem without capacities. *)
From Coq Require Import Reals ZArith Arith Bool Lia Lra List.
From Verif Require Import Sums EmdCert EmdUniq.
Open Scope Z_scope.

(** Least and greatest of [f 0 .. f k]. *)
Fixpoint zmin (k : nat) (f : nat -> Z) : Z := match k with O => f 0%nat | S k' => Z.min (zmin k' f) (f k) end.
Fixpoint zmax (k : nat) (f : nat -> Z) : Z := match k with O => f 0%nat | S k' => Z.max (zmax k' f) (f k) end.

Lemma zmin_le : forall k f i, (i <= k)%nat -> zmin k f <= f i.
Proof.
  induction k as [|k IH]; intros f i Hi; cbn [zmin]; [replace i with 0%nat by lia; lia|].
  destruct (Nat.eq_dec i (S k)) as [->|]; [lia|]. specialize (IH f i ltac:(lia)). lia.
Qed.
Lemma zmin_ex : forall k f, exists i, (i <= k)%nat /\ zmin k f = f i.
Proof.
  induction k as [|k IH]; intros f; cbn [zmin]; [exists 0%nat; auto|]. destruct (IH f) as (i & Hi & E).
  destruct (Z.min_spec (zmin k f) (f (S k))) as [[_ ->] | [_ ->]]; [exists i; split; auto | exists (S k); auto].
Qed.
Lemma zmax_ge : forall k f i, (i <= k)%nat -> f i <= zmax k f.
Proof.
  induction k as [|k IH]; intros f i Hi; cbn [zmax]; [replace i with 0%nat by lia; lia|].
  destruct (Nat.eq_dec i (S k)) as [->|]; [lia|]. specialize (IH f i ltac:(lia)). lia.
Qed.
Lemma zmax_ex : forall k f, exists i, (i <= k)%nat /\ zmax k f = f i.
Proof.
  induction k as [|k IH]; intros f; cbn [zmax]; [exists 0%nat; auto|]. destruct (IH f) as (i & Hi & E).
  destruct (Z.max_spec (zmax k f) (f (S k))) as [[_ ->] | [_ ->]]; [exists (S k); auto | exists i; split; auto].
Qed.

Lemma ZSum_two : forall k f i j, (forall t, (t < k)%nat -> 0 <= f t) -> (i < k)%nat -> (j < k)%nat -> i <> j -> f i + f j <= ZSum k f.
Proof.
  intros k f i j H Hi Hj Hne.
  assert (E : ZSum k (fun t => (if Nat.eqb t i then f i else 0) + (if Nat.eqb t j then f j else 0)) = f i + f j).
  { rewrite ZSum_plus. f_equal.
    - rewrite (ZSum_single k _ i Hi); [now rewrite Nat.eqb_refl|]. intros t _ N. apply Nat.eqb_neq in N. now rewrite N.
    - rewrite (ZSum_single k _ j Hj); [now rewrite Nat.eqb_refl|]. intros t _ N. apply Nat.eqb_neq in N. now rewrite N. }
  rewrite <- E. apply ZSum_le. intros t Ht. specialize (H t Ht).
  destruct (Nat.eqb_spec t i), (Nat.eqb_spec t j); subst; try congruence; lia.
Qed.

Section Flat.
  Variables n1 n2 : nat.
  Variables A B : nat -> Z.
  Variables C U X : nat -> nat -> Z.
  Variables ls ld ps pd : nat -> Z.
  Variable big : Z.
  Hypothesis K : cert n1 n2 A B C U X ls ld ps pd big.
  Variables (a : nat -> Z) (k : nat) (d : Z).
  Hypothesis Hk : (k < n1)%nat.
  Hypothesis Hn2 : (1 <= n2)%nat.
  Hypothesis HA : forall i, (i < n1)%nat -> A i = a i + (if Nat.eqb i k then d else 0).
  Hypothesis HU : forall i j, (i < n1)%nat -> (j < n2)%nat -> U i j = Z.min (a i) (B j).
  Hypothesis Hd : 0 <= d.
  Variable cm : Z.
  Hypothesis Hcm : forall i j, (i < n1)%nat -> (j < n2)%nat -> C i j <= cm.

  Definition p1 (i : nat) : Z := zmin (n2 - 1) (fun j => if X i j =? a i then Z.min (ps i) (C i j + pd j) else ps i).
  Definition q1 (j : nat) : Z := zmax (n1 - 1) (fun i => if X i j =? B j then Z.max (pd j) (p1 i - C i j) else pd j).
  Definition q2 (j : nat) : Z := zmax (n1 - 1) (fun i => p1 i - C i j).
  Definition p2 (i : nat) : Z := zmin (n2 - 1) (fun j => C i j + q2 j).

  Lemma p1_le : forall i, (i < n1)%nat -> p1 i <= ps i.
  Proof.
    intros i Hi. unfold p1. destruct (zmin_ex (n2 - 1) (fun j => if X i j =? a i then Z.min (ps i) (C i j + pd j) else ps i)) as (j & Hj & ->).
    destruct (X i j =? a i); lia.
  Qed.
  Lemma q1_ge : forall j, (j < n2)%nat -> pd j <= q1 j.
  Proof.
    intros j Hj. unfold q1. destruct (zmax_ex (n1 - 1) (fun i => if X i j =? B j then Z.max (pd j) (p1 i - C i j) else pd j)) as (i & Hi & ->).
    destruct (X i j =? B j); lia.
  Qed.

  Lemma feasible1 : forall i j, (i < n1)%nat -> (j < n2)%nat -> p1 i - q1 j <= C i j.
  Proof.
    intros i j Hi Hj. pose proof (c_slack _ _ _ _ _ _ _ _ _ _ _ _ K) as [Hlo Hhi].
    pose proof (c_x _ _ _ _ _ _ _ _ _ _ _ _ K i j Hi Hj) as Hx. rewrite HU in Hx by auto.
    pose proof (p1_le i Hi). pose proof (q1_ge j Hj).
    destruct (Z.eq_dec (X i j) (a i)) as [E1|E1].
    - pose proof (zmin_le (n2 - 1) (fun j => if X i j =? a i then Z.min (ps i) (C i j + pd j) else ps i) j ltac:(lia)) as L.
      cbv beta in L. fold (p1 i) in L. rewrite (proj2 (Z.eqb_eq _ _) E1) in L. lia.
    - destruct (Z.eq_dec (X i j) (B j)) as [E2|E2].
      + pose proof (zmax_ge (n1 - 1) (fun i => if X i j =? B j then Z.max (pd j) (p1 i - C i j) else pd j) i ltac:(lia)) as L.
        cbv beta in L. fold (q1 j) in L. rewrite (proj2 (Z.eqb_eq _ _) E2) in L. lia.
      + specialize (Hlo i j Hi Hj). rewrite HU in Hlo by auto. lia.
  Qed.

  Lemma X_row : forall i, (i < n1)%nat -> ZSum n2 (fun j => X i j) <= A i.
  Proof.
    intros i Hi. pose proof (c_row _ _ _ _ _ _ _ _ _ _ _ _ K i Hi). pose proof (c_ls _ _ _ _ _ _ _ _ _ _ _ _ K i Hi). lia.
  Qed.
  Lemma X_col : forall j, (j < n2)%nat -> ZSum n1 (fun i => X i j) <= B j.
  Proof.
    intros j Hj. pose proof (c_col _ _ _ _ _ _ _ _ _ _ _ _ K j Hj). pose proof (c_ld _ _ _ _ _ _ _ _ _ _ _ _ K j Hj). lia.
  Qed.
  Lemma X_pos : forall i j, (i < n1)%nat -> (j < n2)%nat -> 0 <= X i j.
  Proof. intros i j Hi Hj. apply (c_x _ _ _ _ _ _ _ _ _ _ _ _ K i j Hi Hj). Qed.

  (** Tight against the column potentials it started with. *)
  Definition tight1 (i j : nat) : Prop := C i j <= p1 i - pd j.

  Lemma tight_row : forall i, (i < n1)%nat -> i <> k -> forall j, (j < n2)%nat -> 0 < X i j -> tight1 i j.
  Proof.
    intros i Hi Hne j Hj Hx. pose proof (c_slack _ _ _ _ _ _ _ _ _ _ _ _ K) as [_ Hhi]. specialize (Hhi i j Hi Hj Hx).
    unfold tight1, p1.
    destruct (zmin_ex (n2 - 1) (fun j => if X i j =? a i then Z.min (ps i) (C i j + pd j) else ps i)) as (j2 & Hj2 & ->).
    destruct (Z.eqb_spec (X i j2) (a i)) as [E|E]; [|lia].
    destruct (Nat.eq_dec j j2) as [->|Hj']; [lia|]. exfalso.
    pose proof (ZSum_two n2 (fun j => X i j) j j2 (fun t Ht => X_pos i t Hi Ht) Hj ltac:(lia) Hj') as S. cbv beta in S.
    pose proof (X_row i Hi) as R. rewrite HA in R by auto. apply Nat.eqb_neq in Hne. rewrite Hne in R. lia.
  Qed.

  (** In row [k] all but [d] is tight. *)
  Definition loose (i j : nat) : Z := if (Nat.eqb i k && negb (C i j <=? p1 i - pd j))%bool then X i j else 0.

  Lemma loose_row : ZSum n2 (loose k) <= d.
  Proof.
    pose proof (c_slack _ _ _ _ _ _ _ _ _ _ _ _ K) as [_ Hhi].
    assert (E1 : p1 k = ps k \/ exists j2, (j2 < n2)%nat /\ X k j2 = a k /\ p1 k = C k j2 + pd j2).
    { unfold p1.
      destruct (zmin_ex (n2 - 1) (fun j => if X k j =? a k then Z.min (ps k) (C k j + pd j) else ps k)) as (j2 & Hj2 & ->).
      destruct (Z.eqb_spec (X k j2) (a k)) as [E|E]; [|auto].
      destruct (Z.min_spec (ps k) (C k j2 + pd j2)) as [[_ ->] | [_ ->]]; [auto|]. right. exists j2. split; [lia|]. auto. }
    destruct E1 as [E|(j2 & Hj2 & E & Ep)].
    - rewrite ZSum_zero; [lia|]. intros j Hj. unfold loose. rewrite Nat.eqb_refl, E. cbn [andb].
      destruct (Z.leb_spec (C k j) (ps k - pd j)) as [L|L]; [reflexivity|]. cbn [negb].
      pose proof (X_pos k j Hk Hj). destruct (Z.eq_dec (X k j) 0) as [Z0|Z0]; auto. specialize (Hhi k j Hk Hj ltac:(lia)). lia.
    - assert (L : ZSum n2 (fun j => loose k j + (if Nat.eqb j j2 then X k j2 else 0)) <= ZSum n2 (fun j => X k j)).
      { apply ZSum_le. intros j Hj. unfold loose. rewrite Nat.eqb_refl. cbn [andb]. pose proof (X_pos k j Hk Hj).
        destruct (Nat.eqb_spec j j2) as [->|]; [|destruct (negb _); lia].
        destruct (Z.leb_spec (C k j2) (p1 k - pd j2)); [cbn [negb]; lia|lia]. }
      rewrite ZSum_plus in L. rewrite (ZSum_single n2 (fun j => if Nat.eqb j j2 then X k j2 else 0) j2 Hj2) in L.
      2: { intros j _ N. apply Nat.eqb_neq in N. now rewrite N. }
      rewrite Nat.eqb_refl, E in L. pose proof (X_row k Hk) as R. rewrite HA, Nat.eqb_refl in R by auto. lia.
  Qed.

  Lemma tight2 : forall i j, (i < n1)%nat -> (j < n2)%nat -> 0 < X i j -> tight1 i j -> C i j <= p1 i - q1 j.
  Proof.
    intros i j Hi Hj Hx T. unfold tight1 in T. unfold q1.
    destruct (zmax_ex (n1 - 1) (fun i => if X i j =? B j then Z.max (pd j) (p1 i - C i j) else pd j)) as (i2 & Hi2 & ->).
    destruct (Z.eqb_spec (X i2 j) (B j)) as [E|E]; [|lia].
    destruct (Nat.eq_dec i i2) as [->|N]; [lia|]. exfalso.
    pose proof (ZSum_two n1 (fun i => X i j) i i2 (fun t Ht => X_pos t j Ht Hj) Hi ltac:(lia) N) as S. cbv beta in S.
    pose proof (X_col j Hj). lia.
  Qed.

  Lemma q2_le : forall j, (j < n2)%nat -> q2 j <= q1 j.
  Proof.
    intros j Hj. unfold q2. destruct (zmax_ex (n1 - 1) (fun i => p1 i - C i j)) as (i & Hi & ->).
    pose proof (feasible1 i j ltac:(lia) Hj). lia.
  Qed.
  Lemma q2_ge : forall i j, (i < n1)%nat -> p1 i - C i j <= q2 j.
  Proof. intros i j Hi. apply (zmax_ge (n1 - 1) (fun i => p1 i - C i j) i). lia. Qed.
  Lemma p2_ge : forall i, (i < n1)%nat -> p1 i <= p2 i.
  Proof.
    intros i Hi. unfold p2. destruct (zmin_ex (n2 - 1) (fun j => C i j + q2 j)) as (j & Hj & ->).
    pose proof (q2_ge i j Hi). lia.
  Qed.
  Lemma p2_le : forall i j, (j < n2)%nat -> p2 i <= C i j + q2 j.
  Proof. intros i j Hj. apply (zmin_le (n2 - 1) (fun j => C i j + q2 j) j). lia. Qed.

  Theorem flat_duals : exists p q : nat -> Z,
    (forall i j, (i < n1)%nat -> (j < n2)%nat -> p i - q j <= C i j) /\
    (forall i, (i < n1)%nat -> 0 <= p i <= cm) /\ (forall j, (j < n2)%nat -> 0 <= q j <= cm) /\
    ZSum n1 (fun i => ZSum n2 (fun j => C i j * X i j)) <=
      ZSum n1 (fun i => p i * ZSum n2 (fun j => X i j)) - ZSum n2 (fun j => q j * ZSum n1 (fun i => X i j)) + 2 * cm * d.
  Proof.
    set (m := zmin (n2 - 1) q2).
    assert (Hm : forall j, (j < n2)%nat -> m <= q2 j) by (intros j Hj; apply zmin_le; lia).
    destruct (zmin_ex (n2 - 1) q2) as (j0 & Hj0 & Em). fold m in Em.
    pose proof (c_C _ _ _ _ _ _ _ _ _ _ _ _ K) as HC0.
    assert (Hp : forall i, (i < n1)%nat -> m <= p2 i <= cm + m).
    { intros i Hi. split.
      - unfold p2. destruct (zmin_ex (n2 - 1) (fun j => C i j + q2 j)) as (j & Hj & ->).
        specialize (HC0 i j Hi ltac:(lia)). specialize (Hm j ltac:(lia)). lia.
      - pose proof (p2_le i j0 ltac:(lia)). specialize (Hcm i j0 Hi ltac:(lia)). lia. }
    assert (Hq : forall j, (j < n2)%nat -> m <= q2 j <= cm + m).
    { intros j Hj. split; [auto|]. unfold q2. destruct (zmax_ex (n1 - 1) (fun i => p1 i - C i j)) as (i & Hi & ->).
      specialize (HC0 i j ltac:(lia) Hj). pose proof (p2_ge i ltac:(lia)). specialize (Hp i ltac:(lia)). lia. }
    exists (fun i => p2 i - m), (fun j => q2 j - m).
    split; [intros i j Hi Hj; pose proof (p2_le i j Hj); lia|].
    split; [intros i Hi; specialize (Hp i Hi); lia|]. split; [intros j Hj; specialize (Hq j Hj); lia|].
    assert (E : forall i j, (i < n1)%nat -> (j < n2)%nat ->
      C i j * X i j <= (p2 i - m) * X i j + (- (q2 j - m)) * X i j + 2 * cm * loose i j).
    { intros i j Hi Hj. pose proof (X_pos i j Hi Hj) as Hx. destruct (Z.eq_dec (X i j) 0) as [Z0|Z0].
      - unfold loose. rewrite Z0. destruct (_ && _)%bool; lia.
      - assert (T : tight1 i j -> C i j <= p2 i - q2 j).
        { intros T. pose proof (tight2 i j Hi Hj ltac:(lia) T). pose proof (p2_ge i Hi). pose proof (q2_le j Hj). lia. }
        unfold loose. destruct (Nat.eqb_spec i k) as [->|N]; cbn [andb].
        + destruct (Z.leb_spec (C k j) (p1 k - pd j)) as [L|L]; cbn [negb].
          * specialize (T L). nia.
          * specialize (Hp k Hk). specialize (Hq j Hj). specialize (Hcm k j Hk Hj). nia.
        + specialize (T (tight_row i Hi N j Hj ltac:(lia))). nia. }
    apply Z.le_trans with (ZSum n1 (fun i => ZSum n2 (fun j => (p2 i - m) * X i j + (- (q2 j - m)) * X i j + 2 * cm * loose i j))).
    { apply ZSum_le. intros i Hi. apply ZSum_le. intros j Hj. auto. }
    rewrite (ZSum_ext n1 _ (fun i => (p2 i - m) * ZSum n2 (fun j => X i j) + ZSum n2 (fun j => - (q2 j - m) * X i j) + 2 * cm * ZSum n2 (loose i))).
    2: { intros i Hi. rewrite !ZSum_plus, !ZSum_scal. reflexivity. }
    rewrite !ZSum_plus, ZSum_scal. rewrite (ZSum_swap n1 n2 (fun i j => - (q2 j - m) * X i j)).
    rewrite (ZSum_ext n2 (fun j => ZSum n1 (fun i => - (q2 j - m) * X i j)) (fun j => -1 * ((q2 j - m) * ZSum n1 (fun i => X i j)))).
    2: { intros j Hj. rewrite ZSum_scal. lia. }
    rewrite ZSum_scal. rewrite (ZSum_single n1 (fun i => ZSum n2 (loose i)) k Hk).
    2: { intros i Hi N. apply ZSum_zero. intros j Hj. unfold loose. apply Nat.eqb_neq in N. now rewrite N. }
    pose proof loose_row as L. assert (0 <= cm) by (specialize (Hq 0%nat ltac:(lia)); lia). nia.
  Qed.
End Flat.
