(** Condensed distance matrices (scipy [pdist]/[squareform]) and
    [itertools.combinations(range(n), 2)]. *)
From Coq Require Import List Arith Bool Lia.
Import ListNotations.

(** [combinations(range(n), 2)] in lexicographic order; the order of scipy's
    condensed matrices. *)
Definition pairs_from (i n : nat) : list (nat * nat) :=
  map (fun j => (i, j)) (seq (S i) (n - S i)).
Definition pairs (n : nat) : list (nat * nat) :=
  flat_map (fun i => pairs_from i n) (seq 0 n).

(** Number of condensed entries before row [i]: sum of [n-1-i'] for [i' < i]. *)
Fixpoint rowstart (n i : nat) : nat :=
  match i with
  | O => O
  | S i' => rowstart n i' + (n - S i')
  end.

(** Position of the pair [i < j] in a condensed matrix for [n] items. *)
Definition cidx (n i j : nat) : nat := rowstart n i + (j - S i).

(** [squareform] of a condensed vector [v]: entry (i, j); the diagonal is [d]. *)
Definition squareform {A} (d : A) (n : nat) (v : list A) (i j : nat) : A :=
  if i =? j then d
  else if i <? j then nth (cidx n i j) v d else nth (cidx n j i) v d.

(** scipy's usual closed formula for the position. *)
Lemma cidx_formula : forall n i j, i < j < n ->
  2 * cidx n i j = 2 * n * i - i * (i + 1) + 2 * (j - i - 1).
Proof.
  intros n i j H. unfold cidx.
  assert (2 * rowstart n i = 2 * n * i - i * (i + 1)).
  { assert (i < n) by lia. clear H j. induction i as [|i IH]; simpl rowstart; [lia|].
    rewrite Nat.mul_add_distr_l, IH by lia.
    assert (i * (i + 1) <= 2 * n * i) by nia. nia. }
  rewrite Nat.mul_add_distr_l. rewrite H0. lia.
Qed.

Lemma pairs_from_length : forall i n, length (pairs_from i n) = n - S i.
Proof. intros. unfold pairs_from. rewrite map_length, seq_length. auto. Qed.

Lemma flat_prefix_length : forall n i, i <= n ->
  length (flat_map (fun i => pairs_from i n) (seq 0 i)) = rowstart n i.
Proof.
  induction i as [|i IH]; intros Hi; auto.
  rewrite seq_S, flat_map_app, app_length, IH by lia. simpl.
  rewrite app_nil_r, pairs_from_length. lia.
Qed.

Lemma pairs_nth : forall n i j d, i < j < n -> nth (cidx n i j) (pairs n) d = (i, j).
Proof.
  intros n i j d H. unfold pairs.
  replace n with (i + (1 + (n - S i))) at 2 by lia.
  rewrite seq_app, flat_map_app. rewrite app_nth2; rewrite flat_prefix_length by lia;
    unfold cidx; [|lia].
  replace (rowstart n i + (j - S i) - rowstart n i) with (j - S i) by lia.
  rewrite seq_app, flat_map_app. rewrite app_nth1.
  - simpl. rewrite app_nil_r. unfold pairs_from.
    rewrite (nth_indep _ d ((fun j => (i, j)) 0)) by (rewrite map_length, seq_length; lia).
    rewrite map_nth, seq_nth by lia. f_equal. lia.
  - simpl. rewrite app_nil_r, pairs_from_length. lia.
Qed.

Lemma pairs_length : forall n, length (pairs n) = rowstart n n.
Proof. intros. unfold pairs. apply flat_prefix_length. lia. Qed.

Lemma pairs_In : forall n i j, In (i, j) (pairs n) <-> i < j < n.
Proof.
  intros n i j. unfold pairs. rewrite in_flat_map. split.
  - intros (x & Hx & Hp). apply in_seq in Hx. unfold pairs_from in Hp.
    apply in_map_iff in Hp as (y & E & Hy). injection E as -> ->. apply in_seq in Hy. lia.
  - intros H. exists i. split; [apply in_seq; lia|].
    apply in_map_iff. exists j. split; auto. apply in_seq. lia.
Qed.

Lemma rowstart_mono : forall n i j, i <= j -> rowstart n i <= rowstart n j.
Proof. induction 1; simpl; lia. Qed.

Lemma cidx_lt : forall n i j, i < j < n -> cidx n i j < length (pairs n).
Proof.
  intros n i j H. rewrite pairs_length. unfold cidx.
  assert (rowstart n (S i) <= rowstart n n) by (apply rowstart_mono; lia).
  simpl in H0. lia.
Qed.

(** The condensed matrix of a pairwise function, as built by a loop over
    [combinations]. *)
Definition condensed {A} (f : nat -> nat -> A) (n : nat) : list A :=
  map (fun p => f (fst p) (snd p)) (pairs n).

Lemma condensed_nth : forall A (f : nat -> nat -> A) n i j d, i < j < n ->
  nth (cidx n i j) (condensed f n) d = f i j.
Proof.
  intros. unfold condensed. set (g := fun p : nat * nat => f (fst p) (snd p)).
  rewrite (nth_indep _ d (g (0, 0))).
  - rewrite map_nth, pairs_nth by auto. reflexivity.
  - rewrite map_length. apply cidx_lt; auto.
Qed.

Lemma condensed_length : forall A (f : nat -> nat -> A) n,
  length (condensed f n) = length (pairs n).
Proof. intros; apply map_length. Qed.

Lemma squareform_condensed : forall A (f : nat -> nat -> A) d n i j,
  i < n -> j < n ->
  squareform d n (condensed f n) i j =
  if i =? j then d else if i <? j then f i j else f j i.
Proof.
  intros A f d n i j Hi Hj. unfold squareform.
  destruct (Nat.eqb_spec i j); auto.
  destruct (Nat.ltb_spec i j); apply condensed_nth; lia.
Qed.

Lemma squareform_sym : forall A (d : A) n v i j, squareform d n v i j = squareform d n v j i.
Proof.
  intros. unfold squareform. rewrite (Nat.eqb_sym j i).
  destruct (Nat.eqb_spec i j); auto.
  destruct (Nat.ltb_spec i j), (Nat.ltb_spec j i); auto; lia.
Qed.
