(** C16, C17: collapsing rows into groups. *)
From Coq Require Import List Arith Bool Lia Permutation Sorted.
From Verif Require Import Base Condensed CollapseModel CollapseProofs.
Import ListNotations.

(** C16 (combinatorial part): for every symmetric overlap relation, given as a
    condensed vector, the groups are a partition around leaders (see
    [leader_partition] in CollapseProofs.v). *)
Theorem C16_groups_partition_around_leaders : forall n (overlap : nat -> nat -> bool),
  (forall i j, overlap i j = overlap j i) ->
  let groups := collapse_into_groups n (condensed overlap n) in
  Permutation (concat groups) (seq 0 n) /\
  Forall (fun g => g <> [] /\ StronglySorted lt g) groups /\
  StronglySorted lt (map (hd 0) groups) /\
  (forall g j, In g groups -> In j g -> j <> hd 0 g -> overlap (hd 0 g) j = true) /\
  (forall i1 i2 j, i1 < i2 < length groups -> In j (nth i2 groups []) ->
      overlap (hd 0 (nth i1 groups [])) j = false).
Proof.
  intros n ov Hsym groups. unfold groups, collapse_into_groups.
  set (sq := squareform false n (condensed ov n)).
  destruct (groups_leader_partition n sq) as [P1 P2 P3 P4 P5 P6].
  set (gs := build_groups n (fst (group_nums n sq))) in *.
  assert (Hsq : forall i j, i < n -> j < n -> i <> j -> sq i j = ov i j).
  { intros i j Hi Hj Hne. unfold sq. rewrite squareform_condensed by auto.
    destruct (Nat.eqb_spec i j); [contradiction|].
    destruct (i <? j); auto. }
  assert (Hin : forall g j, In g gs -> In j g -> j < n).
  { intros g j Hg Hj. assert (X : In j (seq 0 n)).
    { eapply Permutation_in; [exact P1|]. apply in_concat; eauto. }
    apply in_seq in X; lia. }
  assert (Hhd : forall g, In g gs -> In (hd 0 g) g).
  { intros g Hg. rewrite Forall_forall in P2. specialize (P2 g Hg).
    destruct g; [congruence|left; auto]. }
  split; [exact P1|]. split; [|split; [exact P4|split]].
  - rewrite Forall_forall in P2, P3 |- *. auto.
  - intros g j Hg Hj Hne. rewrite <- Hsq; eauto.
  - intros i1 i2 j Hi Hj.
    assert (G1 : In (nth i1 gs []) gs) by (apply nth_In; lia).
    assert (G2 : In (nth i2 gs []) gs) by (apply nth_In; lia).
    rewrite <- Hsq; eauto.
    intros E.
    (* leader of an earlier group is smaller than all members of a later one *)
    assert (Hlt : nth i1 (map (hd 0) gs) 0 < nth i2 (map (hd 0) gs) 0).
    { apply StronglySorted_nth; auto. rewrite map_length. lia. }
    assert (Hm : forall i, nth i (map (hd 0) gs) 0 = hd 0 (nth i gs []))
      by (intro i; exact (map_nth (hd 0) gs [] i)).
    rewrite !Hm in Hlt.
    rewrite Forall_forall in P3. specialize (P3 _ G2).
    destruct (nth i2 gs []) as [|h t] eqn:Eg; [destruct Hj|]. simpl in *.
    inversion P3 as [|? ? _ Hf]; subst. rewrite Forall_forall in Hf.
    destruct Hj as [->|Hj]; [lia|]. apply Hf in Hj. lia.
Qed.

(** Non-vacuity and a run: rows 0,2 overlap, rows 1,3 overlap, nothing else. *)
Example C16_example :
  let ov i j := orb (orb ((i =? 0) && (j =? 2)) ((i =? 2) && (j =? 0)))
                    (orb ((i =? 1) && (j =? 3)) ((i =? 3) && (j =? 1))) in
  collapse_into_groups 4 (condensed ov 4) = [[0; 2]; [1; 3]].
Proof. reflexivity. Qed.

(** C17: "all indices in the same group overlap" (docstring) is false: row 0
    overlaps 1 and 2, rows 1 and 2 do not overlap, and all three are grouped. *)
Theorem C17_group_members_pairwise_overlap_refuted :
  exists n (overlap : nat -> nat -> bool) g i j,
    (forall a b, overlap a b = overlap b a) /\
    In g (collapse_into_groups n (condensed overlap n)) /\
    In i g /\ In j g /\ i <> j /\ overlap i j = false.
Proof.
  exists 3, (fun a b => (a =? 0) || (b =? 0)), [0; 1; 2], 1, 2.
  split; [intros; apply orb_comm|]. simpl. repeat split; auto.
Qed.

(** The part of C17 that holds: any two members of a group overlap a common third
    member, the leader (unless one of them is the leader). *)
Theorem C17_group_members_pairwise_overlap_partial : forall n (overlap : nat -> nat -> bool),
  (forall i j, overlap i j = overlap j i) ->
  forall g i j, In g (collapse_into_groups n (condensed overlap n)) ->
    In i g -> In j g -> i <> j ->
    overlap i j = true \/ exists l, In l g /\ overlap l i = true /\ overlap l j = true.
Proof.
  intros n ov Hsym g i j Hg Hi Hj Hne.
  destruct (C16_groups_partition_around_leaders n ov Hsym) as (_ & P2 & _ & P4 & _).
  destruct (Nat.eq_dec i (hd 0 g)) as [->|Hi']; [left; apply P4; auto|].
  destruct (Nat.eq_dec j (hd 0 g)) as [->|Hj']; [left; rewrite Hsym; apply P4; auto|].
  right. exists (hd 0 g). repeat split; try (apply P4; auto).
  rewrite Forall_forall in P2. destruct (P2 g Hg) as [Hn _].
  destruct g; [congruence|left; auto].
Qed.

Print Assumptions C16_groups_partition_around_leaders.
Print Assumptions C17_group_members_pairwise_overlap_refuted.
Print Assumptions C17_group_members_pairwise_overlap_partial.
