(** C03: merging two sorted distance tables. *)
From Coq Require Import List ZArith Reals Lra Lia Sorted Permutation.
From Verif Require Import Num Base Spec Outcome MergeModel MergeProofs.
Import ListNotations.

(** Every row of the merged table consists of the smallest entries of the two rows,
    in order, and no read or write is out of bounds (the outcome is [Done]). *)
Theorem C03_merge_sorted_arrays : forall (dists dists_ : list (list R)),
  length dists = length dists_ ->
  (forall d, In d dists \/ In d dists_ -> StronglySorted Rle d) ->
  (forall i, (i < length dists)%nat ->
     exists a t b t_, nth i dists [] = a :: t /\ nth i dists_ [] = b :: t_ /\ (a <= b)%R) ->
  exists ret, merge_sorted_arrays dists dists_ = Done ret /\ length ret = length dists /\
    forall i, (i < length dists)%nat ->
      k_smallest (length (nth i dists [])) (nth i dists [] ++ nth i dists_ []) (nth i ret []).
Proof.
  induction dists as [|d dists IH]; intros [|d_ dists_] Hlen Hs Hne; try discriminate.
  - exists []. split; auto. split; auto. intros i Hi. inversion Hi.
  - simpl in Hlen. injection Hlen as Hlen.
    destruct (IH dists_ Hlen) as (ret & Hret & Hl & Hk).
    { intros x [Hx|Hx]; apply Hs; simpl; auto. }
    { intros i Hi. apply (Hne (S i)). simpl; lia. }
    assert (Hm : merge_row d d_ = Done (kmin (length d) (d ++ d_))).
    { apply merge_row_kmin; [apply Hs; simpl; auto | apply Hs; simpl; auto|].
      apply (Hne 0%nat). simpl; lia. }
    exists (kmin (length d) (d ++ d_) :: ret). unfold merge_sorted_arrays in *. cbn [combine omap].
    cbn [fst snd]. rewrite Hm. cbn [obind]. rewrite Hret. cbn [obind].
    split; auto. split; [simpl; lia|].
    intros [|i] Hi; simpl nth.
    + split; [|split].
      * rewrite kmin_length, app_length. lia.
      * apply kmin_sorted.
      * apply kmin_split.
    + apply Hk. simpl in Hi. lia.
Qed.

(** The variant carrying indices: the result is a sorted selection of the two lists
    of (distance, index) pairs, so that every index stays with its distance. *)
Theorem C03_merge_with_indices : forall (I : Type) (D D_ : list (R * I)),
  StronglySorted (fun a b => (fst a <= fst b)%R) D ->
  StronglySorted (fun a b => (fst a <= fst b)%R) D_ ->
  (exists a t b t_, D = a :: t /\ D_ = b :: t_ /\ (fst a <= fst b)%R) ->
  exists res rest,
    merge_row_inds (map fst D) (map fst D_) (map snd D) (map snd D_)
      = Done (map fst res, map snd res) /\
    length res = length D /\
    StronglySorted (fun a b => (fst a <= fst b)%R) res /\
    Permutation (D ++ D_) (res ++ rest) /\
    (forall a b, In a res -> In b rest -> (fst a <= fst b)%R).
Proof.
  intros I D D_ HD HD_ Hne.
  set (m := lmerge (@fst R I) D D_).
  exists (firstn (length D) m), (skipn (length D) m).
  assert (Hs : StronglySorted (kle (@fst R I)) m) by (apply lmerge_sorted; auto).
  split; [apply merge_row_inds_lmerge; auto|].
  split; [|split; [|split]].
  - rewrite firstn_length. unfold m.
    rewrite <- (Permutation_length (lmerge_perm fst D D_)), app_length. lia.
  - apply StronglySorted_firstn. exact Hs.
  - rewrite firstn_skipn. apply lmerge_perm.
  - rewrite <- (firstn_skipn (length D) m) in Hs.
    apply StronglySorted_app_iff in Hs. destruct Hs as (_ & _ & Hs). exact Hs.
Qed.

(** Non-vacuity: two rows meeting the hypotheses, the second entry of the first row
    being displaced. *)
Example C03_example :
  let D := [0; 3; 5]%R in let D_ := [1; 4]%R in
  StronglySorted Rle D /\ StronglySorted Rle D_ /\
  k_smallest 3 (D ++ D_) [0; 1; 3]%R /\ merge_row D D_ = Done [0; 1; 3]%R.
Proof.
  intros D D_.
  assert (H1 : StronglySorted Rle D) by (repeat constructor; lra).
  assert (H2 : StronglySorted Rle D_) by (repeat constructor; lra).
  assert (K : kmin 3 (D ++ D_) = [0; 1; 3]%R).
  { apply kmin_char with (r := [5; 4]%R).
    - repeat constructor; lra.
    - reflexivity.
    - simpl. apply perm_skip. apply perm_trans with [3; 1; 5; 4]%R.
      + apply perm_skip, perm_swap.
      + apply perm_swap.
    - simpl. intros a b [<-|[<-|[<-|[]]]] [<-|[<-|[]]]; lra. }
  repeat split; auto.
  - repeat constructor; lra.
  - rewrite <- K. apply kmin_split.
  - rewrite merge_row_kmin; auto.
    + simpl length. now rewrite K.
    + unfold D, D_. repeat eexists. lra.
Qed.

(** The condition on the smallest entries is needed: otherwise the backwards scan
    runs off the row. *)
Example C03_out_of_bounds_without_condition : merge_row [2]%R [1]%R = OutOfBounds.
Proof.
  unfold merge_row, scan_back. simpl. change (nleb 2 1)%R with (Rleb 2 1).
  assert (Rleb 2 1 = false) as -> by (apply Rleb_false; lra).
  reflexivity.
Qed.

Print Assumptions C03_merge_sorted_arrays.
Print Assumptions C03_merge_with_indices.
