(** The neighbour search against the specification. *)
From Coq Require Import List ZArith Arith Bool Lia Reals Lra Permutation Sorted.
From Verif Require Import Num Base Spec SpecGeom Outcome LatticeModel LatticeProofs LatticeProofs2
  CacheModel CacheProofs MergeModel MergeProofs NNModel VecR NNProofs.
Import ListNotations.
Open Scope R_scope.

Lemma sqd_sq_dist : forall p q : list R, sqd p q = sq_dist p q.
Proof.
  intros p q. rewrite sqd_dot. revert q. induction p as [|a p IH]; intros [|b q]; try reflexivity.
  change (vsub (a :: p) (b :: q)) with ((a - b) :: vsub p q). rewrite dot_cons, IH. reflexivity.
Qed.

Lemma dist_edist : forall p q, dist p q = edist p q.
Proof. intros. rewrite <- sqrt_sqd, sqd_sq_dist. reflexivity. Qed.

Lemma rdot_dot : forall u v, rdot u v = dot u v.
Proof. induction u as [|a u IH]; intros [|b v]; try reflexivity. rewrite dot_cons, <- IH. reflexivity. Qed.

(** Real combinations of the cell vectors. *)
Definition latvecR (dims : nat) (cell : list (list R)) (c : list R) : list R :=
  fold_right vadd (vzero dims) (map2 vscale c cell).

Lemma latvec_latvecR : forall dims cell l, Forall (fun r => length r = dims) cell -> latvec dims cell l = latvecR dims cell (map IZR l).
Proof.
  intros dims cell l Hc. rewrite latvec_comb by auto. unfold latvecR. f_equal. clear Hc. revert cell.
  induction l as [|z l IH]; intros [|r cell]; simpl; auto. f_equal; auto.
Qed.

Lemma latvecR_length : forall dims cell c,
  Forall (fun r => length r = dims) cell -> length (latvecR dims cell c) = dims.
Proof.
  intros dims cell c Hc. unfold latvecR. revert c.
  induction Hc as [|r cell Hr Hc IH]; intros l.
  - destruct l; simpl; apply vzero_length.
  - destruct l as [|z l]; simpl; [apply vzero_length|].
    rewrite vadd_length, vscale_length, IH, Hr. lia.
Qed.

Lemma latvecR_nth : forall dims cell l j, Forall (fun r => length r = dims) cell ->
  length l = length cell -> (j < dims)%nat ->
  nth j (latvecR dims cell l) 0 = comb_coord cell l j.
Proof.
  intros dims cell l j Hc. revert l. unfold comb_coord.
  induction Hc as [|r cell Hr Hc IH]; intros [|z l] Hl Hj; simpl in Hl; try discriminate.
  - simpl. unfold latvecR, vzero. simpl. rewrite nth_repeat. reflexivity.
  - assert (Hlen : length (latvecR dims cell l) = dims) by (apply latvecR_length; auto).
    specialize (IH l ltac:(lia) Hj).
    change (latvecR dims (r :: cell) (z :: l)) with (vadd (vscale z r) (latvecR dims cell l)).
    unfold vadd. rewrite (map2_nth _ _ _ _ _ _ _ 0 0);
      [|rewrite vscale_length; lia|rewrite Hlen; lia].
    rewrite IH. simpl. f_equal.
    + unfold vscale. rewrite (nth_indep _ 0 (z * 0)) by (rewrite map_length; lia).
      exact (map_nth (Rmult z) r 0 j).
    + rewrite <- seq_shift, map_map. reflexivity.
Qed.

Lemma latvec_nth : forall dims cell l j, Forall (fun r => length r = dims) cell ->
  length l = length cell -> (j < dims)%nat ->
  nth j (latvec dims cell l) 0 = lattice_coord cell l j.
Proof.
  intros. rewrite latvec_latvecR by auto. apply latvecR_nth; auto. rewrite map_length; auto.
Qed.

Lemma pt_ppoint : forall dims motif cell a, pset_ok dims motif cell -> pindex dims motif a ->
  pt dims motif cell a = ppoint dims motif cell a.
Proof.
  intros dims motif cell [l i] [H1 H2 H3 H4 H5] [Hl Hi]. simpl in Hl, Hi.
  assert (Hm : length (nth i motif []) = dims).
  { rewrite Forall_forall in H3. apply H3, nth_In; auto. }
  unfold pt, ppoint. simpl fst. simpl snd. apply vec_ext.
  - rewrite vadd_length, latvec_length, map_length, seq_length, Hm by auto. lia.
  - rewrite vadd_length, latvec_length, Hm by auto. intros j Hj.
    unfold vadd. rewrite (map2_nth _ _ _ _ _ _ _ 0 0) by (rewrite ?latvec_length by auto; lia).
    rewrite latvec_nth by (auto; lia).
    symmetry. rewrite (nth_map_seq (fun j => nth j (nth i motif []) 0 + lattice_coord cell l j));
      [reflexivity|lia].
Qed.

(** * The k smallest values are attained by distinct indices *)
Definition keysort {A} (f : A -> R) (V : list A) : list A := isort (fun a b => Rleb (f a) (f b)) V.

Lemma keysort_sorted : forall A (f : A -> R) V,
  StronglySorted (fun a b => f a <= f b) (keysort f V).
Proof.
  intros A f V. unfold keysort.
  assert (H : StronglySorted (fun a b => Rleb (f a) (f b) = true) (isort (fun a b => Rleb (f a) (f b)) V)).
  { apply isort_sorted.
    - intros x y. rewrite !Rleb_true. lra.
    - intros x y z. rewrite !Rleb_true. lra. }
  eapply StronglySorted_impl; [|exact H]. simpl. intros a b. apply Rleb_true.
Qed.

Lemma StronglySorted_map : forall A B (f : A -> B) (P : B -> B -> Prop) l,
  StronglySorted (fun a b => P (f a) (f b)) l -> StronglySorted P (map f l).
Proof.
  intros A B f P l H. induction H as [|a l H IH HF]; simpl; constructor; auto.
  apply Forall_forall. intros b Hb. apply in_map_iff in Hb as (c & <- & Hc).
  rewrite Forall_forall in HF. auto.
Qed.

Lemma kmin_map : forall A (f : A -> R) V k,
  kmin k (map f V) = map f (firstn k (keysort f V)).
Proof.
  intros. unfold kmin. rewrite <- firstn_map. f_equal.
  apply sortR_unique.
  - apply StronglySorted_map, keysort_sorted.
  - apply Permutation_map, isort_perm.
Qed.

Lemma keysort_perm : forall A (f : A -> R) V, Permutation V (keysort f V).
Proof. intros. apply isort_perm. Qed.

Lemma firstn_In : forall A n (l : list A) a, In a (firstn n l) -> In a l.
Proof. intros A n l a H. rewrite <- (firstn_skipn n l). apply in_app_iff. auto. Qed.

Lemma NoDup_firstn : forall A n (l : list A), NoDup l -> NoDup (firstn n l).
Proof. intros A n l H. rewrite <- (firstn_skipn n l) in H. apply NoDup_app_iff in H. tauto. Qed.

Lemma map_sqrt_sorted : forall l, StronglySorted Rle l -> StronglySorted Rle (map sqrt l).
Proof.
  intros l H. apply StronglySorted_map. eapply StronglySorted_impl; [|exact H].
  simpl. intros. apply sqrt_le_1_alt; auto.
Qed.

Section Rows.
  Variables (motif cell x : list (list R)) (k dims : nat).
  Hypothesis Hps : pset_ok dims motif cell.

  Lemma visited_pindex : forall n a, In a (visited motif dims n) -> pindex dims motif a.
  Proof.
    intros n [l i] H. apply idxs_In in H as [H Hi]. split; auto. simpl.
    apply in_concat in H as (L & HL & Hl). apply in_map_iff in HL as (d & <- & _).
    destruct (layer_spec dims d (ok_dims _ _ _ Hps)) as (_ & _ & Hin). apply Hin in Hl.
    destruct Hl; auto.
  Qed.

  Lemma layers_concat_In : forall n l, In l (concat (layers dims (S n))) <->
    length l = dims /\ (zsq l <= Z.of_nat n * Z.of_nat n)%Z.
  Proof.
    intros n l. pose proof (ok_dims _ _ _ Hps) as Hd. induction n as [|n IH].
    - unfold layers. simpl. rewrite app_nil_r. destruct (layer_spec dims 0 Hd) as (_ & _ & ->).
      unfold in_shell. simpl. tauto.
    - rewrite layers_S, concat_app. simpl. rewrite app_nil_r, in_app_iff, IH.
      destruct (layer_spec dims (S n) Hd) as (_ & _ & ->). unfold in_shell. split.
      + intros [[H1 H2]|(H1 & H2 & _)]; split; auto. nia.
      + intros [H1 H2]. destruct (Z_le_gt_dec (zsq l) (Z.of_nat n * Z.of_nat n)); auto.
        right. split; auto. split; auto. right. nia.
  Qed.

  Lemma visited_NoDup : forall n, NoDup (visited motif dims n).
  Proof.
    intros n. apply idxs_NoDup. pose proof (ok_dims _ _ _ Hps) as Hd.
    induction n as [|n IH]; [constructor|]. rewrite layers_S, concat_app. simpl. rewrite app_nil_r.
    destruct (layer_spec dims n Hd) as (_ & Hn & Hin). apply NoDup_app_intro; auto.
    intros l H1 H2. destruct n; [destruct H1|]. apply layers_concat_In in H1 as [_ H1].
    apply Hin in H2 as (_ & _ & [H2|H2]); [discriminate|]. nia.
  Qed.

  (** The row after visiting [n] layers, as distances. *)
  Definition row_ids n p := firstn k (keysort (fun a => sqd p (pt dims motif cell a)) (visited motif dims n)).

  Lemma row_ids_spec : forall n p, (k <= length (visited motif dims n))%nat ->
    neighbour_distances dims motif cell p k (map sqrt (row_at motif cell k dims n p)) (row_ids n p).
  Proof.
    intros n p Hlen. unfold neighbour_distances, row_ids.
    set (V := visited motif dims n) in *. set (f := fun a => sqd p (pt dims motif cell a)).
    assert (HV : forall a, In a (firstn k (keysort f V)) -> In a V).
    { intros a Ha. apply firstn_In in Ha. eapply Permutation_in; [apply Permutation_sym, keysort_perm|eauto]. }
    split; [|split; [|split; [|split]]].
    - rewrite firstn_length, <- (Permutation_length (keysort_perm _ f V)). lia.
    - apply NoDup_firstn. eapply Permutation_NoDup; [apply keysort_perm|]. apply visited_NoDup.
    - apply Forall_forall. intros a Ha. eapply visited_pindex. apply HV; eauto.
    - unfold row_at. fold V. change (fun a => sqd p (pt dims motif cell a)) with f.
      rewrite kmin_map, map_map. apply map_ext_in. intros a Ha. unfold f, edist.
      rewrite sqd_sq_dist, pt_ppoint; auto. eapply visited_pindex. apply HV; eauto.
    - apply map_sqrt_sorted. apply kmin_sorted.
  Qed.

  (** Visited points not in the row are at least as far. *)
  Lemma row_ids_nearest : forall n p a d, In a (visited motif dims n) -> ~ In a (row_ids n p) ->
    In d (map sqrt (row_at motif cell k dims n p)) -> d <= edist p (ppoint dims motif cell a).
  Proof.
    intros n p a d Ha Hna Hd. unfold row_ids in Hna.
    set (f := fun a => sqd p (pt dims motif cell a)) in *.
    pose proof (keysort_sorted _ f (visited motif dims n)) as Hs.
    rewrite <- (firstn_skipn k (keysort f (visited motif dims n))) in Hs.
    apply StronglySorted_app_iff in Hs as (_ & _ & Hs).
    apply in_map_iff in Hd as (e & <- & He). unfold row_at in He.
    change (fun a => sqd p (pt dims motif cell a)) with f in He.
    rewrite kmin_map in He. apply in_map_iff in He as (b & <- & Hb).
    assert (Ha' : In a (skipn k (keysort f (visited motif dims n)))).
    { assert (In a (keysort f (visited motif dims n))) as H
        by (eapply Permutation_in; [apply keysort_perm|auto]).
      rewrite <- (firstn_skipn k (keysort f (visited motif dims n))) in H.
      apply in_app_iff in H. tauto. }
    specialize (Hs b a Hb Ha'). unfold edist. rewrite <- sqd_sq_dist, <- pt_ppoint; auto.
    - apply sqrt_le_1_alt. exact Hs.
    - eapply visited_pindex; eauto.
  Qed.
End Rows.

Lemma hd_motif_length : forall dims motif cell, pset_ok dims motif cell -> length (hd [] motif) = dims.
Proof.
  intros dims motif cell [_ H1 H2 _ _]. destruct motif; [congruence|]. inversion H2; auto.
Qed.

(** Full characterisation of [nearest_neighbors]. *)
Theorem nearest_neighbors_exact : forall dims motif cell x k fuel,
  pset_ok dims motif cell -> incl x motif -> x <> [] ->
  exists s, (2 <= s)%nat /\ stop dims (length motif) (S k) (s - 2) /\
    (S k < length (visited motif dims (s - 1)))%nat /\
    ((nearest_neighbors fuel motif cell x (S k) = OutOfFuel /\
        forall n, (s <= n < s + fuel)%nat -> ~ settled motif cell x (S k) dims n) \/
     exists n, (n < s + fuel)%nat /\ first_settled motif cell x (S k) dims s n /\
        nearest_neighbors fuel motif cell x (S k) =
          Done (map (fun p => map sqrt (row_at motif cell (S k) dims n p)) x)).
Proof.
  intros dims motif cell x k fuel Hps Hx Hxne.
  destruct (nn_sq_exact motif cell x (S k) dims (ok_dims _ _ _ Hps) ltac:(lia)
     (ok_motif_len _ _ _ Hps) (ok_cell_len _ _ _ Hps) Hx Hxne fuel) as (i & Hs & Hl & H).
  exists (i + 2)%nat. split; [lia|]. replace (i + 2 - 2)%nat with i by lia.
  replace (i + 2 - 1)%nat with (i + 1)%nat by lia. split; auto. split; auto.
  unfold nearest_neighbors. rewrite (hd_motif_length dims motif cell Hps).
  destruct H as [[E Hno]|(n & Hn & Hf & E)].
  - left. rewrite E. auto.
  - right. exists n. rewrite E. cbn [obind]. split; auto. split; auto.
    unfold rows_at. rewrite map_map. reflexivity.
Qed.
