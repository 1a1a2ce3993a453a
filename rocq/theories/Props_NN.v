(** C04-C07, C09-C12, C58: the neighbour search. *)
From Coq Require Import List ZArith Arith Bool Lia Reals Lra Permutation Sorted.
From Verif Require Import Num Base Spec SpecGeom Outcome LatticeModel LatticeProofs LatticeProofs2
  CacheModel CacheProofs MergeModel MergeProofs NNModel VecR NNProofs NNSpecProofs NNComplete
  NNInvariance.
Import ListNotations.
Open Scope R_scope.

(** ** C04 *)

(** Every row consists of the distances to [S k] different points of the periodic
    set, in order, the first of them being 0. *)
Theorem C04_rows_are_distances : forall dims motif cell x k fuel rows,
  pset_ok dims motif cell -> incl x motif -> x <> [] ->
  nearest_neighbors fuel motif cell x (S k) = Done rows ->
  Forall2 (fun p r => hd_error r = Some 0 /\
    exists ids, neighbour_distances dims motif cell p (S k) r ids) x rows.
Proof.
  intros dims motif cell x k fuel rows Hps Hx Hne E.
  destruct (nearest_neighbors_exact dims motif cell x k fuel Hps Hx Hne) as
    (s & Hs & _ & Hlen & [[E2 _]|(n & _ & (Hsn & Hset & _) & E2)]); rewrite E2 in E; [discriminate|].
  inversion E as [Er]. clear E E2 Er rows.
  assert (Hl : (S k <= length (visited motif dims n))%nat).
  { eapply Nat.le_trans; [|apply (visited_mono motif dims (s - 1)); lia]. lia. }
  assert (G : forall y, incl y x -> Forall2 (fun p r => hd_error r = Some 0 /\
    exists ids, neighbour_distances dims motif cell p (S k) r ids) y
    (map (fun p => map sqrt (row_at motif cell (S k) dims n p)) y)).
  2: apply G; intros ?; auto.
  induction y as [|p y IH]; intros Hy; simpl; constructor.
  2: { apply IH. intros q Hq. apply Hy. simpl; auto. }
  assert (Hp : In p x) by (apply Hy; simpl; auto). split.
  - destruct Hps as [H1 H2 H3 H4 H5].
    destruct (row_head motif cell x (S k) dims H1 ltac:(lia) H3 H5 Hx n p ltac:(lia) Hp) as (t & ->).
    simpl. rewrite sqrt_0. auto.
  - exists (row_ids motif cell (S k) dims n p). apply row_ids_spec; auto.
Qed.

(** The search reads no array out of bounds and raises nothing. *)
Theorem C04_no_error : forall dims motif cell x k fuel,
  pset_ok dims motif cell -> incl x motif -> x <> [] ->
  nearest_neighbors fuel motif cell x (S k) = OutOfFuel \/
  exists rows, nearest_neighbors fuel motif cell x (S k) = Done rows.
Proof.
  intros dims motif cell x k fuel Hps Hx Hne.
  destruct (nearest_neighbors_exact dims motif cell x k fuel Hps Hx Hne) as
    (s & Hs & _ & Hlen & [[E2 _]|(n & _ & _ & E2)]); eauto.
Qed.

(** For a motif without translates of the same point, in a non-singular cell, different
    indices are different points of space. *)
Theorem C04_indices_are_points : forall dims motif cell ids,
  pset_ok dims motif cell -> nonsingular dims cell -> motif_reduced dims motif cell ->
  NoDup ids -> Forall (pindex dims motif) ids ->
  NoDup (map (ppoint dims motif cell) ids).
Proof.
  intros dims motif cell ids Hps (dual & Hdual) Hred Hnd Hids.
  assert (Hinj : forall a b, pindex dims motif a -> pindex dims motif b ->
     ppoint dims motif cell a = ppoint dims motif cell b -> a = b).
  { intros [l i] [l' j] [Hl Hi] [Hl' Hj] E. simpl in *.
    destruct Hps as [H1 H2 H3 H4 H5].
    assert (Hco : forall r, (r < dims)%nat -> nth r (nth i motif []) 0 + lattice_coord cell l r =
        nth r (nth j motif []) 0 + lattice_coord cell l' r).
    { intros r Hr. apply (f_equal (fun v => nth r v 0)) in E. unfold ppoint in E.
      rewrite !nth_lin in E by auto. auto. }
    assert (Hdiff : forall r, lattice_coord cell (map (fun p => fst p - snd p)%Z (combine l l')) r =
        lattice_coord cell l r - lattice_coord cell l' r).
    { intros r. unfold lattice_coord, comb_coord.
      replace (_ - _) with (rsum (map (fun s => nth s (map IZR l) 0 * nth r (nth s cell []) 0) (seq 0 (length cell))) +
        (-1) * rsum (map (fun s => nth s (map IZR l') 0 * nth r (nth s cell []) 0) (seq 0 (length cell)))) by lra.
      rewrite <- rsum_scale, <- rsum_plus. apply rsum_ext. intros s Hs. apply in_seq in Hs.
      change 0 with (IZR 0) at 1 3 5. rewrite !(map_nth IZR).
      rewrite (nth_indep _ 0%Z ((fun p : Z * Z => fst p - snd p)%Z (0, 0)%Z))
        by (rewrite map_length, combine_length; lia).
      rewrite (map_nth (fun p : Z * Z => fst p - snd p)%Z), combine_nth by lia.
      simpl. rewrite minus_IZR. ring. }
    assert (Hij : i = j).
    { apply (Hred i j (map (fun p => fst p - snd p)%Z (combine l l'))); auto.
      - rewrite map_length, combine_length. lia.
      - assert (Hlj : length (nth j motif []) = dims) by (rewrite Forall_forall in H3; apply H3, nth_In; auto).
        apply vec_ext.
        + rewrite ppoint_length. auto.
        + rewrite ppoint_length. intros r Hr. unfold ppoint. rewrite nth_lin by auto. simpl.
          rewrite Hdiff. specialize (Hco r Hr). lra. }
    subst j. f_equal.
    assert (HL : latvec dims cell l = latvec dims cell l').
    { apply vec_ext.
      - rewrite !latvec_length; auto.
      - rewrite latvec_length by auto. intros r Hr. rewrite !latvec_nth by (auto; lia).
        specialize (Hco r Hr). lra. }
    apply (nth_ext _ _ 0%Z 0%Z); [lia|]. intros r Hr.
    apply eq_IZR. rewrite <- !(dual_coord dims cell dual) by (auto; lia). rewrite HL. auto. }
  induction Hnd as [|a ids Ha Hnd IH]; simpl; [constructor|].
  inversion Hids; subst. constructor; auto. intro Hin. apply in_map_iff in Hin as (b & E & Hb).
  assert (b = a); [|subst; auto]. apply Hinj; auto. eapply Forall_forall in Hb; eauto.
Qed.

(** ** C05 *)

(** For well conditioned cells the rows are the true nearest neighbour distances. *)
Theorem C05_rows_are_nearest : forall dims motif cell x k fuel rows,
  pset_ok dims motif cell -> (dims <= 4)%nat ->
  spread dims cell motif -> incl x motif -> x <> [] ->
  nearest_neighbors fuel motif cell x (S k) = Done rows ->
  Forall2 (fun p r => nearest_distances dims motif cell p (S k) r) x rows.
Proof. exact nearest_neighbors_complete. Qed.

(** The nearest distances are determined by the set, so C05 fixes the rows. *)
Theorem C05_nearest_unique : forall dims motif cell p n ds ds',
  nearest_distances dims motif cell p n ds -> nearest_distances dims motif cell p n ds' -> ds = ds'.
Proof.
  intros dims motif cell p n.
  set (d := fun a => edist p (ppoint dims motif cell a)).
  assert (G : forall ds ds' j, nearest_distances dims motif cell p n ds ->
      nearest_distances dims motif cell p n ds' -> (j < n)%nat -> nth j ds 0 <= nth j ds' 0).
  { intros ds ds' j (ids & (H1 & H2 & H3 & H4 & H5) & H6) (ids' & (H1' & H2' & H3' & H4' & H5') & H6') Hj.
    apply Rnot_lt_le. intro Hlt.
    (* the first j + 1 indices of ids' are all at distance < ds_j *)
    assert (Hincl : incl (firstn (S j) ids') (firstn j ids)).
    { intros a Ha. assert (Ha' : In a ids') by (eapply firstn_In; eauto).
      assert (Hd : d a < nth j ds 0).
      { apply (In_nth _ _ ([], 0%nat)) in Ha as (r & Hr & E). rewrite firstn_length in Hr.
        assert (Hr2 : (r < S j)%nat) by lia.
        assert (E2 : nth r ds' 0 = d a).
        { rewrite H4'. rewrite (nth_indep _ 0 (d ([], 0%nat))) by (rewrite map_length; lia).
          rewrite (map_nth d). f_equal. rewrite <- E.
          clear - Hr2 Hr H1'. revert r Hr2 Hr. generalize (S j). clear H1'.
          induction ids' as [|b ids' IH]; intros [|j'] [|r] Hr2 Hr; simpl; auto; try lia.
          apply IH; simpl in *; lia. }
        assert (nth r ds' 0 <= nth j ds' 0); [|lra].
        assert (Hlen : length ds' = n) by (rewrite H4', map_length; auto).
        destruct (Nat.eq_dec r j) as [->|]; [lra|].
        clear - H5' Hr2 Hlen Hj n0. revert r j Hr2 Hj n0. rewrite <- Hlen. clear Hlen.
        induction H5' as [|b ds' Hs IH HF]; intros [|r] [|j] Hr2 Hj Hne; simpl in *; try lia; try lra.
        - rewrite Forall_forall in HF. apply HF, nth_In. lia.
        - apply IH; lia. }
      assert (Hjds : In (nth j ds 0) ds) by (apply nth_In; rewrite H4, map_length; lia).
      assert (Hin : In a ids).
      { destruct (in_dec idx_eq_dec a ids) as [|Hna]; auto. exfalso.
        rewrite Forall_forall in H3'. specialize (H6 a _ (H3' a Ha') Hna Hjds). fold (d a) in H6. lra. }
      (* so its position is before j *)
      apply (In_nth _ _ ([], 0%nat)) in Hin as (r & Hr & E).
      assert (Hrj : (r < j)%nat).
      { apply Nat.nle_gt. intro Hle.
        assert (nth j ds 0 <= nth r ds 0).
        { destruct (Nat.eq_dec r j) as [->|]; [lra|].
          assert (Hlen : length ds = length ids) by (rewrite H4, map_length; auto).
          clear - H5 Hle Hr n0 Hlen. rewrite <- Hlen in Hr. clear Hlen.
          revert r j Hle Hr n0.
          induction H5 as [|b ds Hs IH HF]; intros [|r] [|j] Hle Hr Hne; simpl in *; try lia; try lra.
          - rewrite Forall_forall in HF. apply HF, nth_In. lia.
          - apply IH; lia. }
        assert (nth r ds 0 = d a).
        { rewrite H4. rewrite (nth_indep _ 0 (d ([], 0%nat))) by (rewrite map_length; lia).
          rewrite (map_nth d). f_equal. auto. }
        lra. }
      rewrite <- E. clear - Hrj Hr. revert r j Hrj Hr.
      induction ids as [|b ids IH]; intros [|r] [|j] Hrj Hr; simpl in *; try lia; auto.
      right. apply IH; lia. }
    assert (Hnd : NoDup (firstn (S j) ids')) by (apply NoDup_firstn; auto).
    pose proof (NoDup_incl_length Hnd Hincl) as HL. rewrite !firstn_length in HL. lia. }
  intros ds ds' H H'. apply (nth_ext _ _ 0 0).
  - destruct H as (ids & (H1 & _ & _ & H4 & _) & _), H' as (ids' & (H1' & _ & _ & H4' & _) & _).
    rewrite H4, H4', !map_length. lia.
  - intros j Hj. assert (Hn : (j < n)%nat).
    { destruct H as (ids & (H1 & _ & _ & H4 & _) & _). rewrite H4, map_length in Hj. lia. }
    apply Rle_antisym; apply G; auto.
Qed.

(** ** C09 *)

(** In a non-singular cell the search ends after a fixed number of iterations. *)
Theorem C09_terminates : forall dims motif cell x k,
  pset_ok dims motif cell -> nonsingular dims cell -> incl x motif -> x <> [] ->
  exists rows fuel0, forall fuel,
    ((fuel0 <= fuel)%nat -> nearest_neighbors fuel motif cell x (S k) = Done rows) /\
    ((fuel < fuel0)%nat -> nearest_neighbors fuel motif cell x (S k) = OutOfFuel).
Proof. exact nearest_neighbors_terminates. Qed.

(** ** C10, C11 *)

(** Sets with proportional distances have proportional rows; here [sel] picks the query
    points by their positions in the motif. *)
Theorem C11_proportional_sets : forall dims motif cell motif' cell' is k c fuel,
  0 < c -> pset_ok dims motif cell -> pset_ok dims motif' cell' ->
  length motif = length motif' -> is <> [] -> Forall (fun i => (i < length motif)%nat) is ->
  (forall a b, pindex dims motif a -> pindex dims motif b ->
     edist (ppoint dims motif' cell' a) (ppoint dims motif' cell' b) =
     c * edist (ppoint dims motif cell a) (ppoint dims motif cell b)) ->
  let sel (mo : list (list R)) := map (fun i => nth i mo []) is in
  (nearest_neighbors fuel motif cell (sel motif) (S k) = OutOfFuel /\
   nearest_neighbors fuel motif' cell' (sel motif') (S k) = OutOfFuel) \/
  exists rows, nearest_neighbors fuel motif cell (sel motif) (S k) = Done rows /\
    nearest_neighbors fuel motif' cell' (sel motif') (S k) = Done (map (map (Rmult c)) rows).
Proof. exact nearest_neighbors_proportional. Qed.

Lemma sel_map : forall (f : list R -> list R) motif is, Forall (fun i => (i < length motif)%nat) is ->
  map (fun i => nth i (map f motif) []) is = map f (map (fun i => nth i motif []) is).
Proof.
  intros f motif is H. rewrite map_map. apply map_ext_in. intros i Hi. rewrite Forall_forall in H.
  rewrite (nth_indep _ [] (f [])) by (rewrite map_length; auto). apply map_nth.
Qed.

Lemma positions : forall (x motif : list (list R)), incl x motif ->
  exists is, Forall (fun i => (i < length motif)%nat) is /\ x = map (fun i => nth i motif []) is.
Proof.
  induction x as [|p x IH]; intros motif H.
  - exists []. split; auto.
  - destruct (IH motif) as (is & H1 & H2). { intros q Hq. apply H. simpl; auto. }
    destruct (In_nth motif p [] (H p (or_introl eq_refl))) as (i & Hi & E).
    exists (i :: is). split; auto. simpl. congruence.
Qed.

(** Isometries: an orthonormal frame [cols] and a translation [t]. *)
Theorem C10_isometry_invariant : forall dims cols t motif cell x k fuel,
  pset_ok dims motif cell -> incl x motif -> x <> [] ->
  length cols = dims -> dual_basis dims cols cols -> length t = dims ->
  nearest_neighbors fuel (map (rigid dims cols t) motif) (map (lin_map dims cols) cell)
      (map (rigid dims cols t) x) (S k) =
  nearest_neighbors fuel motif cell x (S k).
Proof.
  intros dims cols t motif cell x k fuel Hps Hx Hne Hcols Hdual Ht.
  destruct (positions x motif Hx) as (is & His & ->).
  assert (Hisne : is <> []) by (destruct is; [exfalso; apply Hne; auto|discriminate]).
  destruct (nearest_neighbors_proportional dims motif cell (map (rigid dims cols t) motif)
    (map (lin_map dims cols) cell) is k 1 fuel) as [[E1 E2]|(rows & E1 & E2)];
    auto using pset_ok_rigid; rewrite ?map_length; auto; try lra.
  - intros a b Ha Hb. rewrite !ppoint_rigid by auto.
    rewrite rigid_isometry by (auto; apply ppoint_length). lra.
  - rewrite sel_map in E2 by auto. rewrite E1, E2. auto.
  - rewrite sel_map in E2 by auto. rewrite E1, E2. f_equal.
    rewrite <- (map_id rows) at 2. apply map_ext. intros r.
    rewrite <- (map_id r) at 2. apply map_ext. intros. lra.
Qed.

Theorem C11_scaling : forall dims c motif cell x k fuel,
  0 < c -> pset_ok dims motif cell -> incl x motif -> x <> [] ->
  (nearest_neighbors fuel motif cell x (S k) = OutOfFuel /\
   nearest_neighbors fuel (map (map (Rmult c)) motif) (map (map (Rmult c)) cell)
      (map (map (Rmult c)) x) (S k) = OutOfFuel) \/
  exists rows, nearest_neighbors fuel motif cell x (S k) = Done rows /\
   nearest_neighbors fuel (map (map (Rmult c)) motif) (map (map (Rmult c)) cell)
      (map (map (Rmult c)) x) (S k) = Done (map (map (Rmult c)) rows).
Proof.
  intros dims c motif cell x k fuel Hc Hps Hx Hne.
  destruct (positions x motif Hx) as (is & His & ->).
  assert (Hisne : is <> []) by (destruct is; [exfalso; apply Hne; auto|discriminate]).
  rewrite <- sel_map by auto.
  apply (nearest_neighbors_proportional dims); auto using pset_ok_scaled.
  - rewrite map_length. auto.
  - intros a b Ha Hb. rewrite !ppoint_scaled by auto. apply edist_scaled. lra.
Qed.

(** ** C12 *)

(** Reordering motif and query points reorders the rows, keeping each row with its
    point. *)
Theorem C12_reordering : forall dims motif motif' cell x x' k fuel,
  pset_ok dims motif cell -> Permutation motif motif' -> Permutation x x' -> incl x motif -> x <> [] ->
  (nearest_neighbors fuel motif cell x (S k) = OutOfFuel /\
   nearest_neighbors fuel motif' cell x' (S k) = OutOfFuel) \/
  exists f,
    nearest_neighbors fuel motif cell x (S k) = Done (map f x) /\
    nearest_neighbors fuel motif' cell x' (S k) = Done (map f x').
Proof. exact nearest_neighbors_reorder. Qed.

(** ** C06 *)

(** The result once some layer is known to settle the search. *)
Lemma nn_upto : forall dims motif cell x k i n, pset_ok dims motif cell -> incl x motif -> x <> [] ->
  stop dims (length motif) (S k) i -> (i + 2 <= n)%nat -> settled motif cell x (S k) dims n ->
  exists n', (i + 2 <= n' <= n)%nat /\ forall fuel, (n < fuel)%nat ->
    nearest_neighbors fuel motif cell x (S k) =
      Done (map (fun p => map sqrt (row_at motif cell (S k) dims n' p)) x).
Proof.
  intros dims motif cell x k i n Hps Hx Hne Hst Hin Hset.
  destruct (first_settled_exists _ _ _ _ _ (i + 2) n Hne Hin Hset) as (n' & Hf).
  exists n'. destruct Hf as (Hf1 & Hf2 & Hf3).
  assert (Hn' : (n' <= n)%nat).
  { apply Nat.nlt_ge. intro Hlt. apply (Hf3 n); auto. }
  split; auto. intros fuel Hfu.
  destruct (nearest_neighbors_exact dims motif cell x k fuel Hps Hx Hne) as (s & Hs & Hst' & Hl & H).
  assert (s = i + 2)%nat.
  { pose proof (stop_unique _ _ _ _ _ Hst Hst'). lia. } subst s.
  destruct H as [[E Hno]|(n2 & H1 & H2 & E)].
  - exfalso. apply (Hno n'); auto. lia.
  - rewrite E. assert (n2 = n') as ->; auto. eapply first_settled_unique; [exact H2|]. split; auto.
Qed.

Lemma filter_two : forall A (f : A -> bool) a b l1 l2, f a = true -> f b = true ->
  (2 <= length (filter f (a :: l1 ++ b :: l2)))%nat.
Proof.
  intros A f a b l1 l2 Ha Hb. simpl. rewrite Ha, filter_app. simpl. rewrite Hb. simpl.
  rewrite app_length. simpl. lia.
Qed.

Section Skew.
  (** A thin cell: (1, 0) and (100, 1/100). *)
  Let motif : list (list R) := [[0; 0]].
  Let cell : list (list R) := [[1; 0]; [100; / 100]].

  Lemma skew_ok : pset_ok 2 motif cell.
  Proof. split; simpl; auto; try discriminate; repeat constructor. Qed.

  Lemma skew_sqd : forall a b, sqd [0; 0] (pt 2 motif cell ([a; b], 0%nat)) =
    IZR (a + 100 * b) * IZR (a + 100 * b) + IZR (b * b) / 10000.
  Proof.
    intros a b. rewrite plus_IZR, !mult_IZR. unfold pt, latvec, sqd, vadd, vscale, vzero, motif, cell.
    cbn. field.
  Qed.

  Lemma skew_far : forall a b, (a + 100 * b <> 0)%Z ->
    1 <= sqd [0; 0] (pt 2 motif cell ([a; b], 0%nat)).
  Proof.
    intros a b Hn. rewrite skew_sqd.
    assert (1 <= IZR (a + 100 * b) * IZR (a + 100 * b)).
    { rewrite <- mult_IZR. apply IZR_le. nia. }
    assert (0 <= IZR (b * b)) by (apply IZR_le; nia). lra.
  Qed.

  Lemma skew_index : forall m L l i, In (l, i) (idxs m L) -> (forall v, In v L -> length v = 2%nat) ->
    exists a b, l = [a; b] /\ In [a; b] L /\ (i < m)%nat.
  Proof.
    intros m L l i H HL. apply idxs_In in H as [H Hi]. specialize (HL l H).
    destruct l as [|a [|b [|? ?]]]; simpl in HL; try lia. eauto.
  Qed.

  Lemma skew_zsq : forall a b, zsq [a; b] = (a * a + b * b)%Z.
  Proof. intros. unfold zsq. simpl. lia. Qed.

  Lemma skew_settled : settled motif cell motif 2 2 3.
  Proof.
    destruct (exists_max _ (fun p => last (row_at motif cell 2 2 3 p) 0) motif ltac:(discriminate))
      as (mx & Hex & Hmx).
    exists mx. split; [split; auto|].
    assert (Hm1 : mx <= 1).
    { destruct Hex as (p & [<-|[]] & ->). unfold row_at. apply kmin_last_le; [lia|].
      assert (E : visited motif 2 3 = ([0;0]%Z,0%nat) :: filter (fun a => if idx_eq_dec a ([0;0]%Z,0%nat) then false else true) (visited motif 2 3)).
      { vm_compute. reflexivity. }
      assert (Hin : In ([1;0]%Z, 0%nat) (filter (fun a => if idx_eq_dec a ([0;0]%Z,0%nat) then false else true) (visited motif 2 3))).
      { vm_compute. tauto. }
      rewrite E. apply in_split in Hin as (l1 & l2 & E2). rewrite E2. simpl map. rewrite map_app. simpl map.
      apply filter_two; apply Rleb_true; rewrite skew_sqd; simpl; lra. }
    intros [l i] p Ha [<-|[]].
    destruct (layer_spec 2 3 ltac:(lia)) as (_ & _ & Hin).
    destruct (skew_index _ _ _ _ Ha) as (a & b & -> & Hl & Hi).
    { intros v Hv. apply Hin in Hv. destruct Hv; auto. }
    simpl in Hi. assert (i = 0)%nat by lia. subst i.
    apply Hin in Hl as (_ & H2 & [H3|H3]); [discriminate|]. rewrite skew_zsq in *.
    eapply Rle_trans; [exact Hm1|]. apply skew_far. intro E0.
    assert (a = - 100 * b)%Z by lia. subst a. change (Z.of_nat 3) with 3%Z in *.
    assert (b = 0)%Z by nia. subst b. lia.
  Qed.

  Lemma skew_stop : stop 2 1 2 1.
  Proof. split; [vm_compute; lia|]. intros [|j] Hj; [vm_compute; lia|lia]. Qed.

  Lemma skew_wrong : exists fuel rows, nearest_neighbors fuel motif cell motif 2 = Done rows /\
    ~ Forall2 (fun p r => nearest_distances 2 motif cell p 2 r) motif rows.
  Proof.
    destruct (nn_upto 2 motif cell motif 1 1 3 skew_ok (fun p H => H) ltac:(discriminate) skew_stop
      ltac:(lia) skew_settled) as (n & Hn & E).
    exists 4%nat. eexists. split; [apply E; lia|]. intro HF. inversion HF as [|p r x rs HN _]. clear HF. subst.
    destruct HN as (ids & (H1 & H2 & H3 & H4 & H5) & H6).
    set (row := row_at motif cell 2 2 n [0; 0]) in *.
    assert (Hn3 : n = 3%nat) by lia. 
    (* entries of the row: points with |l| <= 2 *)
    assert (Hrow : forall e, In e row -> e = 0 \/ 1 <= e).
    { intros e He. unfold row, row_at in He.
      destruct (kmin_split 2 (map (fun a => sqd [0; 0] (pt 2 motif cell a)) (visited motif 2 n))) as (r & HP & _).
      assert (He' : In e (map (fun a => sqd [0; 0] (pt 2 motif cell a)) (visited motif 2 n))).
      { eapply Permutation_in; [apply Permutation_sym; exact HP|]. apply in_app_iff; auto. }
      apply in_map_iff in He' as ([l i] & <- & Ha).
      destruct (skew_index _ _ _ _ Ha) as (a & b & -> & Hl & Hi).
      { intros v Hv. subst n. apply (layers_concat_In motif cell 2 skew_ok) in Hv. tauto. }
      simpl in Hi. assert (i = 0)%nat by lia. subst i n.
      apply (layers_concat_In motif cell 2 skew_ok) in Hl as [_ Hl]. rewrite skew_zsq in Hl.
      destruct (Z.eq_dec (a + 100 * b) 0) as [E0|E0].
      - left. assert (b = 0 /\ a = 0)%Z as [-> ->]
          by (change (Z.of_nat 2) with 2%Z in Hl; assert (a = - 100 * b)%Z by lia; subst a; split; nia). rewrite skew_sqd. simpl. lra.
      - right. apply skew_far; auto. }
    set (w := ([-100; 1]%Z, 0%nat)).
    assert (Hw : sqd [0; 0] (pt 2 motif cell w) = / 10000).
    { unfold w. rewrite skew_sqd. simpl. lra. }
    assert (Hwd : edist [0; 0] (ppoint 2 motif cell w) = / 100).
    { rewrite <- pt_ppoint; [|apply skew_ok|split; simpl; auto].
      rewrite <- dist_edist, <- sqrt_sqd, Hw.
      replace (/ 10000) with (/ 100 * / 100) by lra. apply sqrt_square. lra. }
    destruct (in_dec idx_eq_dec w ids) as [Hin|Hna].
    - assert (Hd : In (/ 100) (map sqrt row)).
      { rewrite H4. apply in_map_iff. exists w. auto. }
      apply in_map_iff in Hd as (e & E1 & He). destruct (Hrow e He) as [->|H].
      + rewrite sqrt_0 in E1. lra.
      + apply sqrt_le_1_alt in H. rewrite sqrt_1 in H. lra.
    - (* two entries, all at most 1/100, hence both 0: but only one point is at distance 0 *)
      assert (Hz : forall d, In d (map sqrt row) -> d = 0).
      { intros d Hd. assert (Hle : d <= / 100).
        { rewrite <- Hwd. apply H6; auto. split; simpl; auto. }
        apply in_map_iff in Hd as (e & <- & He). destruct (Hrow e He) as [->|H]; [apply sqrt_0|].
        apply sqrt_le_1_alt in H. rewrite sqrt_1 in H. lra. }
      assert (Hids : forall a, In a ids -> a = ([0; 0]%Z, 0%nat)).
      { intros [l i] Ha. rewrite Forall_forall in H3. destruct (H3 _ Ha) as [Hl Hi]. simpl in Hl, Hi.
        destruct l as [|u [|v [|? ?]]]; simpl in Hl; try lia. assert (i = 0)%nat by lia. subst i.
        assert (Hd : edist [0; 0] (ppoint 2 motif cell ([u; v], 0%nat)) = 0).
        { apply Hz. rewrite H4. apply in_map_iff. eauto. }
        rewrite <- pt_ppoint, <- dist_edist, <- sqrt_sqd in Hd; [|apply skew_ok|split; simpl; auto].
        apply sqrt_eq_0 in Hd; [|apply sqd_nonneg].
        destruct (Z.eq_dec (u + 100 * v) 0) as [E0|E0].
        - rewrite skew_sqd, E0 in Hd. assert (Hv : IZR (v * v) = 0) by lra.
          apply eq_IZR in Hv. assert (v = 0)%Z by nia. subst. do 3 f_equal. lia.
        - pose proof (skew_far u v E0). lra. }
      destruct ids as [|a [|b [|? ?]]]; simpl in H1; try lia.
      rewrite (Hids a), (Hids b) in H2 by (simpl; auto). inversion H2 as [|? ? Hno _]. apply Hno. simpl; auto.
  Qed.
End Skew.

(** C06 is false: a motif point inside a non-singular cell, [k] = 1. *)
Theorem C06_any_cell_refuted : exists dims motif cell k fuel rows,
  pset_ok dims motif cell /\ nonsingular dims cell /\ Forall (in_cell dims cell) motif /\
  nearest_neighbors fuel motif cell motif (S k) = Done rows /\
  ~ Forall2 (fun p r => nearest_distances dims motif cell p (S k) r) motif rows.
Proof.
  destruct skew_wrong as (fuel & rows & H1 & H2).
  exists 2%nat, [[0; 0]], [[1; 0]; [100; / 100]], 1%nat, fuel, rows.
  split; [apply skew_ok|]. split; [|split; [|split]]; auto.
  - exists [[1; -10000]; [0; 100]]. split; [auto|]. split; [repeat constructor|].
    intros [|[|i]] [|[|j]] Hi Hj; try lia; simpl; lra.
  - constructor; [|constructor]. exists [0; 0]. split; [auto|]. split; [repeat constructor; lra|].
    unfold comb_coord. simpl. repeat (f_equal; try lra).
Qed.

(** ** C07 *)
Lemma kmin_nth_ge : forall k l j B, (j < k)%nat -> (j < length l)%nat ->
  (length (filter (fun a => Rltb a B) l) <= j)%nat -> B <= nth j (kmin k l) 0.
Proof.
  intros k l j B Hj Hl Hc. apply Rnot_lt_le. intro Hlt.
  destruct (kmin_split k l) as (r & HP & _).
  rewrite (filter_perm_length _ _ _ _ HP), filter_app, app_length in Hc.
  pose proof (kmin_length k l) as HL. pose proof (kmin_sorted k l) as Hs.
  set (s := kmin k l) in *. assert (Hjs : (j < length s)%nat) by lia.
  assert (S j <= length (filter (fun a => Rltb a B) s))%nat; [|lia].
  clear - Hs Hjs Hlt. revert j Hjs Hlt.
  induction Hs as [|a s Hs IH HF]; intros j Hjs Hlt; simpl in *; [lia|].
  assert (Ha : a < B).
  { destruct j as [|j]; auto. rewrite Forall_forall in HF.
    assert (a <= nth j s 0) by (apply HF, nth_In; lia). lra. }
  assert (Rltb a B = true) as -> by (apply Rltb_true; auto). simpl.
  destruct j as [|j]; [lia|]. specialize (IH j ltac:(lia) Hlt). lia.
Qed.

(** Decide closed comparisons of numerals. *)
Ltac rdec := repeat match goal with
  | |- context [Rltb ?a ?b] =>
      first [ assert (Rltb a b = true) as -> by (apply Rltb_true; lra)
            | assert (Rltb a b = false) as -> by (apply Rltb_false; lra) ]
  | |- context [Rleb ?a ?b] =>
      first [ assert (Rleb a b = true) as -> by (apply Rleb_true; lra)
            | assert (Rleb a b = false) as -> by (apply Rleb_false; lra) ]
  end.

Ltac leq := repeat first [reflexivity | apply (f_equal2 (@cons _)) | lra].

Section Shifted.
  (** The line with points at 0 and 1/2 modulo 1, described by {0, 1/2} and by
      {0, 11/2}. *)
  Let m1 : list (list R) := [[0]; [1/2]].
  Let m2 : list (list R) := [[0]; [11/2]].
  Let cell : list (list R) := [[1]].

  Lemma shift_ok1 : pset_ok 1 m1 cell.
  Proof. split; simpl; auto; try discriminate; repeat constructor. Qed.
  Lemma shift_ok2 : pset_ok 1 m2 cell.
  Proof. split; simpl; auto; try discriminate; repeat constructor. Qed.
  Lemma shift_nonsingular : nonsingular 1 cell.
  Proof.
    exists [[1]]. split; [auto|]. split; [repeat constructor|].
    intros [|i] [|j] Hi Hj; try lia. simpl. lra.
  Qed.

  Lemma shift_pt : forall mo z i q, nth i mo [] = [q] -> pt 1 mo cell ([z], i) = [q + IZR z].
  Proof.
    intros mo z i q E. unfold pt. simpl fst. simpl snd. rewrite E. unfold latvec, vadd, vscale, vzero, cell.
    cbn. do 2 f_equal. lra.
  Qed.
  Lemma sqd1 : forall p q, sqd [p] [q] = (p - q) * (p - q).
  Proof. intros. unfold sqd. cbn. lra. Qed.

  Lemma shift_visited3 : visited m2 1 3 =
    [([0]%Z, 0%nat); ([0]%Z, 1%nat); ([-1]%Z, 0%nat); ([-1]%Z, 1%nat); ([1]%Z, 0%nat); ([1]%Z, 1%nat);
     ([-2]%Z, 0%nat); ([-2]%Z, 1%nat); ([2]%Z, 0%nat); ([2]%Z, 1%nat)].
  Proof. reflexivity. Qed.

  Lemma shift_list3 : forall p, map (fun a => sqd [p] (pt 1 m2 cell a)) (visited m2 1 3) =
    map (fun q => (p - q) * (p - q)) [0; 11/2; -1; 9/2; 1; 13/2; -2; 7/2; 2; 15/2].
  Proof.
    intros p. rewrite shift_visited3. simpl map.
    rewrite !(shift_pt m2 _ 0 0), !(shift_pt m2 _ 1 (11/2)) by reflexivity.
    rewrite !sqd1. repeat (f_equal; try lra).
  Qed.

  Lemma shift_row3 : forall p, In p m2 -> nth 1 (row_at m2 cell 2 1 3 p) 0 = 1.
  Proof.
    intros p Hp. apply Rle_antisym.
    - assert (E : last (row_at m2 cell 2 1 3 p) 0 = nth 1 (row_at m2 cell 2 1 3 p) 0).
      { unfold row_at. pose proof (kmin_length 2 (map (fun a => sqd p (pt 1 m2 cell a)) (visited m2 1 3))) as HL.
        destruct (kmin 2 _) as [|a [|b [|? ?]]]; simpl in HL; try lia; auto. }
      rewrite <- E. unfold row_at. apply kmin_last_le; [lia|].
      destruct Hp as [<-|[<-|[]]]; rewrite shift_list3; simpl filter; rdec; simpl; lia.
    - apply kmin_nth_ge; try lia.
      + rewrite map_length, shift_visited3. simpl. lia.
      + destruct Hp as [<-|[<-|[]]]; rewrite shift_list3; simpl filter; rdec; simpl; lia.
  Qed.

  Lemma row_last1 : forall mo ce n p, (2 <= length (visited mo 1 n))%nat ->
    last (row_at mo ce 2 1 n p) 0 = nth 1 (row_at mo ce 2 1 n p) 0.
  Proof.
    intros mo ce n p Hl. unfold row_at.
    pose proof (kmin_length 2 (map (fun a => sqd p (pt 1 mo ce a)) (visited mo 1 n))) as HL.
    rewrite map_length in HL.
    destruct (kmin 2 _) as [|a [|b [|? ?]]]; cbn [length] in HL; try lia; auto.
  Qed.

  Lemma shift_settled : settled m2 cell m2 2 1 3.
  Proof.
    exists 1. split; [split|].
    - exists [0]. split; [simpl; auto|]. rewrite row_last1 by (rewrite shift_visited3; simpl; lia).
      rewrite shift_row3; simpl; auto.
    - intros p Hp. rewrite row_last1 by (rewrite shift_visited3; simpl; lia).
      rewrite shift_row3; auto. lra.
    - intros a p Ha Hp.
      assert (E : idxs (length m2) (layer 1 3) = [([-3]%Z, 0%nat); ([-3]%Z, 1%nat); ([3]%Z, 0%nat); ([3]%Z, 1%nat)])
        by reflexivity.
      rewrite E in Ha.
      destruct Ha as [<-|[<-|[<-|[<-|[]]]]];
        rewrite ?(shift_pt m2 _ 0 0), ?(shift_pt m2 _ 1 (11/2)) by reflexivity;
        destruct Hp as [<-|[<-|[]]]; rewrite sqd1; lra.
  Qed.

  Lemma shift_differs : exists fuel rows1 rows2,
    nearest_neighbors fuel m1 cell m1 2 = Done rows1 /\
    nearest_neighbors fuel m2 cell m2 2 = Done rows2 /\
    length rows1 = 2%nat /\ length rows2 = 2%nat /\
    (forall r, In r rows1 -> nth 1 r 0 <= 1/2) /\ (forall r, In r rows2 -> nth 1 r 0 = 1).
  Proof.
    assert (Hst : stop 1 2 2 1).
    { split; [vm_compute; lia|]. intros [|j] Hj; [vm_compute; lia|lia]. }
    destruct (nn_upto 1 m2 cell m2 1 1 3 shift_ok2 (fun p H => H) ltac:(discriminate) Hst ltac:(lia)
      shift_settled) as (n2 & Hn2 & E2). assert (n2 = 3)%nat by lia. subst n2.
    destruct (nearest_neighbors_terminates 1 m1 cell m1 1 shift_ok1 shift_nonsingular (fun p H => H)
      ltac:(discriminate)) as (rows & fuel0 & H0).
    set (fuel := (fuel0 + 4)%nat). destruct (H0 fuel) as [E1 _]. specialize (E1 ltac:(lia)).
    destruct (nearest_neighbors_exact 1 m1 cell m1 1 fuel shift_ok1 (fun p H => H) ltac:(discriminate))
      as (s & Hs & _ & _ & [[E _]|(n & Hn & (Hsn & _) & E)]); [congruence|].
    exists fuel. do 2 eexists. split; [exact E|]. split; [apply E2; lia|].
    split; [reflexivity|]. split; [reflexivity|].
    assert (Hsq : forall (r : list R), nth 1 (map sqrt r) 0 = sqrt (nth 1 r 0)).
    { intros r. rewrite <- sqrt_0 at 1. apply map_nth. }
    split.
    - intros r Hr. apply in_map_iff in Hr as (p & <- & Hp). rewrite Hsq.
      assert (Hvis : (2 <= length (visited m1 1 n))%nat).
      { eapply Nat.le_trans; [|apply (visited_mono m1 1 1); lia]. vm_compute. lia. }
      assert (H4 : nth 1 (row_at m1 cell 2 1 n p) 0 <= 1/4).
      { rewrite <- row_last1 by auto. unfold row_at. apply kmin_last_le; [lia|].
        destruct (visited_prefix m1 1 1 n ltac:(lia)) as (t & ->). rewrite map_app, filter_app, app_length.
        assert (2 <= length (filter (fun a => Rleb a (1 / 4)) (map (fun a => sqd p (pt 1 m1 cell a)) (visited m1 1 1))))%nat;
          [|lia].
        change (visited m1 1 1) with [([0]%Z, 0%nat); ([0]%Z, 1%nat)]. simpl map.
        rewrite (shift_pt m1 _ 0 0), (shift_pt m1 _ 1 (1/2)) by reflexivity.
        destruct Hp as [<-|[<-|[]]]; rewrite !sqd1; simpl filter; rdec; simpl; lia. }
      apply sqrt_le_1_alt in H4. replace (1/4) with (1/2 * (1/2)) in H4 by lra.
      rewrite sqrt_square in H4 by lra. auto.
    - intros r Hr. apply in_map_iff in Hr as (p & <- & Hp). rewrite Hsq, shift_row3 by auto. apply sqrt_1.
  Qed.
End Shifted.

(** C07 is false: two motifs whose points differ by lattice translations, hence the same
    periodic set, get second columns at most 1/2 and equal to 1 (so also different
    AMDs). *)
Theorem C07_motif_representatives_refuted : exists dims motif motif' cell k fuel rows rows',
  pset_ok dims motif cell /\ pset_ok dims motif' cell /\ nonsingular dims cell /\
  Forall2 (fun i p => exists l, length l = dims /\ p = ppoint dims motif cell (l, i))
    (seq 0 (length motif)) motif' /\
  nearest_neighbors fuel motif cell motif (S k) = Done rows /\
  nearest_neighbors fuel motif' cell motif' (S k) = Done rows' /\
  length rows = length rows' /\ rows <> [] /\
  (forall r r', In r rows -> In r' rows' -> nth k r 0 < nth k r' 0).
Proof.
  destruct shift_differs as (fuel & r1 & r2 & E1 & E2 & L1 & L2 & H1 & H2).
  exists 1%nat, [[0]; [1/2]], [[0]; [11/2]], [[1]], 1%nat, fuel, r1, r2.
  split; [apply shift_ok1|]. split; [apply shift_ok2|]. split; [apply shift_nonsingular|].
  split; [|split; [exact E1|split; [exact E2|split; [congruence|split]]]].
  - simpl. constructor; [|constructor; [|constructor]].
    + exists [0]%Z. split; auto. unfold ppoint, lattice_coord, comb_coord. simpl. f_equal. lra.
    + exists [5]%Z. split; auto. unfold ppoint, lattice_coord, comb_coord. simpl. f_equal. lra.
  - intros E. subst. discriminate.
  - intros r r' Hr Hr'. specialize (H1 r Hr). specialize (H2 r' Hr'). lra.
Qed.

(** What remains true: in well conditioned cells with the motif inside the cell the rows
    are determined by the infinite set (C05), whatever the order of the motif (C12). *)

(** ** C58 *)

(** With a query point outside the motif the merge can read out of bounds: motif {0},
    cell (1), query point 10, one neighbour. *)
Theorem C58_query_outside_motif_refuted : exists dims motif cell x k fuel,
  pset_ok dims motif cell /\ nonsingular dims cell /\ x <> [] /\
  Forall (fun p => length p = dims) x /\
  nearest_neighbors fuel motif cell x (S k) = OutOfBounds.
Proof.
  exists 1%nat, [[0]], [[1]], [[10]], 0%nat, 1%nat.
  split; [split; simpl; auto; try discriminate; repeat constructor|].
  split; [apply shift_nonsingular|]. split; [discriminate|]. split; [repeat constructor|].
  unfold nearest_neighbors. simpl hd. simpl length. unfold nn_sq. simpl length.
  assert (Er : fresh_request 1 1 1 = Done ([[0]; [-1]; [1]; [-2]; [2]]%Z, 3%nat)) by (vm_compute; reflexivity).
  rewrite Er. cbn [obind].
  replace (lattice_to_cloud [[0]] (map (latvec 1 [[1]]) [[0]; [-1]; [1]; [-2]; [2]]%Z))
    with [[0]; [-1]; [1]; [-2]; [2 : R]] by (unfold latvec; cbn; leq).
  replace (map (sqd_row [[0]; [-1]; [1]; [-2]; [2]]) [[10]]) with [[100; 121; 81; 144; 64 : R]]
    by (unfold sqd_row, sqd; cbn; leq).
  assert (E1 : map (smallest 1) [[100; 121; 81; 144; 64 : R]] = [[64]]).
  { unfold smallest. cbn. repeat (progress (rdec; cbn)). reflexivity. }
  rewrite E1.
  assert (E2 : forall d, max_bound [[64]] d = Done (64, (sqrt 64 + d) * (sqrt 64 + d))) by reflexivity.
  cbn [map firstn concat app maxl fold_left obind]. rewrite E2. cbn [obind nn_loop].
  replace (gen_item 1 3) with (Done [[-3]; [3]]%Z) by (vm_compute; reflexivity). cbn [obind].
  replace ((sqrt 64 + nsqrt 100) * (sqrt 64 + nsqrt 100)) with 324.
  2: { change (@nsqrt R NumR 100) with (sqrt 100). replace 64 with (8 * 8) by lra.
       replace 100 with (10 * 10) by lra. rewrite !sqrt_square by lra. lra. }
  assert (E3 : pruned_layer [[1]] 1 [[-3]; [3]]%Z 324 = [[-3]; [3]]).
  { unfold pruned_layer, sqnorm, latvec. cbn. repeat (progress (rdec; cbn)). leq. }
  rewrite E3.
  assert (E4 : lattice_to_cloud [[0]] [[-3]; [3]] = [[-3]; [3]]) by (cbn; leq).
  rewrite E4.
  assert (E5 : close_points [[10]] [[-3]; [3]] 64 = [[3]]).
  { unfold close_points, sqd. cbn. repeat (progress (rdec; cbn)). leq. }
  rewrite E5.
  assert (E6 : map (fun p => smallest 1 (sqd_row [[3]] p)) [[10]] = [[49]]) by (unfold sqd_row, sqd; cbn; leq).
  rewrite E6. cbn. repeat (progress (rdec; cbn)). reflexivity.
Qed.

(** ** Examples: the hypotheses are met *)

(** Hexagonal cell with the two points of a honeycomb. *)
Definition hex_cell : list (list R) := [[1; 0]; [- (1/2); sqrt 3 / 2]].
Definition hex_motif : list (list R) := [[0; 0]; [0; sqrt 3 / 3]].

Lemma sqrt3 : sqrt 3 * sqrt 3 = 3.
Proof. apply sqrt_sqrt. lra. Qed.

Example hex_ok : pset_ok 2 hex_motif hex_cell /\ nonsingular 2 hex_cell /\ half_dominant 2 hex_cell /\
  Forall (in_cell 2 hex_cell) hex_motif.
Proof.
  pose proof sqrt3 as H3. assert (Hpos : 0 < sqrt 3) by (apply sqrt_lt_R0; lra).
  split; [|split; [|split]].
  - split; simpl; auto; try discriminate; repeat constructor.
  - exists [[1; sqrt 3 / 3]; [0; 2 * sqrt 3 / 3]]. split; [auto|]. split; [repeat constructor|].
    intros [|[|i]] [|[|j]] Hi Hj; try lia; simpl; nra.
  - intros [|[|i]] Hi; try lia; unfold rsum; simpl.
    + replace (1 * - (1 / 2) + (0 * (sqrt 3 / 2) + 0)) with (- (1/2)) by lra.
      rewrite Rabs_left by lra. lra.
    + replace (- (1 / 2) * 1 + (sqrt 3 / 2 * 0 + 0)) with (- (1/2)) by lra.
      rewrite Rabs_left by lra. nra.
  - constructor; [|constructor; [|constructor]].
    + exists [0; 0]. split; auto. split; [repeat constructor; lra|].
      unfold comb_coord. simpl. leq.
    + exists [1/3; 2/3]. split; auto. split; [repeat constructor; lra|].
      unfold comb_coord. simpl. leq.
Qed.

(** The search on it returns, and the rows are the true nearest distances. *)
Example hex_nearest : exists fuel rows,
  nearest_neighbors fuel hex_motif hex_cell hex_motif 4 = Done rows /\
  Forall2 (fun p r => nearest_distances 2 hex_motif hex_cell p 4 r) hex_motif rows.
Proof.
  destruct hex_ok as (H1 & H2 & H3 & H4).
  destruct (C09_terminates 2 hex_motif hex_cell hex_motif 3 H1 H2 (fun p H => H) ltac:(discriminate))
    as (rows & f0 & H). destruct (H f0) as [E _]. specialize (E (le_n _)).
  exists f0, rows. split; auto.
  eapply C05_rows_are_nearest; eauto using in_cell_spread; try lia. intros p Hp; auto. discriminate.
Qed.

(** Points a little outside of the cell: fractional coordinates (-1/10, 0) and (11/10, 1/2). *)
Definition outside_cell : list (list R) := [[4; 0]; [1; 4]].
Definition outside_motif : list (list R) := [[- (4 / 10); 0]; [49 / 10; 2]].
Example outside_ok : pset_ok 2 outside_motif outside_cell /\ nonsingular 2 outside_cell /\ spread 2 outside_cell outside_motif /\
  ~ in_cell 2 outside_cell [- (4 / 10); 0] /\ ~ in_cell 2 outside_cell [49 / 10; 2].
Proof.
  split; [|split; [|split; [|split]]].
  - split; simpl; try lia; repeat constructor; discriminate.
  - exists [[1 / 4; - (1 / 16)]; [0; 1 / 4]]. split; [auto|]. split; [repeat constructor|].
    intros [|[|i]] [|[|j]] Hi Hj; try lia; simpl; lra.
  - split; [intros [|[|i]] Hi; try lia; simpl; unfold Rabs; repeat destruct (Rcase_abs _); lra|].
    exists (1 / 5), (fun i => nth i [[- (1 / 10); 0]; [11 / 10; 1 / 2]] []). split; [lra|]. split; [|split].
    + replace ((1 - 2 * (1 / 5) + 0) / (2 * (1 + 1 / 5))) with (1 / 4) by field.
      intros [|[|i]] Hi; try lia; simpl; unfold Rabs; repeat destruct (Rcase_abs _); lra.
    + intros [|[|i]] Hi; simpl in Hi; try lia; (split; [reflexivity|]); unfold comb_coord; simpl; (f_equal; [lra|f_equal; lra]).
    + intros [|[|i]] [|[|i']] [|[|j]] Hi Hi' Hj; simpl in *; try lia; unfold Rabs; destruct (Rcase_abs _); lra.
  - intros ([|a [|b [|]]] & L & F & E); try discriminate. unfold comb_coord in E. simpl in E. injection E as E1 E2.
    apply Forall_inv in F. lra.
  - intros ([|a [|b [|]]] & L & F & E); try discriminate. unfold comb_coord in E. simpl in E. injection E as E1 E2.
    apply Forall_inv in F. lra.
Qed.

Example outside_nearest : exists fuel rows,
  nearest_neighbors fuel outside_motif outside_cell outside_motif 4 = Done rows /\
  Forall2 (fun p r => nearest_distances 2 outside_motif outside_cell p 4 r) outside_motif rows.
Proof.
  destruct outside_ok as (H1 & H2 & H3 & _).
  destruct (C09_terminates 2 outside_motif outside_cell outside_motif 3 H1 H2 (fun p H => H) ltac:(discriminate))
    as (rows & f0 & H). destruct (H f0) as [E _]. specialize (E (le_n _)).
  exists f0, rows. split; auto.
  eapply C05_rows_are_nearest; eauto; try lia. intros p Hp; auto. discriminate.
Qed.

(** A rotation by a right angle and a shift. *)
Example rotation_ok : dual_basis 2 [[0; 1]; [-1; 0]] [[0; 1]; [-1; 0]].
Proof.
  split; [auto|]. split; [repeat constructor|].
  intros [|[|i]] [|[|j]] Hi Hj; try lia; simpl; lra.
Qed.

Print Assumptions C04_rows_are_distances.
Print Assumptions C04_no_error.
Print Assumptions C04_indices_are_points.
Print Assumptions C05_rows_are_nearest.
Print Assumptions C05_nearest_unique.
Print Assumptions C06_any_cell_refuted.
Print Assumptions C07_motif_representatives_refuted.
Print Assumptions C09_terminates.
Print Assumptions C10_isometry_invariant.
Print Assumptions C11_scaling.
Print Assumptions C11_proportional_sets.
Print Assumptions C12_reordering.
Print Assumptions C58_query_outside_motif_refuted.
