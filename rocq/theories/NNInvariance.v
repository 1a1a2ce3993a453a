(** The result of the search depends only on the distances between points of the
    periodic set: rigid motions, scaling and reordering of the motif. *)
From Coq Require Import List ZArith Arith Bool Lia Reals Lra Permutation Sorted.
From Verif Require Import Num Base Spec SpecGeom Outcome LatticeModel LatticeProofs LatticeProofs2
  CacheModel CacheProofs MergeModel MergeProofs NNModel VecR NNProofs NNSpecProofs NNComplete.
Import ListNotations.
Open Scope R_scope.

Lemma kmin_scale : forall c k l, 0 <= c -> kmin k (map (Rmult c) l) = map (Rmult c) (kmin k l).
Proof.
  intros c k l Hc. destruct (kmin_split k l) as (r & HP & Hr).
  apply kmin_char with (map (Rmult c) r).
  - apply StronglySorted_map. eapply StronglySorted_impl; [|apply kmin_sorted].
    simpl. intros. apply Rmult_le_compat_l; auto.
  - rewrite !map_length. apply kmin_length.
  - rewrite <- map_app. apply Permutation_map. auto.
  - intros a b Ha Hb. apply in_map_iff in Ha as (a' & <- & Ha). apply in_map_iff in Hb as (b' & <- & Hb).
    apply Rmult_le_compat_l; auto.
Qed.

Lemma last_map : forall A B (f : A -> B) l d, last (map f l) (f d) = f (last l d).
Proof.
  induction l as [|a l IH]; intros d; auto. destruct l as [|b l]; auto.
  simpl in *. apply IH.
Qed.

Section Similar.
  Variables (motif cell motif' cell' : list (list R)) (dims k : nat) (c : R).
  Hypothesis Hc : 0 < c.

  (** [p] sees the first set, layer by layer, as [p'] sees the second, up to the
      factor [c] on squared distances. *)
  Definition similar (p p' : list R) : Prop := forall n,
    Permutation (map (fun a => sqd p' (pt dims motif' cell' a)) (idxs (length motif') (layer dims n)))
                (map (fun a => c * sqd p (pt dims motif cell a)) (idxs (length motif) (layer dims n))).

  Lemma similar_visited : forall p p' n, similar p p' ->
    Permutation (map (fun a => sqd p' (pt dims motif' cell' a)) (visited motif' dims n))
                (map (fun a => c * sqd p (pt dims motif cell a)) (visited motif dims n)).
  Proof.
    intros p p' n H. induction n as [|n IH]; [constructor|]. rewrite !visited_S, !map_app.
    apply Permutation_app; auto.
  Qed.

  Lemma similar_row : forall p p' n, similar p p' ->
    row_at motif' cell' k dims n p' = map (Rmult c) (row_at motif cell k dims n p).
  Proof.
    intros p p' n H. unfold row_at. rewrite <- kmin_scale by lra. rewrite map_map.
    apply kmin_perm. apply similar_visited; auto.
  Qed.

  Lemma similar_settled : forall x x' n,
    (forall p, In p x -> exists p', In p' x' /\ similar p p') ->
    (forall p', In p' x' -> exists p, In p x /\ similar p p') ->
    settled motif cell x k dims n -> settled motif' cell' x' k dims n.
  Proof.
    intros x x' n H1 H2 (mx & [(p & Hp & E) Hmax] & Hset). exists (c * mx).
    assert (Hlast : forall p p', similar p p' -> last (row_at motif' cell' k dims n p') 0 =
        c * last (row_at motif cell k dims n p) 0).
    { intros q q' H. rewrite (similar_row q q' n H).
      replace 0 with (c * 0) at 1 by lra. apply last_map. }
    split; [split|].
    - destruct (H1 p Hp) as (p' & Hp' & Hs). exists p'. split; auto.
      rewrite (Hlast p p' Hs), E. auto.
    - intros q' Hq'. destruct (H2 q' Hq') as (q & Hq & Hs). rewrite (Hlast q q' Hs).
      apply Rmult_le_compat_l; [lra|auto].
    - intros a q' Ha Hq'. destruct (H2 q' Hq') as (q & Hq & Hs).
      assert (Hin : In (sqd q' (pt dims motif' cell' a))
        (map (fun a => c * sqd q (pt dims motif cell a)) (idxs (length motif) (layer dims n)))).
      { eapply Permutation_in; [apply (Hs n)|]. apply in_map_iff; eauto. }
      apply in_map_iff in Hin as (b & <- & Hb). apply Rmult_le_compat_l; [lra|]. auto.
  Qed.
End Similar.

Lemma similar_sym : forall motif cell motif' cell' dims c p p', 0 < c ->
  similar motif cell motif' cell' dims c p p' ->
  similar motif' cell' motif cell dims (/ c) p' p.
Proof.
  intros motif cell motif' cell' dims c p p' Hc H n. specialize (H n).
  apply (Permutation_map (Rmult (/ c))) in H. rewrite !map_map in H.
  apply Permutation_sym in H. eapply Permutation_trans; [|exact H].
  apply Permutation_refl'. apply map_ext. intros a. field. lra.
Qed.

Theorem nearest_neighbors_similar : forall dims motif cell motif' cell' x x' k c fuel,
  0 < c -> pset_ok dims motif cell -> pset_ok dims motif' cell' ->
  incl x motif -> x <> [] -> incl x' motif' -> x' <> [] ->
  length motif = length motif' ->
  (forall p, In p x -> exists p', In p' x' /\ similar motif cell motif' cell' dims c p p') ->
  (forall p', In p' x' -> exists p, In p x /\ similar motif cell motif' cell' dims c p p') ->
  (nearest_neighbors fuel motif cell x (S k) = OutOfFuel /\
   nearest_neighbors fuel motif' cell' x' (S k) = OutOfFuel) \/
  exists f f',
    nearest_neighbors fuel motif cell x (S k) = Done (map f x) /\
    nearest_neighbors fuel motif' cell' x' (S k) = Done (map f' x') /\
    forall p p', similar motif cell motif' cell' dims c p p' -> f' p' = map (Rmult (sqrt c)) (f p).
Proof.
  intros dims motif cell motif' cell' x x' k c fuel Hc Hps Hps' Hx Hne Hx' Hne' Hm H1 H2.
  destruct (nearest_neighbors_exact dims motif cell x k fuel Hps Hx Hne) as (s & Hs & Hst & Hl & H).
  destruct (nearest_neighbors_exact dims motif' cell' x' k fuel Hps' Hx' Hne') as (s' & Hs' & Hst' & Hl' & H').
  assert (s' = s).
  { rewrite <- Hm in Hst'. assert ((s' - 2)%nat = (s - 2)%nat); [|lia]. eapply stop_unique; eauto. } subst s'.
  assert (Hto : forall n, settled motif cell x (S k) dims n -> settled motif' cell' x' (S k) dims n).
  { intros n. apply similar_settled with (c := c); auto. }
  assert (Hfrom : forall n, settled motif' cell' x' (S k) dims n -> settled motif cell x (S k) dims n).
  { intros n. apply similar_settled with (c := / c).
    - apply Rinv_0_lt_compat; auto.
    - intros p' Hp'. destruct (H2 p' Hp') as (p & Hp & Hsim). exists p. split; auto.
      apply similar_sym; auto.
    - intros p Hp. destruct (H1 p Hp) as (p' & Hp' & Hsim). exists p'. split; auto.
      apply similar_sym; auto. }
  destruct H as [[E Hno]|(n & Hn & (Hf1 & Hf2 & Hf3) & E)];
  destruct H' as [[E' Hno']|(n' & Hn' & (Hf1' & Hf2' & Hf3') & E')].
  - left. auto.
  - exfalso. apply (Hno n'); auto.
  - exfalso. apply (Hno' n); auto.
  - right. assert (n' = n).
    { apply (first_settled_unique motif cell x (S k) dims s).
      - split; [auto|]. split; [auto|]. intros r Hr HS. apply (Hf3' r Hr). auto.
      - split; auto. }
    subst n'. do 2 eexists. split; [exact E|]. split; [exact E'|].
    intros p p' Hsim. cbv beta. rewrite (similar_row _ _ _ _ _ (S k) c Hc p p' n Hsim). rewrite !map_map.
    apply map_ext. intros a. apply sqrt_mult_alt. lra.
Qed.

(** * Sets with proportional distances between points with the same index *)
Theorem nearest_neighbors_proportional : forall dims motif cell motif' cell' is k c fuel,
  0 < c -> pset_ok dims motif cell -> pset_ok dims motif' cell' ->
  length motif = length motif' -> is <> [] -> Forall (fun i => (i < length motif)%nat) is ->
  (forall a b, pindex dims motif a -> pindex dims motif b ->
     edist (ppoint dims motif' cell' a) (ppoint dims motif' cell' b) =
     c * edist (ppoint dims motif cell a) (ppoint dims motif cell b)) ->
  let sel (mo : list (list R)) := map (fun i => nth i mo []) is in
  (nearest_neighbors fuel motif cell (sel motif) (S k) = OutOfFuel /\
   nearest_neighbors fuel motif' cell' (sel motif') (S k) = OutOfFuel) \/
  exists rows, nearest_neighbors fuel motif cell (sel motif) (S k) = Done rows /\
    nearest_neighbors fuel motif' cell' (sel motif') (S k) = Done (map (map (Rmult c)) rows).
Proof.
  intros dims motif cell motif' cell' is k c fuel Hc Hps Hps' Hm Hne His Hd sel.
  assert (Hpt0 : forall mo ce i, pset_ok dims mo ce -> (i < length mo)%nat ->
     ppoint dims mo ce (repeat 0%Z dims, i) = nth i mo []).
  { intros mo ce i Hok Hi. rewrite <- pt_ppoint.
    - unfold pt. simpl. rewrite latvec_zero by (destruct Hok; auto). apply vadd_zero_r.
      destruct Hok as [_ _ H _ _]. rewrite Forall_forall in H. apply H, nth_In; auto.
    - auto.
    - split; simpl; auto. apply repeat_length. }
  assert (Hsim : forall i, (i < length motif)%nat ->
    similar motif cell motif' cell' dims (c * c) (nth i motif []) (nth i motif' [])).
  { intros i Hi n. rewrite <- Hm. apply Permutation_refl'. apply map_ext_in. intros [l j] Ha.
    apply idxs_In in Ha as [Hl Hj].
    destruct (layer_spec dims n (ok_dims _ _ _ Hps)) as (_ & _ & Hin). apply Hin in Hl as (Hl & _).
    specialize (Hd (repeat 0%Z dims, i) (l, j)).
    rewrite (Hpt0 motif'), (Hpt0 motif) in Hd by (auto; lia).
    rewrite <- !pt_ppoint in Hd by (auto; split; simpl; auto; lia).
    rewrite <- !dist_edist in Hd.
    assert (Hix : pindex dims motif (repeat 0%Z dims, i)) by (split; simpl; auto; apply repeat_length).
    assert (Hjx : pindex dims motif (l, j)) by (split; simpl; auto).
    specialize (Hd Hix Hjx). rewrite <- !sqrt_sqd in Hd.
    rewrite <- (sqrt_sqrt (sqd (nth i motif' []) _)) by apply sqd_nonneg.
    rewrite <- (sqrt_sqrt (sqd (nth i motif []) _)) by apply sqd_nonneg.
    rewrite Hd. ring. }
  assert (Hsel : forall mo, length mo = length motif -> incl (sel mo) mo).
  { intros mo Hl p Hp. apply in_map_iff in Hp as (i & <- & Hi). apply nth_In.
    rewrite Forall_forall in His. rewrite Hl. auto. }
  assert (Hsne : forall mo, sel mo <> []) by (intros mo; destruct is; [congruence|discriminate]).
  destruct (nearest_neighbors_similar dims motif cell motif' cell' (sel motif) (sel motif') k (c * c) fuel)
    as [H|(f & f' & E & E' & H)]; auto.
  - nra.
  - intros p Hp. apply in_map_iff in Hp as (i & <- & Hi). rewrite Forall_forall in His.
    exists (nth i motif' []). split; auto. unfold sel. apply in_map_iff. eauto.
  - intros p Hp. apply in_map_iff in Hp as (i & <- & Hi). rewrite Forall_forall in His.
    exists (nth i motif []). split; auto. unfold sel. apply in_map_iff. eauto.
  - right. exists (map f (sel motif)). split; auto. rewrite E'. f_equal. unfold sel. rewrite !map_map.
    apply map_ext_in. intros i Hi. rewrite (H (nth i motif []) (nth i motif' [])).
    + rewrite sqrt_square by lra. auto.
    + rewrite Forall_forall in His. auto.
Qed.

(** * Reordering the motif *)
Lemma perm_similar : forall dims motif motif' cell p, Permutation motif motif' ->
  similar motif cell motif' cell dims 1 p p.
Proof.
  intros dims motif motif' cell p H n.
  assert (G : forall mo L, map (fun a => sqd p (pt dims mo cell a)) (idxs (length mo) L) =
     concat (map (fun l => map (fun q => sqd p (vadd q (latvec dims cell l))) mo) L)).
  { intros mo L. unfold idxs. induction L as [|l L IH]; auto. simpl. rewrite map_app, IH. f_equal.
    rewrite map_map. unfold pt. simpl.
    rewrite <- (map_map (fun i => nth i mo []) (fun q => sqd p (vadd q (latvec dims cell l)))).
    rewrite map_nth_seq. auto. }
  apply Permutation_trans with (map (fun a => sqd p (pt dims motif cell a)) (idxs (length motif) (layer dims n))).
  - rewrite !G. induction (layer dims n) as [|l L IH]; simpl; auto.
    apply Permutation_app; auto. apply Permutation_map. apply Permutation_sym; auto.
  - apply Permutation_refl'. apply map_ext. intros. lra.
Qed.

Theorem nearest_neighbors_reorder : forall dims motif motif' cell x x' k fuel,
  pset_ok dims motif cell -> Permutation motif motif' -> Permutation x x' -> incl x motif -> x <> [] ->
  (nearest_neighbors fuel motif cell x (S k) = OutOfFuel /\
   nearest_neighbors fuel motif' cell x' (S k) = OutOfFuel) \/
  exists f,
    nearest_neighbors fuel motif cell x (S k) = Done (map f x) /\
    nearest_neighbors fuel motif' cell x' (S k) = Done (map f x').
Proof.
  intros dims motif motif' cell x x' k fuel Hps HP HPx Hx Hne.
  assert (Hps' : pset_ok dims motif' cell).
  { destruct Hps as [H1 H2 H3 H4 H5]. split; auto.
    - intros E. subst. apply Permutation_sym, Permutation_nil in HP. auto.
    - eapply Permutation_Forall; eauto. }
  destruct (nearest_neighbors_similar dims motif cell motif' cell x x' k 1 fuel)
    as [H|(f & f' & E & E' & H)]; auto.
  - lra.
  - intros p Hp. eapply Permutation_in; [exact HP|]. apply Hx. eapply Permutation_in; [|exact Hp].
    apply Permutation_sym; auto.
  - intros E. subst. apply Permutation_sym, Permutation_nil in HPx. auto.
  - apply Permutation_length; auto.
  - intros p Hp. exists p. split; [eapply Permutation_in; eauto|]. apply perm_similar; auto.
  - intros p Hp. exists p. split; [|apply perm_similar; auto].
    eapply Permutation_in; [apply Permutation_sym; eauto|auto].
  - right. exists f. split; auto. rewrite E'. f_equal. apply map_ext. intros p.
    rewrite (H p p (perm_similar _ _ _ _ _ HP)), sqrt_1.
    rewrite <- (map_id (f p)) at 2. apply map_ext. intros. lra.
Qed.

(** * Rigid motions *)
Lemma rsum_swap : forall A B (f : A -> B -> R) l1 l2,
  rsum (map (fun a => rsum (map (fun b => f a b) l2)) l1) =
  rsum (map (fun b => rsum (map (fun a => f a b) l1)) l2).
Proof.
  induction l1 as [|a l1 IH]; intros l2; simpl.
  - transitivity (rsum (map (fun _ : B => 0 * 0) l2)); [rewrite rsum_scale; lra|].
    apply rsum_ext. intros. lra.
  - rewrite IH, <- rsum_plus. auto.
Qed.

Lemma nth_lin : forall dims g j, (j < dims)%nat -> nth j (map g (seq 0 dims)) 0 = g j.
Proof. intros. apply nth_map_seq. auto. Qed.

Lemma ppoint_rigid : forall dims cols t motif cell a, pset_ok dims motif cell -> length cols = dims ->
  pindex dims motif a ->
  ppoint dims (map (rigid dims cols t) motif) (map (lin_map dims cols) cell) a =
  rigid dims cols t (ppoint dims motif cell a).
Proof.
  intros dims cols t motif cell [l i] Hps Hcols [Hl Hi]. simpl in Hl, Hi.
  unfold ppoint at 1, rigid at 2. simpl fst. simpl snd. apply map_ext_in. intros j Hj.
  apply in_seq in Hj.
  rewrite (nth_indep _ [] (rigid dims cols t [])) by (rewrite map_length; auto).
  rewrite map_nth. unfold rigid at 1. rewrite nth_lin by lia.
  unfold lattice_coord, comb_coord. rewrite map_length, Hcols.
  replace (rsum (map (fun r => nth r (ppoint dims motif cell (l, i)) 0 * nth j (nth r cols []) 0) (seq 0 dims)))
    with (rsum (map (fun r => nth r (nth i motif []) 0 * nth j (nth r cols []) 0) (seq 0 dims)) +
          rsum (map (fun r => lattice_coord cell l r * nth j (nth r cols []) 0) (seq 0 dims))).
  - assert (E : rsum (map (fun r => nth r (map IZR l) 0 * nth j (nth r (map (lin_map dims cols) cell) []) 0)
                     (seq 0 (length cell))) =
        rsum (map (fun r => lattice_coord cell l r * nth j (nth r cols []) 0) (seq 0 dims))); [|lra].
    unfold lattice_coord, comb_coord.
    transitivity (rsum (map (fun r => rsum (map (fun s =>
        nth r (map IZR l) 0 * nth s (nth r cell []) 0 * nth j (nth s cols []) 0) (seq 0 dims))) (seq 0 (length cell)))).
    + apply rsum_ext. intros r Hr. apply in_seq in Hr.
      rewrite (nth_indep (map (lin_map dims cols) cell) [] (lin_map dims cols [])) by (rewrite map_length; lia).
      rewrite (map_nth (lin_map dims cols)). unfold lin_map. rewrite nth_lin by lia. unfold comb_coord. rewrite Hcols.
      rewrite <- rsum_scale. apply rsum_ext. intros. ring.
    + rewrite rsum_swap. apply rsum_ext. intros s Hs. rewrite Rmult_comm, <- rsum_scale.
      apply rsum_ext. intros. ring.
  - rewrite <- rsum_plus. apply rsum_ext. intros r Hr. apply in_seq in Hr.
    unfold ppoint. rewrite nth_lin by lia. simpl. ring.
Qed.

Lemma lin_map_latvecR : forall dims cols p, Forall (fun r => length r = dims) cols ->
  length p = length cols -> lin_map dims cols p = latvecR dims cols p.
Proof.
  intros dims cols p Hc Hp. apply vec_ext.
  - unfold lin_map. rewrite map_length, seq_length, latvecR_length; auto.
  - unfold lin_map. rewrite map_length, seq_length. intros j Hj.
    rewrite nth_lin, latvecR_nth by auto. auto.
Qed.

Lemma rigid_vadd : forall dims cols t p, length t = dims ->
  rigid dims cols t p = vadd (lin_map dims cols p) t.
Proof.
  intros dims cols t p Ht. unfold rigid, lin_map. apply vec_ext.
  - unfold vadd. rewrite map2_length, !map_length, seq_length. lia.
  - rewrite map_length, seq_length. intros j Hj. unfold vadd.
    rewrite (map2_nth _ _ _ _ _ _ _ 0 0) by (rewrite ?map_length, ?seq_length; lia).
    rewrite !nth_lin by auto. auto.
Qed.

Lemma dot_orthonormal : forall dims cols u v, dual_basis dims cols cols ->
  length cols = dims -> length u = dims -> length v = dims ->
  dot (latvecR dims cols u) (latvecR dims cols v) = dot u v.
Proof.
  intros dims cols u v (_ & Hc & Hd) Hl Hu Hv.
  assert (E : forall w i, length w = dims -> (i < dims)%nat -> dot (nth i cols []) (latvecR dims cols w) = nth i w 0).
  { intros w i Hw Hi. rewrite dot_comm, dot_latvecR by (auto; lia). rewrite Hl.
    rewrite (rsum_split dims i) by auto. rewrite <- rdot_dot, Hd, Nat.eqb_refl by auto.
    replace (rsum _) with 0; [lra|]. symmetry.
    transitivity (rsum (map (fun _ : nat => 0 * 0) (seq 0 dims))).
    - apply rsum_ext. intros r Hr. apply in_seq in Hr. destruct (Nat.eqb_spec r i) as [|Hne]; [lra|].
      rewrite <- rdot_dot, Hd by lia. destruct (Nat.eqb_spec r i); [congruence|]. lra.
    - rewrite rsum_scale. lra. }
  rewrite dot_latvecR by (auto; lia). rewrite Hl.
  rewrite <- rdot_dot. clear Hd Hc.
  transitivity (rsum (map (fun j => nth j u 0 * nth j v 0) (seq 0 dims))).
  - apply rsum_ext. intros j Hj. apply in_seq in Hj. rewrite E by (auto; lia). auto.
  - clear E Hl. subst dims. revert v Hv. induction u as [|a u IH]; intros [|b v] Hv; simpl in *; try lia; auto.
    f_equal. rewrite <- IH by lia. rewrite <- seq_shift, map_map. auto.
Qed.

Lemma latvecR_vsub : forall dims cols u v, Forall (fun r => length r = dims) cols ->
  length u = length cols -> length v = length cols ->
  vsub (latvecR dims cols u) (latvecR dims cols v) = latvecR dims cols (vsub u v).
Proof.
  intros dims cols u v Hc Hu Hv. apply vec_ext.
  - rewrite vsub_length, !latvecR_length; auto. lia.
  - rewrite vsub_length, !latvecR_length by auto. intros j Hj. unfold vsub.
    rewrite (map2_nth _ _ _ _ _ _ _ 0 0) by (rewrite latvecR_length; auto; lia).
    rewrite !latvecR_nth by (rewrite ?map2_length; auto; lia). unfold comb_coord.
    replace (_ - _) with (rsum (map (fun r => nth r u 0 * nth j (nth r cols []) 0) (seq 0 (length cols))) +
      (-1) * rsum (map (fun r => nth r v 0 * nth j (nth r cols []) 0) (seq 0 (length cols)))) by lra.
    rewrite <- rsum_scale, <- rsum_plus. apply rsum_ext. intros r Hr. apply in_seq in Hr.
    rewrite (map2_nth _ _ _ _ _ _ _ 0 0) by lia. ring.
Qed.

Lemma vsub_vadd_r : forall u v t, length u = length t -> length v = length t ->
  vsub (vadd u t) (vadd v t) = vsub u v.
Proof.
  unfold vsub, vadd. induction u as [|a u IH]; intros [|b v] [|c t] H1 H2; simpl in *; try lia; auto.
  f_equal; [lra|]. apply IH; lia.
Qed.

Lemma rigid_isometry : forall dims cols t p q, dual_basis dims cols cols -> length cols = dims ->
  length t = dims -> length p = dims -> length q = dims ->
  edist (rigid dims cols t p) (rigid dims cols t q) = edist p q.
Proof.
  intros dims cols t p q Hd Hl Ht Hp Hq. rewrite <- !dist_edist, <- !sqrt_sqd. f_equal.
  rewrite !sqd_dot, !rigid_vadd by auto.
  assert (Hc : Forall (fun r => length r = dims) cols) by (destruct Hd; tauto).
  rewrite !lin_map_latvecR by (auto; lia).
  rewrite vsub_vadd_r by (rewrite latvecR_length; auto; lia).
  rewrite latvecR_vsub by (auto; lia). apply dot_orthonormal; auto;
  rewrite vsub_length; lia.
Qed.

Lemma ppoint_length : forall dims motif cell a, length (ppoint dims motif cell a) = dims.
Proof. intros. unfold ppoint. rewrite map_length, seq_length. auto. Qed.

Lemma rigid_length : forall dims cols t p, length (rigid dims cols t p) = dims.
Proof. intros. unfold rigid. rewrite map_length, seq_length. auto. Qed.

Lemma pset_ok_rigid : forall dims cols t motif cell, pset_ok dims motif cell ->
  pset_ok dims (map (rigid dims cols t) motif) (map (lin_map dims cols) cell).
Proof.
  intros dims cols t motif cell [H1 H2 H3 H4 H5]. split; auto.
  - destruct motif; [congruence|discriminate].
  - apply Forall_forall. intros p Hp. apply in_map_iff in Hp as (q & <- & _). apply rigid_length.
  - rewrite map_length. auto.
  - apply Forall_forall. intros p Hp. apply in_map_iff in Hp as (q & <- & _).
    unfold lin_map. rewrite map_length, seq_length. auto.
Qed.

(** Scaling. *)
Lemma ppoint_scaled : forall dims c motif cell a, pset_ok dims motif cell -> pindex dims motif a ->
  ppoint dims (map (map (Rmult c)) motif) (map (map (Rmult c)) cell) a =
  map (Rmult c) (ppoint dims motif cell a).
Proof.
  intros dims c motif cell [l i] [H1 H2 H3 H4 H5] [Hl Hi]. simpl in Hl, Hi.
  assert (Hn : forall (p : list R) j, nth j (map (Rmult c) p) 0 = c * nth j p 0).
  { intros p j. replace 0 with (c * 0) at 1 by lra. apply map_nth. }
  unfold ppoint. rewrite map_map. apply map_ext. intros j. simpl fst. simpl snd.
  change (@nil R) with (map (Rmult c) []) at 1. rewrite (map_nth (map (Rmult c)) motif [] i), Hn.
  unfold lattice_coord, comb_coord. rewrite map_length, Rmult_plus_distr_l, <- rsum_scale. f_equal.
  apply rsum_ext. intros r _.
  change (@nil R) with (map (Rmult c) []) at 1. rewrite (map_nth (map (Rmult c)) cell [] r), Hn. ring.
Qed.

Lemma edist_scaled : forall c p q, 0 <= c ->
  edist (map (Rmult c) p) (map (Rmult c) q) = c * edist p q.
Proof.
  intros c p q Hc. unfold edist.
  assert (E : sq_dist (map (Rmult c) p) (map (Rmult c) q) = c * c * sq_dist p q).
  { revert q. induction p as [|a p IH]; intros [|b q]; simpl; try lra. rewrite IH. ring. }
  rewrite E, sqrt_mult_alt by nra. rewrite sqrt_square; auto.
Qed.

Lemma pset_ok_scaled : forall dims c motif cell, pset_ok dims motif cell ->
  pset_ok dims (map (map (Rmult c)) motif) (map (map (Rmult c)) cell).
Proof.
  intros dims c motif cell [H1 H2 H3 H4 H5]. rewrite Forall_forall in H3, H5. split; auto.
  - destruct motif; [congruence|discriminate].
  - apply Forall_forall. intros p Hp. apply in_map_iff in Hp as (q & <- & Hq). rewrite map_length. auto.
  - rewrite map_length. auto.
  - apply Forall_forall. intros p Hp. apply in_map_iff in Hp as (q & <- & Hq). rewrite map_length. auto.
Qed.
