(** The neighbour search returns, for each query point, the k smallest squared
    distances to all points in the lattice layers visited. *)
From Coq Require Import List ZArith Arith Bool Lia Reals Lra Permutation Sorted.
From Verif Require Import Num Base Spec Outcome LatticeModel LatticeProofs LatticeProofs2
  CacheModel CacheProofs MergeModel MergeProofs NNModel VecR.
Import ListNotations.
Open Scope R_scope.

(** Points of the periodic set, indexed by lattice coordinates and motif index. *)
Notation idx := (list Z * nat)%type.
Definition pt (dims : nat) (motif cell : list (list R)) (a : idx) : list R :=
  vadd (nth (snd a) motif []) (latvec dims cell (fst a)).
Definition idxs (m : nat) (L : list (list Z)) : list idx := list_prod L (seq 0 m).

Lemma map_nth_seq0 : forall A (l : list A) d, map (fun i => nth i l d) (seq 0 (length l)) = l.
Proof. intros. apply map_nth_seq. Qed.

Lemma cloud_eq : forall dims (motif cell : list (list R)) L,
  lattice_to_cloud motif (map (latvec dims cell) L) = map (pt dims motif cell) (idxs (length motif) L).
Proof.
  intros dims motif cell L. unfold lattice_to_cloud, idxs.
  induction L as [|l L IH]; simpl; auto.
  rewrite map_app, IH. f_equal. rewrite map_map.
  unfold pt. simpl. transitivity (map (fun p => vadd p (latvec dims cell l))
      (map (fun i => nth i motif []) (seq 0 (length motif)))).
  - rewrite map_nth_seq0. auto.
  - rewrite map_map. auto.
Qed.

Lemma idxs_app : forall m L1 L2, idxs m (L1 ++ L2) = idxs m L1 ++ idxs m L2.
Proof.
  intros m L1 L2. unfold idxs. induction L1; simpl; auto. rewrite IHL1, app_assoc. auto.
Qed.

Lemma idxs_length : forall m L, length (idxs m L) = (length L * m)%nat.
Proof. intros. unfold idxs. rewrite prod_length, seq_length. auto. Qed.

Lemma idxs_In : forall m L l i, In (l, i) (idxs m L) <-> In l L /\ (i < m)%nat.
Proof. intros. unfold idxs. rewrite in_prod_iff, in_seq. intuition lia. Qed.

Lemma idxs_NoDup : forall m L, NoDup L -> NoDup (idxs m L).
Proof.
  intros m L H. unfold idxs. induction H as [|l L Hn H IH]; simpl; [constructor|].
  apply NoDup_app_intro; auto.
  - apply FinFun.Injective_map_NoDup; [intros a b E; congruence|apply seq_NoDup].
  - intros [l' i] H1 H2. apply in_map_iff in H1 as (j & E & _). injection E as <- <-.
    apply in_prod_iff in H2. tauto.
Qed.

Lemma idxs_filter : forall m f L,
  Permutation (idxs m L) (idxs m (filter f L) ++ idxs m (filter (fun l => negb (f l)) L)).
Proof.
  intros m f L. unfold idxs. induction L as [|l L IH]; simpl; auto.
  destruct (f l); simpl.
  - rewrite <- app_assoc. apply Permutation_app_head. auto.
  - eapply perm_trans; [apply Permutation_app_head, IH|].
    rewrite !app_assoc. apply Permutation_app_tail, Permutation_app_comm.
Qed.

Lemma filter_partition : forall A (f : A -> bool) l,
  Permutation l (filter f l ++ filter (fun a => negb (f a)) l).
Proof.
  induction l as [|a l IH]; simpl; auto. destruct (f a); simpl; auto.
  eapply perm_trans; [apply perm_skip, IH|]. apply Permutation_middle.
Qed.

Lemma filter_map_comm : forall A B (f : B -> bool) (g : A -> B) l,
  filter f (map g l) = map g (filter (fun a => f (g a)) l).
Proof. induction l as [|a l IH]; simpl; auto. destruct (f (g a)); simpl; rewrite IH; auto. Qed.

(** * Maxima *)
Lemma nmaxR : forall a b, nmax a b = Rmax a b.
Proof.
  intros. unfold nmax, Rmax. simpl. unfold Rleb. destruct (Rle_dec a b); auto.
Qed.

Lemma fold_nmax_spec : forall l a, let r := fold_left nmax l a in
  (r = a \/ In r l) /\ a <= r /\ forall b, In b l -> b <= r.
Proof.
  induction l as [|c l IH]; intros a; simpl.
  - split; auto. split; [lra|tauto].
  - destruct (IH (nmax a c)) as (H1 & H2 & H3). rewrite nmaxR in *.
    pose proof (Rmax_l a c). pose proof (Rmax_r a c).
    split.
    + destruct H1 as [H1|H1]; auto. rewrite H1.
      destruct (Rmax_case_strong a c (fun r => r = a \/ r = c)); auto.
    + split; [lra|]. intros b [<-|Hb]; auto. lra.
Qed.

Lemma maxl_spec : forall l : list R, l <> [] -> exists mx, maxl l = Done mx /\ In mx l /\
  forall b, In b l -> b <= mx.
Proof.
  intros [|a l] Hl; [congruence|]. exists (fold_left nmax l a). split; auto.
  destruct (fold_nmax_spec l a) as (H1 & H2 & H3). split.
  - destruct H1 as [H1|H1]; [left; auto|right; auto].
  - intros b [<-|Hb]; auto.
Qed.

Lemma last_col_ok : forall rows : list (list R), Forall (fun r => r <> []) rows ->
  last_col rows = Done (map (fun r => last r 0) rows).
Proof.
  intros rows H. unfold last_col. apply omap_ok. intros r Hr.
  rewrite Forall_forall in H. specialize (H r Hr).
  destruct (exists_last H) as (r' & a & ->). rewrite rev_app_distr. simpl.
  rewrite last_last. auto.
Qed.

Lemma last_In : forall (r : list R) d, r <> [] -> In (last r d) r.
Proof.
  intros r d H. destruct (exists_last H) as (r' & a & ->). rewrite last_last.
  apply in_app_iff. simpl; auto.
Qed.

Lemma sorted_le_last : forall r a, StronglySorted Rle r -> In a r -> a <= last r 0.
Proof.
  intros r a Hs Ha.
  assert (Hne : r <> []) by (destruct r; [destruct Ha|discriminate]).
  destruct (exists_last Hne) as (r' & c & E2). rewrite E2 in *. rewrite last_last.
  apply StronglySorted_app_iff in Hs as (_ & _ & Hs). apply in_app_iff in Ha as [Ha|[<-|[]]]; [|lra].
  apply Hs; simpl; auto.
Qed.

Lemma max_bound_spec : forall rows diam, rows <> [] -> Forall (fun r => r <> []) rows ->
  exists mx, max_bound rows diam = Done (mx, (sqrt mx + diam) * (sqrt mx + diam)) /\
    In mx (map (fun r => last r 0) rows) /\
    forall r, In r rows -> last r 0 <= mx.
Proof.
  intros rows diam Hne HF. unfold max_bound. rewrite last_col_ok by auto. cbn [obind].
  destruct (maxl_spec (map (fun r => last r 0) rows)) as (mx & E & Hin & Hle).
  - destruct rows; simpl; congruence.
  - rewrite E. cbn [obind]. exists mx. split; auto. split; auto.
    intros r Hr. apply Hle. apply in_map_iff. eauto.
Qed.

Lemma smallest_kmin : forall k (l : list R), smallest k l = kmin k l.
Proof. reflexivity. Qed.

Lemma kmin_head0 : forall k l, (1 <= k)%nat -> In 0 l -> (forall a, In a l -> 0 <= a) ->
  exists t, kmin k l = 0 :: t.
Proof.
  intros k l Hk H0 Hp. unfold kmin. pose proof (sortR_sorted l) as Hs.
  pose proof (sortR_perm l) as HP.
  assert (H0' : In 0 (sortR l)) by (eapply Permutation_in; eauto).
  assert (Hp' : forall a, In a (sortR l) -> 0 <= a).
  { intros a Ha. apply Hp. eapply Permutation_in; [apply Permutation_sym; eauto|auto]. }
  destruct (sortR l) as [|a s]; [destruct H0'|]. destruct k as [|k]; [lia|]. simpl.
  exists (firstn k s). f_equal. inversion Hs as [|? ? Hs1 Hs2]; subst. rewrite Forall_forall in Hs2.
  destruct H0' as [->|H0']; auto. specialize (Hs2 0 H0'). specialize (Hp' a (or_introl eq_refl)). lra.
Qed.

(** * The search *)
Section Search.
  Variables (motif cell x : list (list R)) (k dims : nat).
  Hypothesis Hdims : (1 <= dims)%nat.
  Hypothesis Hk : (1 <= k)%nat.
  Hypothesis Hmotif : Forall (fun p => length p = dims) motif.
  Hypothesis Hcell : Forall (fun p => length p = dims) cell.
  Hypothesis Hx : incl x motif.
  Hypothesis Hxne : x <> [].

  Let m := length motif.
  Let P := pt dims motif cell.
  (** Indices of the points in lattice layers 0 .. n-1. *)
  Definition visited (n : nat) : list idx := idxs (length motif) (concat (layers dims n)).

  Lemma m_pos : (1 <= m)%nat.
  Proof.
    unfold m. destruct x as [|p t]; [congruence|].
    destruct motif; [destruct (Hx p (or_introl eq_refl))|simpl; lia].
  Qed.

  Lemma len_x : forall p, In p x -> length p = dims.
  Proof. intros p Hp. rewrite Forall_forall in Hmotif. apply Hmotif, Hx; auto. Qed.

  Lemma len_motif : forall i, (i < m)%nat -> length (nth i motif []) = dims.
  Proof. intros i Hi. rewrite Forall_forall in Hmotif. apply Hmotif, nth_In; auto. Qed.

  Lemma visited_S : forall n, visited (S n) = visited n ++ idxs m (layer dims n).
  Proof.
    intros. unfold visited. rewrite layers_S, concat_app, idxs_app. simpl. rewrite app_nil_r. auto.
  Qed.

  Lemma visited_mono_length : forall n n', (n <= n')%nat ->
    (length (visited n) <= length (visited n'))%nat.
  Proof.
    intros n n' H. induction H; auto. rewrite visited_S, app_length. lia.
  Qed.

  Definition row_at (n : nat) (p : list R) : list R := kmin k (map (fun a => sqd p (P a)) (visited n)).
  Definition rows_at (n : nat) : list (list R) := map (row_at n) x.

  Lemma layer0 : layer dims 0 = [repeat 0%Z dims].
  Proof.
    pose proof (layer_0_length dims Hdims) as Hl.
    destruct (layer_spec dims 0 Hdims) as (_ & _ & Hin).
    destruct (layer dims 0) as [|v [|? ?]]; simpl in Hl; try lia.
    destruct (Hin v) as [H _]. destruct (H (or_introl eq_refl)) as (Hlen & Hz & _). f_equal.
    simpl in Hz. clear - Hlen Hz. revert v Hlen Hz.
    induction dims; intros [|a w] Hl Hz; simpl in *; try discriminate; auto.
    assert (0 <= zsq w)%Z by (clear; induction w; simpl; nia).
    f_equal; [nia|]. apply IHn; [lia|nia].
  Qed.

  Lemma visited_head : forall n, (1 <= n)%nat -> exists t, 
    visited n = idxs m [repeat 0%Z dims] ++ t.
  Proof.
    intros n Hn. destruct n as [|n]; [lia|]. unfold visited, layers. simpl.
    rewrite layer0. simpl. exists (idxs m (concat (map (layer dims) (seq 1 n)))).
    change (repeat 0%Z dims :: concat (map (layer dims) (seq 1 n)))
      with ([repeat 0%Z dims] ++ concat (map (layer dims) (seq 1 n))).
    rewrite idxs_app. reflexivity.
  Qed.

  Lemma P_origin : forall i, (i < m)%nat -> P (repeat 0%Z dims, i) = nth i motif [].
  Proof.
    intros i Hi. unfold P, pt. simpl. rewrite latvec_zero by auto.
    apply vadd_zero_r, len_motif; auto.
  Qed.

  Lemma row_head : forall n p, (1 <= n)%nat -> In p x -> exists t, row_at n p = 0 :: t.
  Proof.
    intros n p Hn Hp. apply kmin_head0; auto.
    - destruct (In_nth motif p [] (Hx p Hp)) as (i & Hi & E).
      apply in_map_iff. exists (repeat 0%Z dims, i). split.
      + rewrite P_origin by auto. rewrite E. apply sqd_refl.
      + destruct (visited_head n Hn) as (t & ->). apply in_app_iff. left.
        apply idxs_In. simpl; auto.
    - intros a Ha. apply in_map_iff in Ha as (b & <- & _). apply sqd_nonneg.
  Qed.

  Lemma rows_nonempty : forall n, (1 <= n)%nat ->
    rows_at n <> [] /\ Forall (fun r => r <> []) (rows_at n).
  Proof.
    intros n Hn. split.
    - unfold rows_at. destruct x; simpl; congruence.
    - apply Forall_forall. intros r Hr. apply in_map_iff in Hr as (p & <- & Hp).
      destruct (row_head n p Hn Hp) as (t & ->). discriminate.
  Qed.

  (** [mx] is the largest of the last entries. *)
  Definition is_max (n : nat) (mx : R) : Prop :=
    (exists p, In p x /\ mx = last (row_at n p) 0) /\
    forall p, In p x -> last (row_at n p) 0 <= mx.

  Lemma max_bound_rows : forall n diam, (1 <= n)%nat ->
    exists mx, max_bound (rows_at n) diam = Done (mx, (sqrt mx + diam) * (sqrt mx + diam)) /\
      is_max n mx.
  Proof.
    intros n diam Hn. destruct (rows_nonempty n Hn) as [H1 H2].
    destruct (max_bound_spec (rows_at n) diam H1 H2) as (mx & E & Hin & Hle).
    exists mx. split; auto. split.
    - apply in_map_iff in Hin as (r & <- & Hr). apply in_map_iff in Hr as (p & <- & Hp). eauto.
    - intros p Hp. apply Hle. apply in_map_iff. eauto.
  Qed.

  Lemma is_max_nonneg : forall n mx, is_max n mx -> 0 <= mx.
  Proof.
    intros n mx [(p & Hp & ->) _]. destruct (row_at n p) as [|a r] eqn:E; [simpl; lra|].
    assert (Hin : In (last (row_at n p) 0) (row_at n p)) by (apply last_In; rewrite E; discriminate).
    rewrite <- E.
    assert (H : In (last (row_at n p) 0) (map (fun a => sqd p (P a)) (visited n))).
    { unfold row_at in *. destruct (kmin_split k (map (fun a => sqd p (P a)) (visited n))) as (rest & HP & _).
      eapply Permutation_in; [apply Permutation_sym; eauto|]. apply in_app_iff; auto. }
    apply in_map_iff in H as (b & <- & _). apply sqd_nonneg.
  Qed.

  Definition diam_ok (diam : R) : Prop := 
    0 <= diam /\ forall p i, In p x -> (i < m)%nat -> dist p (nth i motif []) <= diam.

  Lemma pruned_far : forall mx diam p l i, 0 <= mx -> diam_ok diam -> In p x -> (i < m)%nat ->
    Rltb (sqnorm (latvec dims cell l)) ((sqrt mx + diam) * (sqrt mx + diam)) = false ->
    mx <= sqd p (P (l, i)).
  Proof.
    intros mx diam p l i Hmx [Hd0 Hd] Hp Hi H. apply Rltb_false in H. rewrite sqnorm_dot in H.
    rewrite <- norm_sq in H.
    assert (Hs : 0 <= sqrt mx) by apply sqrt_pos.
    assert (Hn : sqrt mx + diam <= norm (latvec dims cell l)).
    { apply Rle_of_sq; auto using norm_nonneg. }
    pose proof (dist_translate_lower p (nth i motif []) (latvec dims cell l)) as HT.
    rewrite (len_x p Hp), (len_motif i Hi), latvec_length in HT by auto.
    specialize (HT eq_refl eq_refl). specialize (Hd p i Hp Hi).
    change (vadd (nth i motif []) (latvec dims cell l)) with (P (l, i)) in HT.
    assert (Hle : sqrt mx <= dist p (P (l, i))) by lra.
    rewrite <- (sqrt_sqrt mx) by auto. rewrite <- (sqrt_sqrt (sqd p (P (l, i)))) by apply sqd_nonneg.
    rewrite sqrt_sqd. nra.
  Qed.

  (** The points of a layer kept by pruning and filtering, as indices. *)
  Lemma close_dropped : forall mx diam L, 0 <= mx -> diam_ok diam ->
    exists kept dropped, Permutation (idxs m L) (kept ++ dropped) /\
      close_points x (lattice_to_cloud motif
          (pruned_layer cell dims L ((sqrt mx + diam) * (sqrt mx + diam)))) mx = map P kept /\
      (forall a p, In a dropped -> In p x -> mx <= sqd p (P a)) /\
      (pruned_layer cell dims L ((sqrt mx + diam) * (sqrt mx + diam)) = [] -> kept = []) /\
      (forall a, In a kept -> exists p, In p x /\ sqd p (P a) < mx).
  Proof.
    intros mx diam L Hmx Hd. set (b := (sqrt mx + diam) * (sqrt mx + diam)).
    unfold pruned_layer. rewrite filter_map_comm.
    set (f := fun a => nltb (sqnorm (latvec dims cell a)) b).
    rewrite cloud_eq. unfold close_points. rewrite filter_map_comm.
    fold m. fold P.
    set (g := fun a => existsb (fun p => nltb (sqd p (P a)) mx) x).
    exists (filter g (idxs m (filter f L))),
      (filter (fun a => negb (g a)) (idxs m (filter f L)) ++ idxs m (filter (fun l => negb (f l)) L)).
    split; [|split; [|split; [|split]]].
    - eapply perm_trans; [apply (idxs_filter m f)|]. rewrite app_assoc.
      apply Permutation_app_tail. apply filter_partition.
    - reflexivity.
    - intros a p Ha Hp. apply in_app_iff in Ha as [Ha|Ha].
      + apply filter_In in Ha as [_ Ha]. apply negb_true_iff in Ha. unfold g in Ha.
        apply not_true_iff_false in Ha. rewrite existsb_exists in Ha.
        apply Rnot_lt_le. intro Hlt. apply Ha. exists p. split; auto. apply Rltb_true; auto.
      + destruct a as [l i]. apply idxs_In in Ha as [Ha Hi]. apply filter_In in Ha as [_ Ha].
        apply negb_true_iff in Ha. eapply pruned_far; eauto.
    - intros Hnil. apply map_eq_nil in Hnil. rewrite Hnil. reflexivity.
    - intros a Ha. apply filter_In in Ha as [_ Ha]. unfold g in Ha.
      apply existsb_exists in Ha as (p & Hp & Hlt). apply Rltb_true in Hlt. eauto.
  Qed.

  (** Adding a layer of which only [kept] can matter. *)
  Lemma row_step : forall n mx kept dropped p, (1 <= n)%nat -> (k <= length (visited n))%nat ->
    is_max n mx -> In p x ->
    Permutation (idxs m (layer dims n)) (kept ++ dropped) ->
    (forall a, In a dropped -> mx <= sqd p (P a)) ->
    row_at (S n) p = kmin k (row_at n p ++ map (fun a => sqd p (P a)) kept).
  Proof.
    intros n mx kept dropped p Hn Hlen [_ Hmax] Hp HP Hdrop. unfold row_at at 1.
    rewrite visited_S. set (f := fun a => sqd p (P a)).
    assert (HP' : Permutation (map f (visited n ++ idxs m (layer dims n)))
                    ((map f (visited n) ++ map f dropped) ++ map f kept)).
    { rewrite <- !map_app. apply Permutation_map. rewrite <- app_assoc.
      apply Permutation_app_head. eapply perm_trans; [exact HP|]. apply Permutation_app_comm. }
    rewrite (kmin_perm k HP'). rewrite <- kmin_app_kmin_l.
    rewrite (kmin_drop (k := k) (map f (visited n)) (map f dropped)).
    - reflexivity.
    - rewrite map_length. auto.
    - intros a b Ha Hb. apply in_map_iff in Hb as (c & <- & Hc). specialize (Hdrop c Hc).
      assert (a <= last (row_at n p) 0) by (apply sorted_le_last; [apply kmin_sorted|exact Ha]).
      specialize (Hmax p Hp). unfold f. lra.
  Qed.

  Lemma rows_step_nil : forall n mx dropped, (1 <= n)%nat -> (k <= length (visited n))%nat ->
    is_max n mx -> Permutation (idxs m (layer dims n)) dropped ->
    (forall a p, In a dropped -> In p x -> mx <= sqd p (P a)) ->
    rows_at n = rows_at (S n).
  Proof.
    intros n mx dropped Hn Hlen Hmax HP Hd. apply map_ext_in. intros p Hp.
    rewrite (row_step n mx [] dropped p); auto. simpl. rewrite app_nil_r.
    unfold row_at. symmetry. apply kmin_kmin.
  Qed.

  Lemma combine_map_map : forall A B C (f : A -> B) (g : A -> C) l,
    combine (map f l) (map g l) = map (fun a => (f a, g a)) l.
  Proof. induction l; simpl; auto. f_equal; auto. Qed.

  Lemma omap_map : forall A B C (f : B -> outcome C) (g : A -> B) l,
    omap f (map g l) = omap (fun a => f (g a)) l.
  Proof. induction l; simpl; auto. rewrite IHl. auto. Qed.

  Lemma merge_step : forall n mx kept dropped, (1 <= n)%nat -> (k <= length (visited n))%nat ->
    is_max n mx -> kept <> [] ->
    Permutation (idxs m (layer dims n)) (kept ++ dropped) ->
    (forall a p, In a dropped -> In p x -> mx <= sqd p (P a)) ->
    merge_sorted_arrays (rows_at n) (map (fun p => smallest k (sqd_row (map P kept) p)) x)
      = Done (rows_at (S n)).
  Proof.
    intros n mx kept dropped Hn Hlen Hmax Hk0 HP Hd. unfold merge_sorted_arrays, rows_at.
    rewrite combine_map_map, omap_map. apply omap_ok. intros p Hp. cbn [fst snd].
    rewrite smallest_kmin. unfold sqd_row. rewrite map_map.
    set (new := map (fun a => sqd p (P a)) kept).
    assert (Hl : length (row_at n p) = k).
    { unfold row_at. rewrite kmin_length, map_length. lia. }
    rewrite merge_row_kmin.
    - rewrite Hl. f_equal. rewrite kmin_app_kmin_r.
      rewrite (row_step n mx kept dropped p); auto.
    - apply kmin_sorted.
    - apply kmin_sorted.
    - destruct (row_head n p Hn Hp) as (t & Et).
      assert (Hnl : (1 <= length (kmin k new))%nat).
      { rewrite kmin_length. unfold new. rewrite map_length. destruct kept; [congruence|]. simpl. lia. }
      destruct (kmin k new) as [|b t_] eqn:Eb; [simpl in Hnl; lia|].
      exists 0, t, b, t_. split; auto. split; auto.
      assert (Hb : In b (kmin k new)) by (rewrite Eb; simpl; auto).
      destruct (kmin_split k new) as (r & HPn & _).
      assert (Hb' : In b new).
      { eapply Permutation_in; [apply Permutation_sym; exact HPn|]. apply in_app_iff; auto. }
      apply in_map_iff in Hb' as (a & <- & _). apply sqd_nonneg.
  Qed.

  (** The final layer visited contributed nothing: all its points are at least as far
      from every query point as every reported neighbour. *)
  Definition settled (n : nat) : Prop :=
    exists mx, is_max n mx /\
      forall a p, In a (idxs m (layer dims n)) -> In p x -> mx <= sqd p (P a).

  Lemma is_max_unique : forall n mx mx', is_max n mx -> is_max n mx' -> mx = mx'.
  Proof.
    intros n mx mx' [(p & Hp & ->) H1] [(q & Hq & ->) H2].
    apply Rle_antisym; auto.
  Qed.

  (** The first layer, from [s] on, contributing nothing. *)
  Definition first_settled (s n : nat) : Prop :=
    (s <= n)%nat /\ settled n /\ forall n', (s <= n' < n)%nat -> ~ settled n'.

  Lemma first_settled_unique : forall s n n', first_settled s n -> first_settled s n' -> n = n'.
  Proof.
    intros s n n' (H1 & H2 & H3) (H4 & H5 & H6).
    destruct (Nat.lt_trichotomy n n') as [H|[H|H]]; auto; exfalso.
    - apply (H6 n); auto.
    - apply (H3 n'); auto.
  Qed.

  (** The loop stops at the first settled layer. *)
  Lemma loop_exact : forall fuel n diam mx, (1 <= n)%nat -> (k <= length (visited n))%nat ->
    diam_ok diam -> is_max n mx ->
    let r := nn_loop motif cell x k dims fuel n (rows_at n) diam mx
               ((sqrt mx + diam) * (sqrt mx + diam)) in
    (r = OutOfFuel /\ forall n', (n <= n' < n + fuel)%nat -> ~ settled n') \/
    exists n', (n' < n + fuel)%nat /\ first_settled n n' /\ r = Done (rows_at n').
  Proof.
    induction fuel as [|fuel IH]; intros n diam mx Hn Hlen Hdiam Hmax; cbv zeta.
    { left. split; [reflexivity|]. intros; lia. }
    cbn [nn_loop]. destruct (layer_spec dims n Hdims) as (-> & _). cbn [obind].
    pose proof (is_max_nonneg n mx Hmax) as Hmx.
    destruct (close_dropped mx diam (layer dims n) Hmx Hdiam)
      as (kept & dropped & HP & Ecl & Hd & Hnil & Hclose).
    set (b := (sqrt mx + diam) * (sqrt mx + diam)) in *.
    assert (Hstop : kept = [] -> first_settled n n).
    { intros ->. split; auto. split; [|intros; lia]. exists mx. split; auto.
      intros a p Ha Hp. apply Hd; auto. eapply Permutation_in; eauto. }
    destruct (pruned_layer cell dims (layer dims n) b) as [|v lat] eqn:Epl.
    - right. exists n. split; [lia|]. split; auto.
    - rewrite Ecl. destruct kept as [|a0 kept].
      + right. exists n. split; [lia|]. split; auto.
      + simpl map at 1. cbv iota.
        assert (Hns : ~ settled n).
        { intros (mx2 & Hmax2 & Hall). rewrite (is_max_unique n mx2 mx) in Hall by auto.
          destruct (Hclose a0 (or_introl eq_refl)) as (p & Hp & Hlt).
          assert (Ha0 : In a0 (idxs m (layer dims n))).
          { eapply Permutation_in; [apply Permutation_sym; exact HP|]. simpl; auto. }
          specialize (Hall a0 p Ha0 Hp). lra. }
        change (P a0 :: map P kept) with (map P (a0 :: kept)).
        rewrite (merge_step n mx (a0 :: kept) dropped); auto; [|discriminate].
        cbn [obind].
        destruct (max_bound_rows (S n) diam) as (mx' & -> & Hmax'); [lia|]. cbn [obind].
        assert (Hlen' : (k <= length (visited (S n)))%nat).
        { eapply Nat.le_trans; [exact Hlen|]. apply visited_mono_length. lia. }
        destruct (IH (S n) diam mx' ltac:(lia) Hlen' Hdiam Hmax') as [[E Hno]|(n' & Hn' & Hs & E)].
        * left. split; [exact E|]. intros n' Hn'. destruct (Nat.eq_dec n' n) as [->|]; auto.
          apply Hno. lia.
        * right. exists n'. split; [lia|]. split; auto. destruct Hs as (H1 & H2 & H3).
          split; [lia|]. split; auto. intros n2 Hn2.
          destruct (Nat.eq_dec n2 n) as [->|]; auto. apply H3. lia.
  Qed.

  (** The search result: [start] is the first layer not in the initial batch. *)
  Theorem nn_sq_exact : forall fuel, exists i, stop dims m k i /\ 
    (k < length (visited (i + 1)))%nat /\
    ((nn_sq motif cell x k dims fuel = OutOfFuel /\
        forall n', (i + 2 <= n' < i + 2 + fuel)%nat -> ~ settled n') \/
     exists n, (n < i + 2 + fuel)%nat /\ first_settled (i + 2) n /\
        nn_sq motif cell x k dims fuel = Done (rows_at n)).
  Proof.
    intros fuel. unfold nn_sq. cbv zeta. change (@length (vec R) motif) with m.
    destruct (stop_exists dims m k Hdims m_pos) as (i & Hs).
    rewrite (fresh_request_eq dims m k i) by (auto using m_pos). cbn [obind].
    rewrite cloud_eq. fold P. fold m.
    change (idxs m (concat (layers dims (i + 2)))) with (visited (i + 2)).
    set (rows0 := map (sqd_row (map P (visited (i + 2)))) x).
    assert (Hfm : forall p, firstn m (sqd_row (map P (visited (i + 2))) p)
                            = map (sqd p) motif).
    { intros p. unfold sqd_row. rewrite map_map.
      destruct (visited_head (i + 2)) as (t & ->); [lia|].
      rewrite map_app, firstn_app.
      rewrite map_length, idxs_length. simpl length. rewrite Nat.mul_1_l, Nat.sub_diag.
      simpl firstn at 2. rewrite app_nil_r.
      rewrite firstn_all2 by (rewrite map_length, idxs_length; simpl; lia).
      unfold idxs. simpl. rewrite app_nil_r, map_map.
      transitivity (map (sqd p) (map (fun j => nth j motif []) (seq 0 m)));
        [|unfold m; rewrite map_nth_seq0; auto]. rewrite map_map.
      apply map_ext_in. intros j Hj. apply in_seq in Hj. rewrite P_origin by lia. auto. }
    destruct (maxl_spec (concat (map (firstn m) rows0))) as (mxd & Ed & Hind & Hled).
    { pose proof m_pos as Hm. unfold rows0. rewrite map_map.
      rewrite (map_ext _ (fun p => map (sqd p) motif)) by (intros p; apply Hfm).
      clear - Hm Hxne. unfold m in Hm. destruct x as [|p t]; [congruence|].
      destruct motif; [simpl in Hm; lia|]. discriminate. }
    rewrite Ed. cbn [obind].
    assert (Hdiam : diam_ok (nsqrt mxd)).
    { split; [apply sqrt_pos|]. intros p j Hp Hj. rewrite <- sqrt_sqd. apply sqrt_le_1_alt.
      apply Hled. apply in_concat. exists (map (sqd p) motif). split.
      - apply in_map_iff. exists (sqd_row (map P (visited (i + 2))) p). split; [apply Hfm|].
        apply in_map; auto.
      - apply in_map, nth_In; auto. }
    assert (Er : map (smallest k) rows0 = rows_at (i + 2)).
    { unfold rows0, rows_at. rewrite map_map. apply map_ext. intros p.
      unfold sqd_row. rewrite map_map. reflexivity. }
    rewrite Er.
    destruct (max_bound_rows (i + 2) (nsqrt mxd)) as (mx & -> & Hmax); [lia|]. cbn [obind].
    assert (Hk1 : (k < length (visited (i + 1)))%nat).
    { unfold visited. rewrite idxs_length. fold m. destruct Hs as [Hs _]. unfold tot in Hs.
      replace (i + 1)%nat with (S i) by lia. auto. }
    assert (Hk2 : (k <= length (visited (i + 2)))%nat).
    { pose proof (visited_mono_length (i + 1) (i + 2)). lia. }
    exists i. split; auto. split; auto.
    exact (loop_exact fuel (i + 2) (nsqrt mxd) mx ltac:(lia) Hk2 Hdiam Hmax).
  Qed.
End Search.
