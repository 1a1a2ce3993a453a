(** The neighbour search with rounded operations: what it returns in terms of the keys it
    computes (rounded squared distances and rounded squared lengths). *)
From Coq Require Import List ZArith Arith Bool Lia Reals Lra Permutation Sorted.
From Verif Require Import Num Base Spec Outcome LatticeModel LatticeProofs LatticeProofs2
  CacheModel CacheProofs MergeModel MergeProofs NNModel VecR NNProofs NNComplete RoundModel.
Import ListNotations.
Open Scope R_scope.

Section Search.
  Variable ar : arith.
  Let N : Num R := num_of ar.
  Variables (motif cell x : list (list R)) (k dims : nat).
  Hypothesis Hdims : (1 <= dims)%nat.
  Hypothesis Hk : (1 <= k)%nat.
  Hypothesis Hx : incl x motif.
  Hypothesis Hxne : x <> [].

  Let m := length motif.
  Definition rlat (l : list Z) : list R := @latvec R N dims cell l.
  Definition rpt (a : idx) : list R := @vadd R N (nth (snd a) motif []) (rlat (fst a)).
  Definition key (p : list R) (a : idx) : R := @sqd R N p (rpt a).
  Definition rnorm (l : list Z) : R := @sqnorm R N (rlat l).
  Definition bnd (mx diam : R) : R := r_mul ar (r_add ar (r_sqrt ar mx) diam) (r_add ar (r_sqrt ar mx) diam).

  Hypothesis key_nonneg : forall p a, 0 <= key p a.
  Hypothesis key_self : forall i, (i < m)%nat -> key (nth i motif []) (repeat 0%Z dims, i) = 0.

  Lemma rm_pos : (1 <= m)%nat.
  Proof.
    unfold m. destruct x as [|p t]; [congruence|]. specialize (Hx p (or_introl eq_refl)).
    destruct motif; [destruct Hx|simpl; lia].
  Qed.

  Lemma rcloud_eq : forall L, @lattice_to_cloud R N motif (map rlat L) = map rpt (idxs m L).
  Proof.
    intros L. unfold lattice_to_cloud, idxs. induction L as [|l L IH]; [reflexivity|].
    cbn [map flat_map list_prod]. rewrite map_app, IH. f_equal. rewrite map_map. unfold rpt. cbn [fst snd].
    transitivity (map (fun p => @vadd R N p (rlat l)) (map (fun i => nth i motif []) (seq 0 m))).
    - unfold m. rewrite map_nth_seq0. auto.
    - rewrite map_map. auto.
  Qed.

  Definition row_of (V : list idx) (p : list R) : list R := kmin k (map (key p) V).
  Definition rows_of (V : list idx) : list (list R) := map (row_of V) x.
  Definition top (V : list idx) (mx : R) : Prop :=
    (exists p, In p x /\ mx = last (row_of V p) 0) /\ forall p, In p x -> last (row_of V p) 0 <= mx.
  Definition far (diam mx : R) (l : list Z) : Prop := exists mx', mx <= mx' /\ 0 <= mx' /\ bnd mx' diam <= rnorm l.

  (** [V] are the points which the rows account for, [W] those left out because of their
      lattice vector. *)
  Record state_at (n : nat) (diam : R) (V W : list idx) (mx : R) : Prop := {
    sa_all : Permutation (visited motif dims n) (V ++ W);
    sa_len : (k <= length V)%nat;
    sa_first : incl (idxs m [repeat 0%Z dims]) V;
    sa_far : forall a, In a W -> far diam mx (fst a);
    sa_top : top V mx
  }.

  Lemma rrow_head : forall V p, incl (idxs m [repeat 0%Z dims]) V -> In p x -> exists t, row_of V p = 0 :: t.
  Proof.
    intros V p HV Hp. apply kmin_head0; auto.
    - destruct (In_nth motif p [] (Hx p Hp)) as (i & Hi & E). apply in_map_iff. exists (repeat 0%Z dims, i). split.
      + rewrite <- E. auto.
      + apply HV, idxs_In. simpl; auto.
    - intros a Ha. apply in_map_iff in Ha as (b & <- & _). auto.
  Qed.

  Lemma rmax_bound : forall V diam, incl (idxs m [repeat 0%Z dims]) V ->
    exists mx, @max_bound R N (rows_of V) diam = Done (mx, bnd mx diam) /\ top V mx.
  Proof.
    intros V diam HV.
    assert (Hne : Forall (fun r => r <> []) (rows_of V)).
    { apply Forall_forall. intros r Hr. apply in_map_iff in Hr as (p & <- & Hp).
      destruct (rrow_head V p HV Hp) as (t & ->). discriminate. }
    unfold max_bound. change (@last_col R) with (@last_col R). rewrite last_col_ok by auto. cbn [obind].
    destruct (maxl_spec (map (fun r => last r 0) (rows_of V))) as (mx & E & Hin & Hle).
    { unfold rows_of. destruct x; simpl; congruence. }
    change (@maxl R N) with (@maxl R NumR). rewrite E. cbn [obind]. exists mx. split; [reflexivity|]. split.
    - apply in_map_iff in Hin as (r & <- & Hr). apply in_map_iff in Hr as (p & <- & Hp). eauto.
    - intros p Hp. apply Hle. apply in_map_iff. exists (row_of V p). split; auto. apply in_map; auto.
  Qed.

  Lemma top_nonneg : forall V mx, top V mx -> 0 <= mx.
  Proof.
    intros V mx [(p & Hp & ->) _]. destruct (row_of V p) as [|a r] eqn:E; [simpl; lra|]. rewrite <- E.
    assert (Hin : In (last (row_of V p) 0) (row_of V p)) by (apply last_In; rewrite E; discriminate).
    destruct (kmin_split k (map (key p) V)) as (rest & HP & _). fold (row_of V p) in HP.
    assert (H : In (last (row_of V p) 0) (map (key p) V)).
    { eapply Permutation_in; [apply Permutation_sym; eauto|]. apply in_app_iff; auto. }
    apply in_map_iff in H as (b & <- & _). auto.
  Qed.

  Lemma top_mono : forall V V' mx mx', (k <= length V)%nat -> top V mx -> top (V ++ V') mx' -> mx' <= mx.
  Proof.
    intros V V' mx mx' Hl [_ H] [(p & Hp & ->) _]. eapply Rle_trans; [|apply (H p Hp)]. unfold row_of.
    rewrite map_app. apply kmin_last_mono; auto. now rewrite map_length.
  Qed.

  (** Splitting a layer. *)
  Lemma rclose_dropped : forall mx diam L,
    exists kept high cut, Permutation (idxs m L) (kept ++ high ++ cut) /\
      @close_points R N x (@lattice_to_cloud R N motif (@pruned_layer R N cell dims L (bnd mx diam))) mx = map rpt kept /\
      (forall a p, In a high -> In p x -> mx <= key p a) /\
      (forall a, In a cut -> bnd mx diam <= rnorm (fst a)) /\
      (@pruned_layer R N cell dims L (bnd mx diam) = [] -> kept = [] /\ high = []) /\
      (forall a, In a kept -> exists p, In p x /\ key p a < mx).
  Proof.
    intros mx diam L. unfold pruned_layer. rewrite filter_map_comm.
    set (f := fun a => Rltb (rnorm a) (bnd mx diam)).
    change (fun a : list Z => @nltb R N (@sqnorm R N (@latvec R N dims cell a)) (bnd mx diam)) with f.
    change (map (@latvec R N dims cell) (filter f L)) with (map rlat (filter f L)).
    rewrite rcloud_eq. unfold close_points. rewrite filter_map_comm.
    set (g := fun a => existsb (fun p => Rltb (key p a) mx) x).
    change (fun a : idx => existsb (fun p : vec R => @nltb R N (@sqd R N p (rpt a)) mx) x) with g.
    exists (filter g (idxs m (filter f L))), (filter (fun a => negb (g a)) (idxs m (filter f L))),
      (idxs m (filter (fun l => negb (f l)) L)).
    split; [|split; [|split; [|split; [|split]]]].
    - eapply perm_trans; [apply (idxs_filter m f)|]. rewrite app_assoc.
      apply Permutation_app_tail. apply filter_partition.
    - reflexivity.
    - intros a p Ha Hp. apply filter_In in Ha as [_ Ha]. apply negb_true_iff in Ha. unfold g in Ha.
      apply not_true_iff_false in Ha. rewrite existsb_exists in Ha.
      apply Rnot_lt_le. intro Hlt. apply Ha. exists p. split; auto. apply Rltb_true; auto.
    - intros [l i] Ha. apply idxs_In in Ha as [Ha Hi]. apply filter_In in Ha as [_ Ha].
      apply negb_true_iff in Ha. apply Rltb_false in Ha. exact Ha.
    - intros Hnil. apply map_eq_nil in Hnil. rewrite Hnil. split; reflexivity.
    - intros a Ha. apply filter_In in Ha as [_ Ha]. unfold g in Ha.
      apply existsb_exists in Ha as (p & Hp & Hlt). apply Rltb_true in Hlt. eauto.
  Qed.

  (** Points at least as far as [mx] do not change a row. *)
  Lemma row_high : forall V mx high p, (k <= length V)%nat -> top V mx -> In p x ->
    (forall a, In a high -> mx <= key p a) -> row_of (V ++ high) p = row_of V p.
  Proof.
    intros V mx high p Hl [_ Hmax] Hp Hh. unfold row_of. rewrite map_app. apply kmin_drop; [now rewrite map_length|].
    intros a b Ha Hb. apply in_map_iff in Hb as (c & <- & Hc). specialize (Hh c Hc).
    assert (a <= last (row_of V p) 0) by (apply sorted_le_last; [apply kmin_sorted|exact Ha]).
    specialize (Hmax p Hp). lra.
  Qed.

  Lemma rrow_step : forall V mx kept high p, (k <= length V)%nat -> top V mx -> In p x ->
    (forall a, In a high -> mx <= key p a) ->
    row_of (V ++ kept ++ high) p = kmin k (row_of V p ++ map (key p) kept).
  Proof.
    intros V mx kept high p Hl Ht Hp Hh. rewrite <- (row_high V mx high p) by auto.
    unfold row_of. rewrite kmin_app_kmin_l. apply kmin_perm. rewrite <- map_app. apply Permutation_map.
    rewrite <- app_assoc. apply Permutation_app_head. apply Permutation_app_comm.
  Qed.

  Lemma rmerge_step : forall V mx kept high, (k <= length V)%nat -> incl (idxs m [repeat 0%Z dims]) V -> top V mx ->
    kept <> [] -> (forall a p, In a high -> In p x -> mx <= key p a) ->
    @merge_sorted_arrays R N (rows_of V) (map (fun p => @smallest R N k (@sqd_row R N (map rpt kept) p)) x)
      = Done (rows_of (V ++ kept ++ high)).
  Proof.
    intros V mx kept high Hl HV Ht Hk0 Hh. change (@merge_sorted_arrays R N) with (@merge_sorted_arrays R NumR).
    unfold merge_sorted_arrays, rows_of.
    rewrite combine_map_map, omap_map. apply omap_ok. intros p Hp. cbn [fst snd].
    change (@smallest R N k (@sqd_row R N (map rpt kept) p)) with (kmin k (@sqd_row R N (map rpt kept) p)).
    unfold sqd_row. rewrite map_map. change (fun a : idx => @sqd R N p (rpt a)) with (key p).
    set (new := map (key p) kept).
    assert (Hlr : length (row_of V p) = k) by (unfold row_of; rewrite kmin_length, map_length; lia).
    rewrite merge_row_kmin.
    - rewrite Hlr. f_equal. rewrite kmin_app_kmin_r. rewrite (rrow_step V mx kept high p); auto.
    - apply kmin_sorted.
    - apply kmin_sorted.
    - destruct (rrow_head V p HV Hp) as (t & Et).
      assert (Hnl : (1 <= length (kmin k new))%nat).
      { rewrite kmin_length. unfold new. rewrite map_length. destruct kept; [congruence|]. simpl. lia. }
      destruct (kmin k new) as [|b t_] eqn:Eb; [simpl in Hnl; lia|].
      exists 0, t, b, t_. split; auto. split; auto.
      assert (Hb : In b (kmin k new)) by (rewrite Eb; simpl; auto).
      destruct (kmin_split k new) as (r & HPn & _).
      assert (Hb' : In b new) by (eapply Permutation_in; [apply Permutation_sym; exact HPn|]; apply in_app_iff; auto).
      apply in_map_iff in Hb' as (a & <- & _). auto.
  Qed.

  (** At the end the next layer has nothing which the search counts as near. *)
  Definition finished (n : nat) (diam mx : R) : Prop :=
    forall a, In a (idxs m (layer dims n)) -> (forall p, In p x -> mx <= key p a) \/ far diam mx (fst a).

  Lemma rloop : forall fuel n diam V W mx, state_at n diam V W mx ->
    let r := @nn_loop R N motif cell x k dims fuel n (rows_of V) diam mx (bnd mx diam) in
    (r = OutOfFuel /\ forall n', (n <= n' < n + fuel)%nat -> exists a p, In a (idxs m (layer dims n')) /\ In p x /\ key p a < mx) \/
    exists n' V' W' mx', (n <= n')%nat /\ state_at n' diam V' W' mx' /\ finished n' diam mx' /\ mx' <= mx /\ r = Done (rows_of V').
  Proof.
    induction fuel as [|fuel IH]; intros n diam V W mx HS; cbv zeta.
    { left. split; [reflexivity|]. intros; lia. }
    cbn [nn_loop]. destruct (layer_spec dims n Hdims) as (-> & _). cbn [obind].
    destruct HS as [SA SL SF SW ST]. pose proof (top_nonneg V mx ST) as Hmx.
    destruct (rclose_dropped mx diam (layer dims n)) as (kept & high & cut & HP & Ecl & Hh & Hc & Hnil & Hclose).
    assert (Hstop : kept = [] -> finished n diam mx).
    { intros -> a Ha. apply (Permutation_in _ HP) in Ha. cbn [app] in Ha. apply in_app_iff in Ha. destruct Ha as [Ha|Ha]; [left; auto|].
      right. exists mx. split; [lra|]. split; auto. }
    assert (Hdone : kept = [] -> exists n' V' W' mx', (n <= n')%nat /\ state_at n' diam V' W' mx' /\ finished n' diam mx' /\ mx' <= mx /\
              @Done (list (list R)) (rows_of V) = Done (rows_of V')).
    { intros E. exists n, V, W, mx. split; [lia|]. split; [constructor; auto|]. split; [auto|]. split; [lra|reflexivity]. }
    destruct (@pruned_layer R N cell dims (layer dims n) (bnd mx diam)) as [|v lat] eqn:Epl.
    - right. destruct (Hnil eq_refl) as [E _]. apply Hdone. exact E.
    - rewrite Ecl. destruct kept as [|a0 kept]; [right; apply Hdone; reflexivity|].
      cbn [map]. change (rpt a0 :: map rpt kept) with (map rpt (a0 :: kept)).
      rewrite (rmerge_step V mx (a0 :: kept) high) by (auto; discriminate). cbn [obind].
      assert (SF' : incl (idxs m [repeat 0%Z dims]) (V ++ (a0 :: kept) ++ high)) by (intros a Ha; apply in_app_iff; auto).
      destruct (rmax_bound (V ++ (a0 :: kept) ++ high) diam SF') as (mx' & -> & ST'). cbn [obind].
      pose proof (top_mono V _ mx mx' SL ST ST') as Hmono.
      assert (HS' : state_at (S n) diam (V ++ (a0 :: kept) ++ high) (W ++ cut) mx').
      { constructor; auto.
        - rewrite visited_S. fold m. eapply perm_trans; [apply Permutation_app; [exact SA|exact HP]|].
          rewrite <- !app_assoc. apply Permutation_app_head. rewrite !app_assoc. apply Permutation_app_tail.
          rewrite <- app_assoc. apply Permutation_app_comm.
        - rewrite app_length. lia.
        - intros a Ha. apply in_app_iff in Ha. destruct Ha as [Ha|Ha].
          + destruct (SW a Ha) as (mx2 & F1 & F2 & F3). exists mx2. split; [lra|auto].
          + exists mx. split; auto. }
      destruct (IH (S n) diam _ _ mx' HS') as [[E Hno]|(n' & V' & W' & mx2 & Hn' & HS2 & HF & HM & E)].
      + left. split; [exact E|]. intros n' Hn'. destruct (Nat.eq_dec n' n) as [->|Hne].
        * destruct (Hclose a0 (or_introl eq_refl)) as (p & Hp & Hlt). exists a0, p. split; [|auto].
          eapply Permutation_in; [apply Permutation_sym; exact HP|]. left. reflexivity.
        * destruct (Hno n' ltac:(lia)) as (a & p & H1 & H2 & H3). exists a, p. split; auto. split; auto. lra.
      + right. exists n', V', W', mx2. split; [lia|]. split; auto. split; auto. split; [lra|exact E].
  Qed.

  Theorem rnn_sq : forall fuel, exists s diam mxd mx0, (2 <= s)%nat /\ diam = r_sqrt ar mxd /\ 0 <= mxd /\
    (forall p i, In p x -> (i < m)%nat -> key p (repeat 0%Z dims, i) <= mxd) /\
    stop dims m k (s - 2) /\ (k < length (visited motif dims (s - 1)))%nat /\
    top (visited motif dims s) mx0 /\
    ((@nn_sq R N motif cell x k dims fuel = OutOfFuel /\
        forall n', (s <= n' < s + fuel)%nat -> exists a p, In a (idxs m (layer dims n')) /\ In p x /\ key p a < mx0) \/
     exists n V W mx, (s <= n)%nat /\ state_at n diam V W mx /\ finished n diam mx /\
        @nn_sq R N motif cell x k dims fuel = Done (rows_of V)).
  Proof.
    intros fuel. unfold nn_sq. cbv zeta. change (@length (vec R) motif) with m.
    destruct (stop_exists dims m k Hdims rm_pos) as (i & Hs).
    rewrite (fresh_request_eq dims m k i) by (auto using rm_pos). cbn [obind].
    change (map (@latvec R N dims cell) (concat (layers dims (i + 2)))) with (map rlat (concat (layers dims (i + 2)))).
    rewrite rcloud_eq. change (idxs m (concat (layers dims (i + 2)))) with (visited motif dims (i + 2)).
    set (V := visited motif dims (i + 2)).
    assert (Er : forall p, @sqd_row R N (map rpt V) p = map (key p) V) by (intros p; unfold sqd_row; rewrite map_map; reflexivity).
    set (rows0 := map (@sqd_row R N (map rpt V)) x).
    destruct (visited_head motif k dims Hdims Hk (i + 2)) as (t & EV); [lia|]. fold m in EV. fold V in EV.
    assert (SF : incl (idxs m [repeat 0%Z dims]) V) by (rewrite EV; intros a Ha; apply in_app_iff; auto).
    assert (Hfm : forall p, firstn m (@sqd_row R N (map rpt V) p) = map (key p) (idxs m [repeat 0%Z dims])).
    { intros p. rewrite Er, EV, map_app, firstn_app, map_length, idxs_length. cbn [length]. rewrite Nat.mul_1_l, Nat.sub_diag.
      cbn [firstn]. rewrite app_nil_r. apply firstn_all2. rewrite map_length, idxs_length. cbn [length]. lia. }
    destruct (maxl_spec (concat (map (firstn m) rows0))) as (mxd & Ed & Hind & Hled).
    { unfold rows0. rewrite map_map. rewrite (map_ext _ (fun p => map (key p) (idxs m [repeat 0%Z dims]))) by (intros p; apply Hfm).
      pose proof rm_pos as Hm. clear - Hm Hxne. destruct x as [|p t]; [congruence|]. cbn [map concat].
      destruct m as [|m']; [lia|]. discriminate. }
    change (@maxl R N) with (@maxl R NumR). rewrite Ed. cbn [obind].
    assert (Hd : forall p j, In p x -> (j < m)%nat -> key p (repeat 0%Z dims, j) <= mxd).
    { intros p j Hp Hj. apply Hled. apply in_concat. exists (map (key p) (idxs m [repeat 0%Z dims])). split.
      - apply in_map_iff. exists (@sqd_row R N (map rpt V) p). split; [apply Hfm|]. apply in_map; auto.
      - apply in_map, idxs_In. simpl; auto. }
    assert (Hd0 : 0 <= mxd).
    { assert (Hp : exists p, In p x) by (destruct x as [|p t0]; [congruence|]; exists p; left; auto). destruct Hp as (p & Hp).
      eapply Rle_trans; [|apply (Hd p 0%nat Hp rm_pos)]. auto. }
    assert (Erows : map (@smallest R N k) rows0 = rows_of V).
    { unfold rows0, rows_of. rewrite map_map. apply map_ext. intros p. rewrite Er. reflexivity. }
    rewrite Erows. change (@nsqrt R N mxd) with (r_sqrt ar mxd).
    destruct (rmax_bound V (r_sqrt ar mxd) SF) as (mx & -> & Ht). cbn [obind].
    assert (Hk1 : (k < length (visited motif dims (i + 1)))%nat).
    { unfold visited. rewrite idxs_length. fold m. destruct Hs as [Hs _]. unfold tot in Hs.
      replace (i + 1)%nat with (S i) by lia. auto. }
    assert (Hk2 : (k <= length V)%nat).
    { pose proof (visited_mono motif dims (i + 1) (i + 2)) as HV. unfold V. lia. }
    exists (i + 2)%nat, (r_sqrt ar mxd), mxd, mx. split; [lia|]. split; [auto|]. split; [auto|]. split; [auto|].
    replace (i + 2 - 2)%nat with i by lia. replace (i + 2 - 1)%nat with (i + 1)%nat by lia. split; [auto|]. split; [auto|].
    split; [exact Ht|].
    assert (HS : state_at (i + 2) (r_sqrt ar mxd) V [] mx).
    { constructor; auto; [rewrite app_nil_r; apply Permutation_refl|intros a []]. }
    destruct (rloop fuel (i + 2) (r_sqrt ar mxd) V [] mx HS) as [[E Hno]|(n & V' & W' & mx' & Hn & HS' & HF & _ & E)].
    - left. split; [exact E|exact Hno].
    - right. exists n, V', W', mx'. split; auto.
  Qed.
End Search.
