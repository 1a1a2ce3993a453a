(** C08: nearest_neighbors_data. *)
From Coq Require Import List ZArith Arith Bool Lia Reals Lra Permutation Sorted.
From Verif Require Import Num Base Spec SpecGeom SpecData Outcome LatticeModel LatticeProofs LatticeProofs2
  CacheModel CacheProofs MergeModel MergeProofs NNModel NNDataModel VecR NNProofs NNSpecProofs NNComplete.
Import ListNotations.
Open Scope R_scope.

Lemma gather_ok : forall A (l : list A) d is, Forall (fun i => (i < length l)%nat) is -> gather l is = Done (map (fun i => nth i l d) is).
Proof.
  intros A l d is H. unfold gather. apply omap_ok. intros i Hi. rewrite Forall_forall in H. specialize (H i Hi).
  rewrite (nth_error_nth' l d H). auto.
Qed.
Lemma pairs_length : forall A B (Q : A -> B -> Prop) l l', Forall2 Q l l' -> length l = length l'.
Proof. intros A B Q l l' H. induction H; cbn; auto. Qed.
Lemma pairs_impl : forall A B (Q Q' : A -> B -> Prop) l l', (forall a b, Q a b -> Q' a b) -> Forall2 Q l l' -> Forall2 Q' l l'.
Proof. intros A B Q Q' l l' HQ H. induction H; constructor; auto. Qed.
Lemma perm_seq_lt : forall n p, Permutation (seq 0 n) p -> Forall (fun i => (i < n)%nat) p /\ NoDup p /\ length p = n.
Proof.
  intros n p H. split; [|split].
  - apply Forall_forall. intros i Hi. apply Permutation_sym in H. eapply Permutation_in in Hi; [|exact H]. apply in_seq in Hi. lia.
  - eapply Permutation_NoDup; [exact H|apply seq_NoDup].
  - apply Permutation_length in H. rewrite seq_length in H. auto.
Qed.
Lemma perm_seq_map : forall A (l : list A) d s, Permutation (seq 0 (length l)) s -> Permutation l (map (fun i => nth i l d) s).
Proof. intros A l d s H. rewrite <- (map_nth_seq0 A l d) at 1. apply Permutation_map. auto. Qed.
Lemma in_skipn_nth : forall A (l : list A) n a d, In a (skipn n l) -> exists i, (n <= i < length l)%nat /\ nth i l d = a.
Proof.
  intros A l n a d H. apply (In_nth _ _ d) in H as (i & Hi & <-). rewrite skipn_length in Hi. exists (n + i)%nat. split; [lia|].
  rewrite <- (firstn_skipn n l) at 1. rewrite app_nth2; rewrite firstn_length_le by lia; [|lia]. f_equal. lia.
Qed.
Lemma in_firstn_nth : forall A (l : list A) n a d, In a (firstn n l) -> exists i, (i < n)%nat /\ (i < length l)%nat /\ nth i l d = a.
Proof.
  intros A l n a d H. apply (In_nth _ _ d) in H as (i & Hi & <-). rewrite firstn_length in Hi. exists i. split; [lia|]. split; [lia|].
  rewrite <- (firstn_skipn n l) at 1. rewrite app_nth1; auto. rewrite firstn_length. lia.
Qed.

Section Data.
  Variables (ap : list R -> nat -> list nat) (asort : list R -> list nat).
  Hypothesis Hap : partitions ap.
  Hypothesis Has : sorts asort.

  Lemma k_nearest_spec : forall k row, (1 <= k)%nat -> (1 <= length row)%nat ->
    exists js, k_nearest ap asort k (Nat.min (k - 1) (length row - 1)) row = Done (kmin k row, js) /\
      NoDup js /\ Forall (fun j => (j < length row)%nat) js /\ map (fun j => nth j row 0) js = kmin k row.
  Proof.
    intros k row Hk Hl. unfold k_nearest. set (kth := Nat.min (k - 1) (length row - 1)). destruct (Nat.leb_spec (length row) kth); [unfold kth in *; lia|].
    destruct (Hap row kth ltac:(lia)) as [HP HLE]. set (p := ap row kth) in *. cbv zeta in HLE.
    destruct (perm_seq_lt _ _ HP) as (PL & PN & PLen).
    set (part := firstn k p). assert (PartF : Forall (fun i => (i < length row)%nat) part) by (apply Forall_forall; intros i Hi; rewrite Forall_forall in PL; apply PL; eapply firstn_In; eauto).
    rewrite (gather_ok _ row 0 part PartF). cbn [obind]. set (v := map (fun i => nth i row 0) part).
    assert (Vlen : length v = Nat.min k (length row)) by (unfold v, part; rewrite map_length, firstn_length, PLen; auto).
    rewrite (firstn_all2 v) by lia. destruct (Has v) as [HS HSS]. set (s := asort v) in *. destruct (perm_seq_lt _ _ HS) as (SL & SN & SLen).
    assert (LP : length part = length v) by (unfold v; rewrite map_length; auto).
    rewrite (gather_ok _ part 0%nat s) by (rewrite LP; auto). cbn [obind]. rewrite (gather_ok _ v 0 s) by auto. cbn [obind].
    assert (PJ : Permutation part (map (fun i => nth i part 0%nat) s)) by (apply perm_seq_map; rewrite LP; auto).
    assert (EV : map (fun i => nth i v 0) s = kmin k row).
    { symmetry. apply kmin_char with (r := map (fun i => nth i row 0) (skipn k p)); auto.
      - rewrite map_length, SLen. auto.
      - eapply perm_trans; [apply (perm_seq_map _ row 0 p); auto|]. rewrite <- (firstn_skipn k p) at 1. rewrite map_app. apply Permutation_app_tail. apply (perm_seq_map _ v 0 s HS).
      - intros a b Ha Hb. eapply Permutation_in in Ha; [|apply Permutation_sym, (perm_seq_map _ v 0 s HS)]. unfold v in Ha. apply in_map_iff in Ha as (i & <- & Hi). apply in_map_iff in Hb as (j & <- & Hj).
        apply (in_firstn_nth _ _ _ _ 0%nat) in Hi as (i' & I1 & I2 & <-). apply (in_skipn_nth _ _ _ _ 0%nat) in Hj as (j' & J1 & <-). apply HLE; unfold kth; lia. }
    exists (map (fun i => nth i part 0%nat) s). rewrite EV. split; auto. split; [|split].
    - eapply Permutation_NoDup; [exact PJ|]. apply NoDup_firstn. auto.
    - apply Forall_forall. intros j Hj. eapply Permutation_in in Hj; [|apply Permutation_sym; exact PJ]. rewrite Forall_forall in PartF. auto.
    - rewrite <- EV, map_map. apply map_ext_in. intros i Hi. unfold v. rewrite Forall_forall in SL. specialize (SL i Hi).
      rewrite (nth_indep (map (fun i => nth i row 0) part) 0 ((fun i => nth i row 0) 0%nat)) by (rewrite map_length, LP; auto). rewrite (map_nth (fun i => nth i row 0)). auto.
  Qed.

  Section Search.
    Variables (motif cell x : list (list R)) (k dims : nat).
    Hypothesis Hps : pset_ok dims motif cell.
    Hypothesis Hk : (1 <= k)%nat.
    Let Hdims : (1 <= dims)%nat := ok_dims _ _ _ Hps.
    Let Hmotif : Forall (fun p => length p = dims) motif := ok_motif_len _ _ _ Hps.
    Let Hcell : Forall (fun p => length p = dims) cell := ok_cell_len _ _ _ Hps.
    Hypothesis Hx : incl x motif.
    Hypothesis Hxne : x <> [].
    Let m := length motif.
    Let P := pt dims motif cell.
    Let row n p := row_at motif cell k dims n p.
    Let mpos : (1 <= m)%nat := m_pos motif cell x k dims Hdims Hk Hmotif Hx Hxne.

    (** The cloud found so far lists points of the layers below [n]. *)
    Definition cloud_ok (n : nat) (full : list (list R)) : Prop :=
      exists ids, full = map P ids /\ NoDup ids /\ (forall a, In a ids -> In a (visited motif dims n)) /\
        forall i, (i < length ids)%nat -> snd (nth i ids ([], 0%nat)) = (i mod m)%nat.
    Definition inds_ok (full : list (list R)) (off : nat) (p : list R) (ds : list R) (js : list nat) : Prop :=
      (off <= length full)%nat /\ NoDup js /\ Forall (fun j => (j < off)%nat) js /\ map (fun j => sqd p (nth j full [])) js = ds.

    Lemma idxs_mod : forall L i, (i < length (idxs m L))%nat -> snd (nth i (idxs m L) ([], 0%nat)) = (i mod m)%nat.
    Proof.
      unfold idxs. induction L as [|l L IH]; intros i Hi; [cbn in Hi; lia|]. cbn [list_prod] in *. rewrite app_length, map_length, seq_length in Hi.
      destruct (Nat.lt_ge_cases i m) as [A|A].
      - rewrite app_nth1 by (rewrite map_length, seq_length; auto). rewrite (nth_indep _ ([], 0%nat) ((fun y => (l, y)) 0%nat)) by (rewrite map_length, seq_length; auto).
        rewrite (map_nth (fun y => (l, y)) (seq 0 m) 0%nat i), seq_nth by auto. cbn. rewrite Nat.mod_small; auto.
      - rewrite app_nth2 by (rewrite map_length, seq_length; auto). rewrite map_length, seq_length, IH by lia.
        replace i with (i - m + 1 * m)%nat at 2 by lia. rewrite Nat.mod_add by lia. auto.
    Qed.
    Lemma idxs_len_mod : forall L, (length (idxs m L) mod m = 0)%nat.
    Proof. intros L. rewrite idxs_length. apply Nat.mod_mul. lia. Qed.
    Lemma visited_nodup : forall n, NoDup (visited motif dims n).
    Proof. apply (visited_NoDup motif cell dims Hps). Qed.

    (** Adding the part of layer [n] given by the lattice points [L]. *)
    Lemma cloud_grow : forall n full L, cloud_ok n full -> (length full mod m = 0)%nat -> NoDup L -> incl L (layer dims n) ->
      cloud_ok (S n) (full ++ map P (idxs m L)) /\ (length (full ++ map P (idxs m L)) mod m = 0)%nat.
    Proof.
      intros n full L (ids & E & ND & IN & MD) F0 NL IL. split.
      - exists (ids ++ idxs m L). split; [rewrite E, map_app; auto|]. split; [|split].
        + apply NoDup_app_intro; auto; [apply idxs_NoDup; auto|]. intros [l i] H1 H2. apply IN in H1. apply idxs_In in H2 as [H2 Hi]. apply IL in H2.
          pose proof (visited_nodup (S n)) as NV. rewrite visited_S in NV. apply NoDup_app_iff in NV as (_ & _ & D). apply (D (l, i)); auto. apply idxs_In. auto.
        + intros a Ha. rewrite visited_S. apply in_app_iff in Ha as [Ha|Ha]; apply in_app_iff; [left; auto|right]. destruct a as [l i]. apply idxs_In in Ha as [H1 H2]. apply idxs_In. split; auto.
        + intros i Hi. rewrite app_length in Hi. destruct (Nat.lt_ge_cases i (length ids)) as [A|A]; [rewrite app_nth1 by auto; auto|]. rewrite app_nth2, idxs_mod by lia.
          assert (LF : length full = length ids) by (rewrite E, map_length; auto). rewrite LF in F0. apply Nat.mod_divides in F0 as (q & Hq); [|lia].
          replace i with (i - length ids + q * m)%nat at 2 by lia. rewrite Nat.mod_add by lia. auto.
      - rewrite app_length, map_length. rewrite Nat.add_mod by lia. rewrite F0, idxs_len_mod. apply Nat.mod_0_l. lia.
    Qed.

    Lemma inds_merge : forall full off cloud p D js D_ js_, inds_ok full off p D js -> off = length full -> StronglySorted Rle D ->
      NoDup js_ -> Forall (fun j => (j < length cloud)%nat) js_ -> map (fun j => sqd p (nth j cloud [])) js_ = D_ -> StronglySorted Rle D_ ->
      (exists a t b t_, D = a :: t /\ D_ = b :: t_ /\ a <= b) ->
      exists js', merge_row_inds D D_ js (map (fun j => j + off)%nat js_) = Done (kmin (length D) (D ++ D_), js') /\
        inds_ok (full ++ cloud) (off + length cloud) p (kmin (length D) (D ++ D_)) js'.
    Proof.
      intros full off cloud p D js D_ js_ (OF & N1 & F1 & E1) EO S1 N2 F2 E2 S2 HH.
      set (g := fun j => (sqd p (nth j (full ++ cloud) []), j)). set (A := map g js). set (B := map g (map (fun j => j + off)%nat js_)).
      assert (A1 : map fst A = D). { unfold A, g. rewrite map_map. rewrite <- E1. apply map_ext_in. intros j Hj. cbn. rewrite Forall_forall in F1. specialize (F1 j Hj). rewrite app_nth1 by lia. auto. }
      assert (A2 : map snd A = js) by (unfold A, g; rewrite map_map; cbn; apply map_id).
      assert (B1 : map fst B = D_). { unfold B, g. rewrite !map_map. rewrite <- E2. apply map_ext_in. intros j Hj. cbn. rewrite app_nth2 by lia. do 2 f_equal. lia. }
      assert (B2 : map snd B = map (fun j => j + off)%nat js_) by (unfold B, g; rewrite map_map; cbn; apply map_id).
      assert (SU : forall l : list (R * nat), StronglySorted Rle (map fst l) -> StronglySorted (kle fst) l).
      { induction l as [|a l IH]; intros H; [apply SSorted_nil|]. cbn [map] in H. apply StronglySorted_inv in H as [H H']. apply SSorted_cons; auto. rewrite Forall_map in H'. eapply Forall_impl; [|exact H']. auto. }
      assert (SA : StronglySorted (kle fst) A) by (apply SU; rewrite A1; auto). assert (SB : StronglySorted (kle fst) B) by (apply SU; rewrite B1; auto).
      pose proof (merge_row_inds_lmerge A B SA SB) as M. cbv zeta in M. rewrite A1, A2, B1, B2 in M.
      set (res := firstn (length A) (lmerge fst A B)) in *. assert (LA : length A = length D) by (rewrite <- A1, map_length; auto).
      assert (K : map fst res = kmin (length D) (D ++ D_)).
      { unfold res, kmin. rewrite LA, <- firstn_map. f_equal. symmetry. apply sortR_unique.
        - eapply sorted_map; [|apply lmerge_sorted; eauto]. unfold kle. auto.
        - rewrite <- A1, <- B1, <- map_app. apply Permutation_map, lmerge_perm. }
      exists (map snd res). split.
      - rewrite M, K; auto. destruct HH as (a & t & b & t_ & H1 & H2 & H3). destruct A as [|a0 A'], B as [|b0 B']; try (cbn in A1, B1; congruence). exists a0, A', b0, B'. split; auto. split; auto.
        rewrite <- A1 in H1. rewrite <- B1 in H2. cbn in H1, H2. injection H1 as <- _. injection H2 as <- _. auto.
      - assert (PR : Permutation (js ++ map (fun j => j + off)%nat js_) (map snd (lmerge fst A B))) by (rewrite <- A2, <- B2, <- map_app; apply Permutation_map, lmerge_perm).
        assert (RI : forall q, In q res -> In q (A ++ B)) by (intros q Hq; eapply Permutation_in; [apply Permutation_sym, lmerge_perm|]; eapply firstn_In; exact Hq).
        split; [rewrite app_length; lia|]. split; [|split].
        + unfold res. rewrite <- firstn_map. apply NoDup_firstn. eapply Permutation_NoDup; [exact PR|]. apply NoDup_app_intro; auto.
          * apply FinFun.Injective_map_NoDup; auto. intros a b H. lia.
          * intros j H1 H2. apply in_map_iff in H2 as (j' & <- & _). rewrite Forall_forall in F1. apply F1 in H1. lia.
        + apply Forall_forall. intros j Hj. apply in_map_iff in Hj as (q & <- & Hq). apply RI in Hq. apply in_app_iff in Hq as [Hq|Hq].
          * apply (in_map snd) in Hq. rewrite A2 in Hq. rewrite Forall_forall in F1. apply F1 in Hq. lia.
          * apply (in_map snd) in Hq. rewrite B2 in Hq. apply in_map_iff in Hq as (j' & <- & Hj'). rewrite Forall_forall in F2. apply F2 in Hj'. lia.
        + rewrite <- K, map_map. apply map_ext_in. intros q Hq. apply RI in Hq.
          assert (Q : forall l, In q (map g l) -> sqd p (nth (snd q) (full ++ cloud) []) = fst q) by (intros l H; apply in_map_iff in H as (j & <- & _); reflexivity).
          apply in_app_iff in Hq as [Hq|Hq]; eapply Q; exact Hq.
    Qed.

    Lemma fun_pick : forall (Q : list R -> list nat -> Prop), (forall p, In p x -> exists js, Q p js) ->
      forall y, incl y x -> exists l, Forall2 Q y l.
    Proof.
      intros Q H. induction y as [|p y IH]; intros Hy; [exists []; constructor|]. destruct (H p) as (js & J); [apply Hy; left; auto|]. destruct IH as (l & L); [intros q Hq; apply Hy; right; auto|].
      exists (js :: l). constructor; auto.
    Qed.
    Lemma omap_rows : forall A B (f : A -> outcome B) l r, Forall2 (fun a b => f a = Done b) l r -> omap f l = Done r.
    Proof. intros A B f l r H. induction H as [|a b l r Hab _ IH]; auto. cbn. rewrite Hab. cbn. rewrite IH. auto. Qed.

    (** One round of the merge for all rows. *)
    Lemma merge_all : forall n full off cloud inds, off = length full -> (1 <= n)%nat -> (k <= length (visited motif dims n))%nat -> cloud <> [] ->
      Forall2 (fun p js => inds_ok full off p (row n p) js) x inds ->
      exists new inds', omap (k_nearest ap asort k (Nat.min (k - 1) (length cloud - 1))) (map (sqd_row cloud) x) = Done new /\
        merge_sorted_arrays_inds (rows_at motif cell x k dims n) (map fst new) inds (map (map (fun j => j + off)%nat) (map snd new)) =
          Done (map (fun p => kmin k (row n p ++ kmin k (map (sqd p) cloud))) x, inds') /\
        Forall2 (fun p js => inds_ok (full ++ cloud) (off + length cloud) p (kmin k (row n p ++ kmin k (map (sqd p) cloud))) js) x inds'.
    Proof.
      intros n full off cloud inds EO Hn Hlen Hc HI. unfold rows_at.
      assert (G : forall y inds, incl y x -> Forall2 (fun p js => inds_ok full off p (row n p) js) y inds ->
        exists new inds', omap (k_nearest ap asort k (Nat.min (k - 1) (length cloud - 1))) (map (sqd_row cloud) y) = Done new /\
        omap (fun q => merge_row_inds (fst (fst q)) (snd (fst q)) (fst (snd q)) (snd (snd q)))
              (combine (combine (map (row_at motif cell k dims n) y) (map fst new)) (combine inds (map (map (fun j => j + off)%nat) (map snd new)))) =
          Done (combine (map (fun p => kmin k (row n p ++ kmin k (map (sqd p) cloud))) y) inds') /\
        Forall2 (fun p js => inds_ok (full ++ cloud) (off + length cloud) p (kmin k (row n p ++ kmin k (map (sqd p) cloud))) js) y inds').
      { induction y as [|p y IH]; intros ins Hy H; inversion H as [|? js ? ins' H1 H2]; subst.
        - exists [], []. cbn. repeat split; constructor.
        - destruct (IH ins' ltac:(intros q Hq; apply Hy; right; auto) H2) as (new & inds' & E1 & E2 & E3).
          assert (LC : (1 <= length (sqd_row cloud p))%nat) by (unfold sqd_row; rewrite map_length; destruct cloud; [congruence|cbn; lia]).
          destruct (k_nearest_spec k (sqd_row cloud p) Hk LC) as (ks & K1 & K2 & K3 & K4).
          assert (LE : length (sqd_row cloud p) = length cloud) by (unfold sqd_row; apply map_length). rewrite LE in K1.
          assert (Hp : In p x) by (apply Hy; left; auto).
          destruct (row_head motif cell x k dims Hdims Hk Hmotif Hcell Hx n p Hn Hp) as (t & Et).
          assert (Lr : length (row n p) = k) by (unfold row, row_at; rewrite kmin_length, map_length; lia).
          assert (M4 : map (fun j => sqd p (nth j cloud [])) ks = kmin k (sqd_row cloud p)).
          { rewrite <- K4. apply map_ext_in. intros j Hj. rewrite Forall_forall in K3. specialize (K3 j Hj). rewrite LE in K3. unfold sqd_row.
            rewrite (nth_indep (map (sqd p) cloud) 0 (sqd p [])) by (rewrite map_length; auto). rewrite (map_nth (sqd p)). auto. }
          destruct (inds_merge full (length full) cloud p (row n p) js (kmin k (sqd_row cloud p)) ks H1 eq_refl) as (js' & J1 & J2); auto.
          { apply kmin_sorted. } { eapply Forall_impl; [|exact K3]. cbv beta. intros j Hj. rewrite LE in Hj. exact Hj. } { apply kmin_sorted. }
          { fold (row n p) in Et. destruct (kmin k (sqd_row cloud p)) as [|b t_] eqn:Eb.
            - apply (f_equal (@length R)) in Eb. rewrite kmin_length in Eb. cbn in Eb. lia.
            - exists 0, t, b, t_. split; auto. split; auto. assert (Hb : In b (b :: t_)) by (left; auto). rewrite <- M4 in Hb. apply in_map_iff in Hb as (j & <- & _). apply sqd_nonneg. }
          rewrite Lr in J1, J2. exists ((kmin k (sqd_row cloud p), ks) :: new), (js' :: inds'). split; [|split].
          + cbn [map omap]. rewrite K1. cbn [obind]. rewrite E1. auto.
          + cbn [map combine omap fst snd]. fold (row n p). rewrite J1. cbn [obind]. rewrite E2. auto.
          + constructor; auto. }
      destruct (G x inds ltac:(intros ?; auto) HI) as (new & inds' & E1 & E2 & E3). exists new, inds'. split; auto. split; auto. unfold merge_sorted_arrays_inds. rewrite E2. cbn [obind]. f_equal.
      assert (L : length (map (fun p => kmin k (row n p ++ kmin k (map (sqd p) cloud))) x) = length inds') by (rewrite map_length; eapply pairs_length; eauto).
      clear - L. revert inds' L. generalize (map (fun p => kmin k (row n p ++ kmin k (map (sqd p) cloud))) x). induction l as [|a l IH]; intros [|b i] L; try discriminate; auto. cbn. injection L as L. specialize (IH i L). injection IH as -> ->. auto.
    Qed.

    Lemma far_filter : forall mx diam L, 0 <= mx -> diam_ok motif x diam ->
      exists kept dropped, Permutation (idxs m L) (idxs m kept ++ dropped) /\ incl kept L /\ (NoDup L -> NoDup kept) /\
        pruned_layer cell dims L ((sqrt mx + diam) * (sqrt mx + diam)) = map (latvec dims cell) kept /\
        (forall a p, In a dropped -> In p x -> mx <= sqd p (P a)).
    Proof.
      intros mx diam L Hmx Hd. unfold pruned_layer. rewrite filter_map_comm. set (f := fun a => nltb (sqnorm (latvec dims cell a)) ((sqrt mx + diam) * (sqrt mx + diam))).
      exists (filter f L), (idxs m (filter (fun l => negb (f l)) L)). split; [apply idxs_filter|]. split; [intros a Ha; apply filter_In in Ha; tauto|]. split; [apply NoDup_filter|]. split; auto.
      intros [l i] p Ha Hp. apply idxs_In in Ha as [Ha Hi]. apply filter_In in Ha as [_ Ha]. apply negb_true_iff in Ha. eapply (pruned_far motif cell x dims); eauto.
    Qed.

    Lemma data_loop_exact : forall fuel n diam mx full inds, (1 <= n)%nat -> (k <= length (visited motif dims n))%nat ->
      diam_ok motif x diam -> is_max motif cell x k dims n mx -> cloud_ok n full -> (length full mod m = 0)%nat ->
      Forall2 (fun p js => inds_ok full (length full) p (row n p) js) x inds ->
      let r := data_loop ap asort motif cell x k dims fuel n full (length full) (rows_at motif cell x k dims n) inds diam mx ((sqrt mx + diam) * (sqrt mx + diam)) in
      (r = OutOfFuel /\ forall n', (n <= n' < n + fuel)%nat -> ~ settled motif cell x k dims n') \/
      exists n' full' inds' off', (n' < n + fuel)%nat /\ first_settled motif cell x k dims n n' /\ r = Done (rows_at motif cell x k dims n', full', inds') /\
        (exists N, cloud_ok N full') /\ Forall2 (fun p js => inds_ok full' off' p (row n' p) js) x inds'.
    Proof.
      induction fuel as [|fuel IH]; intros n diam mx full inds Hn Hlen Hdiam Hmax HC HF HI; cbv zeta.
      { left. split; [reflexivity|]. intros; lia. }
      cbn [data_loop]. destruct (layer_spec dims n Hdims) as (-> & NDL & _). cbn [obind].
      pose proof (is_max_nonneg motif cell x k dims n mx Hmax) as Hmx.
      destruct (far_filter mx diam (layer dims n) Hmx Hdiam) as (kept & dropped & HP & HK & HN & Epl & Hd). rewrite Epl.
      assert (NK : NoDup kept) by auto.
      destruct kept as [|l0 kept0] eqn:Ek.
      - cbn [map]. right. exists n, full, inds, (length full). split; [lia|]. split; [|split; [auto|split; [exists n; auto|auto]]]. split; auto. split; [|intros; lia]. exists mx. split; auto.
        intros a p Ha Hp. apply Hd; auto. eapply Permutation_in; eauto.
      - rewrite <- Ek in *. assert (Hne : exists v lat, map (latvec dims cell) kept = v :: lat) by (rewrite Ek; cbn; eauto). destruct Hne as (v & lat & Ev). rewrite Ev. rewrite <- Ev. clear v lat Ev.
        rewrite cloud_eq. fold P m. set (cloud := map P (idxs m kept)).
        destruct (cloud_grow n full kept HC HF NK HK) as [HC' HF']. fold cloud in HC', HF'.
        assert (Hcne : cloud <> []). { unfold cloud. intros Z. apply map_eq_nil in Z. apply (f_equal (@length idx)) in Z. rewrite idxs_length, Ek in Z. cbn in Z. lia. }
        destruct (existsb (existsb (fun d => nltb d mx)) (map (sqd_row cloud) x)) eqn:EC; cbn [negb].
        + assert (Hns : ~ settled motif cell x k dims n).
          { intros (mx2 & Hmax2 & Hall). rewrite (is_max_unique motif cell x k dims n mx2 mx) in Hall by auto.
            apply existsb_exists in EC as (rw & H1 & H2). apply in_map_iff in H1 as (p & <- & Hp). apply existsb_exists in H2 as (d & H3 & H4). apply Rltb_true in H4.
            unfold sqd_row, cloud in H3. rewrite map_map in H3. apply in_map_iff in H3 as (a & <- & Ha).
            assert (Ha' : In a (idxs m (layer dims n))) by (eapply Permutation_in; [apply Permutation_sym; exact HP|]; apply in_app_iff; auto).
            specialize (Hall a p Ha' Hp). fold P in Hall. lra. }
          destruct (merge_all n full (length full) cloud inds eq_refl Hn Hlen Hcne HI) as (new & inds' & E1 & E2 & E3). rewrite E1. cbn [obind]. rewrite E2. cbn [obind].
          assert (ER : forall p, In p x -> kmin k (row n p ++ kmin k (map (sqd p) cloud)) = row (S n) p).
          { intros p Hp. unfold row at 2. rewrite kmin_app_kmin_r. rewrite (row_step motif cell x k dims n mx (idxs m kept) dropped p) by auto. unfold cloud. rewrite map_map. reflexivity. }
          assert (EM : map (fun p => kmin k (row n p ++ kmin k (map (sqd p) cloud))) x = rows_at motif cell x k dims (S n)) by (apply map_ext_in; auto). rewrite EM.
          destruct (max_bound_rows motif cell x k dims Hdims Hk Hmotif Hcell Hx Hxne (S n) diam) as (mx' & -> & Hmax'); [lia|]. cbn [obind].
          assert (Hlen' : (k <= length (visited motif dims (S n)))%nat) by (eapply Nat.le_trans; [exact Hlen|]; apply (visited_mono_length motif k dims Hdims Hk); lia).
          assert (HI' : Forall2 (fun p js => inds_ok (full ++ cloud) (length (full ++ cloud)) p (row (S n) p) js) x inds').
          { rewrite app_length. clear - E3 ER. revert ER. induction E3 as [|p js x inds' H _ IH]; intros ER; constructor.
            - rewrite <- ER by (left; auto). auto.
            - apply IH. intros; apply ER; right; auto. }
          rewrite <- app_length.
          destruct (IH (S n) diam mx' (full ++ cloud) inds' ltac:(lia) Hlen' Hdiam Hmax' HC' HF' HI') as [[E Hno]|(n' & full' & ins & off' & Hn' & Hs & E & Q)].
          * left. split; [exact E|]. intros n' Hn'. destruct (Nat.eq_dec n' n) as [->|]; auto. apply Hno. lia.
          * right. exists n', full', ins, off'. split; [lia|]. split; [|split; auto]. destruct Hs as (H1 & H2 & H3). split; [lia|]. split; auto. intros n2 Hn2. destruct (Nat.eq_dec n2 n) as [->|]; auto. apply H3. lia.
        + right. exists n, (full ++ cloud), inds, (length full). split; [lia|]. split; [|split; [auto|split; [exists (S n); auto|]]].
          * split; auto. split; [|intros; lia]. exists mx. split; auto. intros a p Ha Hp. eapply Permutation_in in Ha; [|exact HP]. apply in_app_iff in Ha as [Ha|Ha]; [|apply Hd; auto].
            apply Rnot_lt_le. intros Hlt. apply not_true_iff_false in EC. apply EC. apply existsb_exists. exists (sqd_row cloud p). split; [apply in_map; auto|]. apply existsb_exists. exists (sqd p (P a)). split; [|apply Rltb_true; auto].
            unfold sqd_row, cloud. rewrite map_map. apply (in_map (fun a => sqd p (P a))). auto.
          * eapply pairs_impl; [|exact HI]. intros p js (Q1 & Q2 & Q3 & Q4). split; [rewrite app_length; lia|]. split; auto. split; auto. rewrite <- Q4. apply map_ext_in. intros j Hj. rewrite Forall_forall in Q3. specialize (Q3 j Hj). rewrite app_nth1 by auto. auto.
    Qed.

    Lemma initial_rows : forall cloud y, (k <= length cloud)%nat -> exists near, omap (k_nearest ap asort k (k - 1)) (map (sqd_row cloud) y) = Done near /\
      map fst near = map (fun p => kmin k (map (sqd p) cloud)) y /\ Forall2 (fun p js => inds_ok cloud (length cloud) p (kmin k (map (sqd p) cloud)) js) y (map snd near).
    Proof.
      intros cloud y HL. induction y as [|p y (near & E1 & E2 & E3)]; [exists []; cbn; repeat split; constructor|].
      assert (LE : length (sqd_row cloud p) = length cloud) by (unfold sqd_row; apply map_length).
      destruct (k_nearest_spec k (sqd_row cloud p) Hk ltac:(lia)) as (ks & K1 & K2 & K3 & K4). replace (Nat.min (k - 1) (length (sqd_row cloud p) - 1)) with (k - 1)%nat in K1 by lia.
      exists ((kmin k (sqd_row cloud p), ks) :: near). split; [|split].
      - cbn [map omap]. rewrite K1. cbn [obind]. rewrite E1. auto.
      - cbn [map fst]. rewrite E2. auto.
      - cbn [map snd]. constructor; auto. split; auto. split; auto. rewrite LE in K3. split; auto. unfold sqd_row in K4. rewrite <- K4. apply map_ext_in. intros j Hj. rewrite Forall_forall in K3. specialize (K3 j Hj).
        rewrite (nth_indep (map (sqd p) cloud) 0 (sqd p [])) by (rewrite map_length; auto). rewrite (map_nth (sqd p)). auto.
    Qed.

    Theorem data_sq_exact : forall fuel, exists i, stop dims m k i /\
      ((data_sq ap asort motif cell x k dims fuel = OutOfFuel /\ forall n', (i + 2 <= n' < i + 2 + fuel)%nat -> ~ settled motif cell x k dims n') \/
       exists n full inds off, (n < i + 2 + fuel)%nat /\ first_settled motif cell x k dims (i + 2) n /\
         data_sq ap asort motif cell x k dims fuel = Done (rows_at motif cell x k dims n, full, inds) /\
         (exists N, cloud_ok N full) /\ Forall2 (fun p js => inds_ok full off p (row n p) js) x inds).
    Proof.
      intros fuel. unfold data_sq. cbv zeta. change (@length (vec R) motif) with m.
      destruct (stop_exists dims m k Hdims mpos) as (i & Hs). rewrite (fresh_request_eq dims m k i) by (auto using mpos). cbn [obind].
      rewrite cloud_eq. fold P. fold m. change (idxs m (concat (layers dims (i + 2)))) with (visited motif dims (i + 2)).
      set (cloud := map P (visited motif dims (i + 2))). set (rows0 := map (sqd_row cloud) x).
      assert (Hfm : forall p, firstn m (sqd_row cloud p) = map (sqd p) motif).
      { intros p. unfold sqd_row, cloud. rewrite map_map. destruct (visited_head motif k dims Hdims Hk (i + 2)) as (t & ->); [lia|].
        rewrite map_app, firstn_app. rewrite map_length, idxs_length. simpl length. rewrite Nat.mul_1_l, Nat.sub_diag. simpl firstn at 2. rewrite app_nil_r.
        rewrite firstn_all2 by (rewrite map_length, idxs_length; simpl; lia). unfold idxs. simpl. rewrite app_nil_r, map_map.
        transitivity (map (sqd p) (map (fun j => nth j motif []) (seq 0 m))); [|unfold m; rewrite map_nth_seq0; auto]. rewrite map_map.
        apply map_ext_in. intros j Hj. apply in_seq in Hj. unfold P. rewrite (P_origin motif cell dims Hmotif Hcell) by (fold m; lia). auto. }
      destruct (maxl_spec (concat (map (firstn m) rows0))) as (mxd & Ed & Hind & Hled).
      { unfold rows0. rewrite map_map. rewrite (map_ext _ (fun p => map (sqd p) motif)) by (intros p; apply Hfm). pose proof mpos as Hm. clear - Hm Hxne. unfold m in Hm. destruct x as [|p t]; [congruence|]. destruct motif; [simpl in Hm; lia|]. discriminate. }
      rewrite Ed. cbn [obind].
      assert (Hdiam : diam_ok motif x (nsqrt mxd)).
      { split; [apply sqrt_pos|]. intros p j Hp Hj. rewrite <- sqrt_sqd. apply sqrt_le_1_alt. apply Hled. apply in_concat. exists (map (sqd p) motif). split.
        - apply in_map_iff. exists (sqd_row cloud p). split; [apply Hfm|]. apply in_map; auto.
        - apply in_map, nth_In; auto. }
      assert (Hk1 : (k < length (visited motif dims (i + 1)))%nat).
      { unfold visited. rewrite idxs_length. fold m. destruct Hs as [Hs _]. unfold tot in Hs. replace (i + 1)%nat with (S i) by lia. auto. }
      assert (Hk2 : (k <= length (visited motif dims (i + 2)))%nat) by (pose proof (visited_mono_length motif k dims Hdims Hk (i + 1) (i + 2)); lia).
      destruct (initial_rows cloud x) as (near & E1 & E2 & E3); [unfold cloud; rewrite map_length; auto|]. fold rows0 in E1. rewrite E1. cbn [obind].
      assert (Er : map fst near = rows_at motif cell x k dims (i + 2)). { rewrite E2. unfold rows_at, cloud. apply map_ext. intros p. rewrite map_map. reflexivity. }
      rewrite Er. destruct (max_bound_rows motif cell x k dims Hdims Hk Hmotif Hcell Hx Hxne (i + 2) (nsqrt mxd)) as (mx & -> & Hmax); [lia|]. cbn [obind].
      assert (HC : cloud_ok (i + 2) cloud). { exists (visited motif dims (i + 2)). split; auto. split; [apply visited_nodup|]. split; auto. apply idxs_mod. }
      assert (HF : (length cloud mod m = 0)%nat) by (unfold cloud; rewrite map_length; apply idxs_len_mod).
      assert (HI : Forall2 (fun p js => inds_ok cloud (length cloud) p (row (i + 2) p) js) x (map snd near)).
      { eapply pairs_impl; [|exact E3]. intros p js H. unfold row, row_at. unfold cloud in H. rewrite map_map in H. exact H. }
      exists i. split; auto. exact (data_loop_exact fuel (i + 2) (nsqrt mxd) mx cloud (map snd near) ltac:(lia) Hk2 Hdiam Hmax HC HF HI).
    Qed.
  End Search.
End Data.

(** Same distances as nearest_neighbors (or both searches go on), a cloud of whole copies of the motif, and indices. *)
Theorem C08_data : forall ap asort dims motif cell x k fuel, partitions ap -> sorts asort ->
  pset_ok dims motif cell -> incl x motif -> x <> [] ->
  (nearest_neighbors fuel motif cell x (S k) = OutOfFuel /\ nearest_neighbors_data ap asort fuel motif cell x (S k) = OutOfFuel) \/
  exists rows cloud inds, nearest_neighbors fuel motif cell x (S k) = Done rows /\
    nearest_neighbors_data ap asort fuel motif cell x (S k) = Done (rows, cloud, inds) /\
    is_cloud dims motif cell cloud /\ length inds = length x /\
    forall i, (i < length x)%nat -> indexes cloud (nth i x []) (nth i rows []) (nth i inds []).
Proof.
  intros ap asort dims motif cell x k fuel Hap Has Hps Hx Hne.
  destruct (data_sq_exact ap asort Hap Has motif cell x (S k) dims Hps ltac:(lia) Hx Hne fuel) as (i & Hs & H).
  destruct (nearest_neighbors_exact dims motif cell x k fuel Hps Hx Hne) as (s & Hs2 & Hs' & _ & H').
  assert (s = i + 2)%nat by (pose proof (stop_unique _ _ _ _ _ Hs Hs'); lia). subst s.
  unfold nearest_neighbors_data. rewrite (hd_motif_length dims motif cell Hps).
  destruct H as [[E Hno]|(n & full & inds & off & Hn & Hf & E & (N & HC) & HI)]; destruct H' as [[E' Hno']|(n' & Hn' & Hf' & E')].
  - left. rewrite E. auto.
  - exfalso. apply (Hno n'); [|apply Hf']. destruct Hf'. lia.
  - exfalso. apply (Hno' n); [|apply Hf]. destruct Hf. lia.
  - right. assert (n' = n) by (eapply first_settled_unique; eauto). subst n'. rewrite E, E'. cbn [obind].
    exists (map (fun p => map sqrt (row_at motif cell (S k) dims n p)) x), full, inds. split; auto. split; [unfold rows_at; rewrite map_map; reflexivity|]. split; [|split].
    + destruct HC as (ids & F1 & F2 & F3 & F4). exists ids.
      assert (F5 : Forall (pindex dims motif) ids).
      { apply Forall_forall. intros a Ha. apply F3 in Ha. eapply visited_pindex in Ha; eauto. }
      split; [|auto]. rewrite F1. apply map_ext_in. intros a Ha. rewrite Forall_forall in F5. apply pt_ppoint; auto.
    + symmetry. eapply pairs_length; eauto.
    + intros j Hj. set (f := fun p => map sqrt (row_at motif cell (S k) dims n p)). rewrite (nth_indep (map f x) [] (f [])) by (rewrite map_length; auto). rewrite (map_nth f).
      assert (Q : inds_ok full off (nth j x []) (row_at motif cell (S k) dims n (nth j x [])) (nth j inds [])).
      { clear - HI Hj. revert j Hj. induction HI as [|p js x inds H _ IH]; intros [|j] Hj; cbn in *; try lia; auto. apply IH. lia. }
      destruct Q as (Q1 & Q2 & Q3 & Q4). split; auto. split; [eapply Forall_impl; [|exact Q3]; cbn; intros; lia|]. unfold f. rewrite <- Q4, map_map. apply map_ext. intros a. rewrite sqd_sq_dist. reflexivity.
Qed.

(** In a non-singular cell the search ends. *)
Theorem C08_returns : forall ap asort dims motif cell x k, partitions ap -> sorts asort ->
  pset_ok dims motif cell -> nonsingular dims cell -> incl x motif -> x <> [] ->
  exists rows fuel0, forall fuel, (fuel0 <= fuel)%nat ->
    exists cloud inds, nearest_neighbors_data ap asort fuel motif cell x (S k) = Done (rows, cloud, inds).
Proof.
  intros ap asort dims motif cell x k Hap Has Hps Hns Hx Hne.
  destruct (nearest_neighbors_terminates dims motif cell x k Hps Hns Hx Hne) as (rows & fuel0 & HT).
  exists rows, fuel0. intros fuel Hf. destruct (HT fuel) as [H1 _]. specialize (H1 Hf). destruct (C08_data ap asort dims motif cell x k fuel Hap Has Hps Hx Hne) as [[E _]|(r & c & i & E1 & E2 & _)]; [congruence|].
  rewrite E1 in H1. injection H1 as ->. eauto.
Qed.

(** Functions meeting the contracts of argpartition and argsort exist. *)
Definition sample_argsort (row : list R) : list nat := keysort (fun i => nth i row 0) (seq 0 (length row)).
Example C08_contracts : sorts sample_argsort /\ partitions (fun row _ => sample_argsort row).
Proof.
  assert (HS : sorts sample_argsort) by (intros row; split; [apply keysort_perm|apply StronglySorted_map, keysort_sorted]).
  split; auto. intros row kth Hk. cbv zeta. destruct (HS row) as [HP HSS]. split; auto. intros i j Hij Hj. set (p := sample_argsort row) in *.
  assert (L : length p = length row) by (apply Permutation_length in HP; rewrite seq_length in HP; auto).
  assert (G : forall l : list R, StronglySorted Rle l -> forall a b, (a <= b)%nat -> (b < length l)%nat -> nth a l 0 <= nth b l 0).
  { induction l as [|c l IH]; intros H a b Hab Hb; [cbn in Hb; lia|]. apply StronglySorted_inv in H as [H1 H2]. destruct a as [|a], b as [|b]; cbn in *; try lia; [lra| |apply IH; auto; lia].
    rewrite Forall_forall in H2. apply H2, nth_In. lia. }
  specialize (G _ HSS i j ltac:(lia) ltac:(rewrite map_length; lia)).
  assert (E : forall a, (a < length p)%nat -> nth a (map (fun i => nth i row 0) p) 0 = nth (nth a p 0%nat) row 0).
  { intros a Ha. rewrite (nth_indep _ 0 ((fun i => nth i row 0) 0%nat)) by (rewrite map_length; auto). apply (map_nth (fun i => nth i row 0)). }
  rewrite !E in G by lia. exact G.
Qed.
(** A periodic set with two points, queried at one of them. *)
Example C08_case : pset_ok 2 [[0; 0]; [1; 1]] [[3; 0]; [1; 3]] /\ nonsingular 2 [[3; 0]; [1; 3]] /\ incl [[1; 1]] [[0; 0]; [1; 1]].
Proof.
  split; [split; cbn; [lia|discriminate|repeat constructor|auto|repeat constructor]|]. split.
  - exists [[1 / 3; -1 / 9]; [0; 1 / 3]]. split; [auto|]. split; [repeat constructor|]. intros i j Hi Hj. destruct i as [|[|]], j as [|[|]]; try lia; cbn; lra.
  - intros p [<-|[]]. right. left. auto.
Qed.
Print Assumptions C08_data.
Print Assumptions C08_returns.
