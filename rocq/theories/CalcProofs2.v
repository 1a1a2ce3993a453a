(** AMD and PDD of periodic sets in closed form, and consequences. *)
From Coq Require Import List ZArith Arith Bool Lia Reals Lra Permutation Sorted.
From Verif Require Import Num Base Spec SpecGeom SpecCalc Outcome Condensed CollapseModel CollapseProofs
  Props_Collapse NNModel VecR NNProofs NNSpecProofs NNComplete NNInvariance Props_NN CalcModel CalcProofs.
Import ListNotations.
Open Scope R_scope.

(** Positions in the motif of the points whose rows are computed, and how often each
    counts. *)
Definition positions_of (ps : pset R) : list nat :=
  match ps_asym ps, ps_mult ps with
  | Some a, Some _ => a
  | _, _ => seq 0 (length (ps_motif ps))
  end.
Definition counts_of (ps : pset R) : list nat :=
  match ps_asym ps, ps_mult ps with
  | Some _, Some mu => mu
  | _, _ => repeat 1%nat (length (ps_motif ps))
  end.
Definition points_of (ps : pset R) : list (list R) :=
  map (fun i => nth i (ps_motif ps) []) (positions_of ps).

(** A periodic set as the readers build it: when there is an asymmetric unit, its indices
    are in range, its multiplicities are positive and add up to the size of the motif. *)
Record pset_wf (dims : nat) (ps : pset R) : Prop := {
  wf_ok : pset_ok dims (ps_motif ps) (ps_cell ps);
  wf_len : length (positions_of ps) = length (counts_of ps);
  wf_range : Forall (fun i => (i < length (ps_motif ps))%nat) (positions_of ps);
  wf_pos : Forall (fun c => (1 <= c)%nat) (counts_of ps);
  wf_sum : list_sum (counts_of ps) = length (ps_motif ps)
}.

Lemma list_sum_repeat1 : forall n, list_sum (repeat 1%nat n) = n.
Proof. induction n; simpl; auto. Qed.

Lemma pset_wf_no_asym : forall dims motif cell mu, pset_ok dims motif cell ->
  pset_wf dims {| ps_motif := motif; ps_cell := cell; ps_asym := None; ps_mult := mu |}.
Proof.
  intros. split; auto; unfold positions_of, counts_of; simpl.
  - rewrite seq_length, repeat_length. auto.
  - apply Forall_forall. intros i Hi. apply in_seq in Hi. lia.
  - apply Forall_forall. intros i Hi. apply repeat_spec in Hi. lia.
  - apply list_sum_repeat1.
Qed.

Lemma take_ok : forall A (l : list A) d is, Forall (fun i => (i < length l)%nat) is ->
  take l is = Done (map (fun i => nth i l d) is).
Proof.
  intros A l d is H. unfold take. induction H as [|i is Hi H IH]; auto. simpl.
  destruct (nth_error l i) eqn:E.
  - simpl. rewrite IH. simpl. rewrite (nth_error_nth _ _ _ E). auto.
  - apply nth_error_None in E. lia.
Qed.

Section Closed.
  Variables (dims : nat) (ps : pset R).
  Hypothesis Hwf : pset_wf dims ps.
  Notation motif := (ps_motif ps).
  Notation cell := (ps_cell ps).

  Lemma query_eq : query ps = Done (points_of ps, counts_of ps).
  Proof.
    destruct Hwf as [_ _ H _ _]. unfold query, points_of. revert H. unfold positions_of, counts_of.
    destruct (ps_asym ps) as [a|], (ps_mult ps) as [mu|]; intros H;
      try (rewrite map_nth_seq; reflexivity).
    rewrite (take_ok (vec R) (ps_motif ps) [] a H). auto.
  Qed.

  Lemma points_incl : incl (points_of ps) motif.
  Proof.
    intros p Hp. unfold points_of in Hp. apply in_map_iff in Hp as (i & <- & Hi).
    apply nth_In. destruct Hwf as [_ _ H _ _]. rewrite Forall_forall in H. auto.
  Qed.

  Lemma positions_nonempty : positions_of ps <> [].
  Proof.
    destruct Hwf as [H1 H2 _ _ H5]. intros E. rewrite E in H2. simpl in H2.
    destruct (counts_of ps); [|discriminate]. simpl in H5.
    destruct H1 as [_ H1 _ _ _]. apply H1, length_zero_iff_nil. auto.
  Qed.

  Lemma points_nonempty : points_of ps <> [].
  Proof. unfold points_of. pose proof positions_nonempty. destruct (positions_of ps); [congruence|discriminate]. Qed.

  Lemma points_length : length (points_of ps) = length (counts_of ps).
  Proof. unfold points_of. rewrite map_length. apply (wf_len _ _ Hwf). Qed.

  Definition rows_ok (k : nat) (rows : list (list R)) : Prop :=
    length rows = length (points_of ps) /\
    Forall (fun r => length r = S k /\ hd_error r = Some 0 /\ Forall (fun d => 0 <= d) r /\ StronglySorted Rle r) rows.

  Lemma edist_nonneg : forall p q, 0 <= edist p q.
  Proof. intros. apply sqrt_pos. Qed.

  Lemma nn_rows_ok : forall fuel k rows,
    nearest_neighbors fuel motif cell (points_of ps) (S k) = Done rows -> rows_ok k rows.
  Proof.
    intros fuel k rows E. pose proof (C04_rows_are_distances _ _ _ _ _ _ _ (wf_ok _ _ Hwf) points_incl
      points_nonempty E) as H. clear E.
    split.
    - induction H; simpl; auto.
    - induction H as [|p r x rows (H1 & ids & H2 & H3 & H4 & H5 & H6) H IH]; constructor; auto.
      split; [subst; rewrite map_length; auto|]. split; [auto|split; auto].
      subst r. apply Forall_forall. intros d Hd. apply in_map_iff in Hd as (a & <- & _). apply edist_nonneg.
  Qed.

  Definition amd_of (k : nat) (rows : list (list R)) : list R :=
    map (wmean (map INR (counts_of ps)) (map (@tl R) rows)) (seq 0 k).

  Lemma AMD_run : forall fuel k,
    AMD fuel ps k = obind (nearest_neighbors fuel motif cell (points_of ps) (S k))
      (fun rows => Done (amd_of k rows)).
  Proof.
    intros fuel k. unfold AMD. rewrite query_eq. cbn [obind].
    destruct (nearest_neighbors fuel motif cell (points_of ps) (S k)) as [rows| | |] eqn:E; auto.
    cbn [obind]. destruct (nn_rows_ok _ _ _ E) as [H1 H2].
    rewrite (map_ext nofnat INR) by apply nofnat_INR. apply average_columns_eq.
    - rewrite map_length, H1, points_length. auto.
    - eapply Forall_impl; [|exact H2]. simpl. tauto.
  Qed.

  Definition weights_of : list R := map (fun c => INR c / INR (length motif)) (counts_of ps).

  Lemma PDD_run : forall fuel k lexsort collapse tol,
    PDD fuel ps k lexsort collapse tol = obind (nearest_neighbors fuel motif cell (points_of ps) (S k))
      (fun rows => Done (assemble (collapse_rows weights_of (map (@tl R) rows) collapse tol) lexsort)).
  Proof.
    intros. unfold PDD. rewrite query_eq. cbn [obind].
    destruct (nearest_neighbors fuel motif cell (points_of ps) (S k)) as [rows| | |] eqn:E; auto.
    cbn [obind]. assert (Ew : map (fun c => ndiv (nofnat c) (nofnat (length motif))) (counts_of ps) = weights_of)
      by (unfold weights_of; apply map_ext; intros c; rewrite !nofnat_INR; auto).
    rewrite Ew. auto.
  Qed.

  Lemma motif_pos : 0 < INR (length motif).
  Proof.
    apply lt_0_INR. destruct (wf_ok _ _ Hwf) as [_ H _ _ _]. destruct (ps_motif ps) eqn:E; [exfalso; apply H; reflexivity|simpl; lia].
  Qed.

  Lemma sum_INR : forall l, rsum (map INR l) = INR (list_sum l).
  Proof. induction l as [|a l IH]; auto. cbn [map rsum fold_right list_sum]. fold (rsum (map INR l)).
    rewrite IH. symmetry. apply plus_INR. Qed.

  Lemma weights_sum : rsum weights_of = 1.
  Proof.
    unfold weights_of. unfold Rdiv. rewrite rsum_map_scale_r, sum_INR, (wf_sum _ _ Hwf).
    pose proof motif_pos. field. lra.
  Qed.

  Lemma weights_pos : Forall (fun a => 0 < a) weights_of.
  Proof.
    pose proof (wf_pos _ _ Hwf) as H. unfold weights_of. apply Forall_forall. intros a Ha.
    apply in_map_iff in Ha as (c & <- & Hc). rewrite Forall_forall in H. specialize (H c Hc).
    apply Rdiv_lt_0_compat; [apply lt_0_INR; lia|apply motif_pos].
  Qed.

  Lemma weights_length : length weights_of = length (points_of ps).
  Proof. unfold weights_of. rewrite map_length, points_length. auto. Qed.

  Lemma tl_rows : forall k rows, rows_ok k rows ->
    Forall (fun r => length r = k /\ Forall (fun d => 0 <= d) r /\ StronglySorted Rle r) (map (@tl R) rows).
  Proof.
    intros k rows [_ H]. apply Forall_forall. intros r Hr. apply in_map_iff in Hr as (r' & <- & Hr).
    rewrite Forall_forall in H. destruct (H r' Hr) as (H1 & H2 & H3 & H4).
    destruct r' as [|a r']; simpl in *; [discriminate|].
    inversion H3; inversion H4; subst. auto with arith.
  Qed.

  (** The average as a weighted sum. *)
  Lemma wmean_scale : forall c ws rows j, c <> 0 -> wmean (map (Rmult c) ws) rows j = wmean ws rows j.
  Proof.
    intros c ws rows j Hc. unfold wmean.
    assert (E : forall rows, rsum (map (fun p => fst p * nth j (snd p) 0) (combine (map (Rmult c) ws) rows)) =
      c * rsum (map (fun p => fst p * nth j (snd p) 0) (combine ws rows))).
    { induction ws as [|w ws IH]; intros [|r rs]; simpl; try lra. rewrite IH. lra. }
    rewrite E, rsum_scale, map_id.
    destruct (Req_dec (rsum ws) 0) as [->|Hs]; [rewrite Rmult_0_r; unfold Rdiv; rewrite Rinv_0; lra|].
    field. auto.
  Qed.

  Lemma wmean_weights : forall rows j, wmean (map INR (counts_of ps)) rows j = wmean weights_of rows j.
  Proof.
    intros rows j. pose proof motif_pos. rewrite <- (wmean_scale (/ INR (length motif))).
    - f_equal. unfold weights_of. rewrite map_map. apply map_ext. intros. unfold Rdiv. lra.
    - apply Rinv_neq_0_compat. lra.
  Qed.
End Closed.

(** * Means *)
Lemma rsum_map_le : forall A (f g : A -> R) l, (forall a, In a l -> f a <= g a) ->
  rsum (map f l) <= rsum (map g l).
Proof.
  induction l as [|a l IH]; intros H; simpl; [lra|].
  pose proof (H a (or_introl eq_refl)). assert (rsum (map f l) <= rsum (map g l)); [|lra].
  apply IH. intros; apply H; simpl; auto.
Qed.

Lemma rsum_map_const : forall A (c : R) (l : list A), rsum (map (fun _ => c) l) = INR (length l) * c.
Proof.
  induction l as [|a l IH]; [simpl; lra|]. cbn [length]. rewrite S_INR. simpl. rewrite IH. lra.
Qed.

Lemma sorted_nth_le : forall (r : list R), (forall i j, (i < j < length r)%nat -> nth i r 0 <= nth j r 0) <->
  StronglySorted Rle r.
Proof.
  induction r as [|a r IH]; split; intros H.
  - constructor.
  - simpl. intros; lia.
  - constructor.
    + apply IH. intros i j Hij. apply (H (S i) (S j)). simpl; lia.
    + apply Forall_forall. intros x Hx. destruct (In_nth _ _ 0 Hx) as (j & Hj & <-).
      apply (H 0%nat (S j)). simpl; lia.
  - inversion H as [|? ? H1 H2]. subst. intros [|i] [|j] Hij; simpl in *; try lia.
    + rewrite Forall_forall in H2. apply H2, nth_In. lia.
    + apply IH; auto. lia.
Qed.

Lemma INR_length_pos : forall A (l : list A), l <> [] -> 0 < INR (length l).
Proof. intros A l H. apply lt_0_INR. destruct l; [congruence|simpl; lia]. Qed.

Lemma mean_rows_ok : forall rows k, rows <> [] ->
  Forall (fun r => length r = k /\ Forall (fun d => 0 <= d) r /\ StronglySorted Rle r) rows ->
  Forall (fun d => 0 <= d) (map (mean rows) (seq 0 k)) /\ StronglySorted Rle (map (mean rows) (seq 0 k)).
Proof.
  intros rows k Hne HF. pose proof (INR_length_pos _ _ Hne) as Hp. rewrite Forall_forall in HF. split.
  - apply Forall_forall. intros d Hd. apply in_map_iff in Hd as (j & <- & Hj). apply in_seq in Hj.
    unfold mean. apply Rmult_le_pos; [|left; apply Rinv_0_lt_compat; auto].
    apply rsum_nonneg. apply Forall_forall. intros x Hx. apply in_map_iff in Hx as (r & <- & Hr).
    destruct (HF r Hr) as (H1 & H2 & _). rewrite Forall_forall in H2. apply H2, nth_In. lia.
  - apply sorted_nth_le. rewrite map_length, seq_length. intros i j Hij.
    rewrite !nth_map_seq by lia. unfold mean. apply Rmult_le_compat_r; [left; apply Rinv_0_lt_compat; auto|].
    apply rsum_map_le. intros r Hr. destruct (HF r Hr) as (H1 & _ & H3).
    apply sorted_nth_le; auto. lia.
Qed.

(** * Facts about the result of assembling *)
Lemma weight_concat : forall w groups, rsum (map (weight_of w) groups) = weight_of w (concat groups).
Proof.
  intros w groups. unfold weight_of. rewrite concat_map, rsum_concat. f_equal. rewrite map_map. auto.
Qed.

Lemma weight_all : forall w, weight_of w (seq 0 (length w)) = rsum w.
Proof. intros. unfold weight_of. rewrite map_nth_seq. auto. Qed.

Section Result.
  Variables (w : list R) (d : list (list R)) (kk : nat) (tol : R) (collapse : bool).
  Hypothesis Hwd : length w = length d.
  Hypothesis Hd : Forall (fun r => length r = kk) d.
  Variables (groups0 groups : list (list nat)).
  Hypothesis HG : grouping d collapse tol groups0.
  Hypothesis HP : Permutation groups0 groups.

  Lemma groups_perm : Permutation (concat groups) (seq 0 (length d)).
  Proof.
    rewrite <- (gr_perm _ _ _ _ HG).
    assert (C : forall l l' : list (list nat), Permutation l l' -> Permutation (concat l) (concat l')).
    { induction 1; simpl; auto.
      - apply Permutation_app_head; auto.
      - rewrite !app_assoc. apply Permutation_app_tail, Permutation_app_comm.
      - eapply perm_trans; eauto. }
    apply C, Permutation_sym, HP.
  Qed.

  Lemma groups_In : forall g, In g groups -> In g groups0.
  Proof. intros g. apply Permutation_in, Permutation_sym, HP. Qed.

  Lemma group_ne : forall g, In g groups -> g <> [].
  Proof.
    intros g Hg. pose proof (gr_ne _ _ _ _ HG) as H. rewrite Forall_forall in H. apply H, groups_In, Hg.
  Qed.

  Lemma group_range : forall g i, In g groups -> In i g -> (i < length d)%nat.
  Proof.
    intros g i Hg Hi. assert (X : In i (seq 0 (length d))).
    { eapply Permutation_in; [apply groups_perm|]. apply in_concat. eauto. }
    apply in_seq in X. lia.
  Qed.

  Lemma pdd_weight_sum : rsum (map fst (map (pdd_row w d kk) groups)) = rsum w.
  Proof.
    rewrite map_map. simpl. rewrite weight_concat, <- weight_all, Hwd. unfold weight_of.
    apply rsum_perm, Permutation_map, groups_perm.
  Qed.

  Lemma pdd_distribution :
    Forall (fun a => 0 < a) w -> rsum w = 1 ->
    Forall (fun r => length r = kk /\ Forall (fun d => 0 <= d) r /\ StronglySorted Rle r) d ->
    is_distribution kk (map (pdd_row w d kk) groups).
  Proof.
    intros Hpos Hsum Hrows. split; [|rewrite pdd_weight_sum; auto].
    apply Forall_forall. intros p Hp. apply in_map_iff in Hp as (g & <- & Hg). simpl.
    pose proof (group_ne g Hg) as Hne. split; [|split].
    - unfold weight_of. apply rsum_pos; [destruct g; [congruence|discriminate]|].
      apply Forall_forall. intros x Hx. apply in_map_iff in Hx as (i & <- & Hi).
      rewrite Forall_forall in Hpos. apply Hpos, nth_In. rewrite Hwd. eapply group_range; eauto.
    - rewrite map_length, seq_length. auto.
    - apply mean_rows_ok; [unfold rows_of; destruct g; [congruence|discriminate]|].
      apply Forall_forall. intros r Hr. unfold rows_of in Hr. apply in_map_iff in Hr as (i & <- & Hi).
      rewrite Forall_forall in Hrows. apply Hrows, nth_In. eapply group_range; eauto.
  Qed.

  (** Sum over a group, and over all groups. *)
  Definition col_sum (j : nat) (g : list nat) : R :=
    rsum (map (fun i => nth i w 0 * nth j (nth i d []) 0) g).

  Lemma col_sum_all : forall j, col_sum j (concat groups) =
    rsum (map (fun p => fst p * nth j (snd p) 0) (combine w d)).
  Proof.
    intros j. unfold col_sum.
    rewrite (rsum_perm _ _ (Permutation_map _ groups_perm)). clear HG HP Hd. revert d Hwd.
    induction w as [|a w' IH]; intros [|r d'] L; simpl in L; try lia; auto.
    cbn [length seq map rsum fold_right combine fst snd nth]. f_equal.
    rewrite <- seq_shift, map_map. apply (IH d'). lia.
  Qed.

  Lemma col_sum_concat : forall j gs, rsum (map (col_sum j) gs) = col_sum j (concat gs).
  Proof. intros j gs. unfold col_sum. rewrite concat_map, rsum_concat. f_equal. rewrite map_map. auto. Qed.

  Lemma combine_fst_snd : forall A B (l : list (A * B)), combine (map fst l) (map snd l) = l.
  Proof. induction l as [|[a b] l IH]; simpl; congruence. Qed.

  Lemma wmean_pdd : forall j, (j < kk)%nat ->
    wmean (map fst (map (pdd_row w d kk) groups)) (map snd (map (pdd_row w d kk) groups)) j =
    rsum (map (fun g => weight_of w g * mean (rows_of d g) j) groups) / rsum w.
  Proof.
    intros j Hj. unfold wmean. rewrite pdd_weight_sum, combine_fst_snd, map_map. f_equal.
    f_equal. apply map_ext. intros g. unfold pdd_row. simpl fst. simpl snd.
    rewrite (nth_map_seq (mean (rows_of d g))) by auto. auto.
  Qed.

  Lemma group_exact : forall j g, In g groups ->
    (collapse = false \/ exists c, Forall (fun a => a = c) w) ->
    weight_of w g * mean (rows_of d g) j = col_sum j g.
  Proof.
    intros j g Hg Hcase. pose proof (group_ne g Hg) as Hne.
    assert (Hc : exists c, forall i, In i g -> nth i w 0 = c).
    { destruct Hcase as [Hc|(c & Hc)].
      - exists (nth (hd 0%nat g) w 0). intros i Hi.
        destruct (Nat.eq_dec i (hd 0%nat g)) as [->|Hn]; auto.
        destruct (gr_close _ _ _ _ HG g i (groups_In g Hg) Hi Hn). congruence.
      - exists c. intros i Hi. rewrite Forall_forall in Hc. apply Hc, nth_In. rewrite Hwd.
        eapply group_range; eauto. }
    destruct Hc as (c & Hc). unfold weight_of, col_sum, mean, rows_of.
    rewrite (map_ext_in (fun i => nth i w 0) (fun _ => c)), rsum_map_const by auto.
    rewrite (map_ext_in (fun i => nth i w 0 * nth j (nth i d []) 0) (fun i => c * nth j (nth i d []) 0))
      by (intros i Hi; rewrite Hc; auto).
    rewrite map_map, map_length, rsum_scale. pose proof (INR_length_pos _ _ Hne).
    field. lra.
  Qed.

  Lemma pdd_average_exact : forall j, (j < kk)%nat ->
    (collapse = false \/ exists c, Forall (fun a => a = c) w) ->
    wmean (map fst (map (pdd_row w d kk) groups)) (map snd (map (pdd_row w d kk) groups)) j = wmean w d j.
  Proof.
    intros j Hj Hcase. rewrite wmean_pdd by auto. unfold wmean. f_equal.
    rewrite <- (col_sum_all j), <- col_sum_concat. f_equal. apply map_ext_in. intros g Hg.
    apply group_exact; auto.
  Qed.

  Lemma Rabs_rsum_le : forall A (f g : A -> R) l, (forall a, In a l -> Rabs (f a) <= g a) ->
    Rabs (rsum (map f l)) <= rsum (map g l).
  Proof.
    induction l as [|a l IH]; intros H; simpl; [rewrite Rabs_R0; lra|].
    eapply Rle_trans; [apply Rabs_triang|]. apply Rplus_le_compat; [apply H; simpl; auto|].
    apply IH. intros; apply H; simpl; auto.
  Qed.

  Lemma rsum_sub : forall A (f g : A -> R) l, rsum (map f l) - rsum (map g l) = rsum (map (fun a => f a - g a) l).
  Proof. induction l as [|a l IH]; simpl; lra. Qed.

  Lemma group_close : forall j g, (j < kk)%nat -> 0 <= tol -> In g groups -> Forall (fun a => 0 <= a) w ->
    Rabs (weight_of w g * mean (rows_of d g) j - col_sum j g) <= weight_of w g * (2 * tol).
  Proof.
    intros j g Hj Htol Hg Hw. pose proof (group_ne g Hg) as Hne.
    pose proof (INR_length_pos _ _ Hne) as Hp.
    set (L := nth j (nth (hd 0%nat g) d []) 0).
    assert (Hcl : forall i, In i g -> Rabs (nth j (nth i d []) 0 - L) <= tol).
    { intros i Hi. destruct (Nat.eq_dec i (hd 0%nat g)) as [->|Hn].
      - unfold L. rewrite Rminus_diag_eq, Rabs_R0; auto.
      - destruct (gr_close _ _ _ _ HG g i (groups_In g Hg) Hi Hn) as (_ & _ & Hc).
        rewrite Rabs_minus_sym. apply Hc. rewrite Forall_forall in Hd. rewrite Hd; auto.
        apply nth_In. eapply group_range; [exact Hg|]. destruct g; [congruence|left; auto]. }
    assert (Hwi : forall i, In i g -> 0 <= nth i w 0).
    { intros i Hi. rewrite Forall_forall in Hw. apply Hw, nth_In. rewrite Hwd. eapply group_range; eauto. }
    assert (H1 : Rabs (mean (rows_of d g) j - L) <= tol).
    { unfold mean, rows_of. rewrite map_map, map_length.
      replace (_ - L) with ((rsum (map (fun i => nth j (nth i d []) 0) g) - rsum (map (fun _ => L) g)) / INR (length g)).
      2: { rewrite rsum_map_const. field. lra. }
      rewrite rsum_sub. unfold Rdiv. rewrite Rabs_mult, (Rabs_right (/ _)).
      2: { left. apply Rinv_0_lt_compat; auto. }
      apply Rmult_le_reg_r with (INR (length g)); auto. rewrite Rmult_assoc, Rinv_l, Rmult_1_r by lra.
      rewrite Rmult_comm, <- (rsum_map_const _ tol g). apply Rabs_rsum_le. auto. }
    assert (H2 : Rabs (col_sum j g - weight_of w g * L) <= weight_of w g * tol).
    { unfold col_sum, weight_of. rewrite <- !rsum_map_scale_r, rsum_sub. apply Rabs_rsum_le.
      intros i Hi. rewrite <- Rmult_minus_distr_l, Rabs_mult, (Rabs_right (nth i w 0)).
      - apply Rmult_le_compat_l; auto.
      - apply Rle_ge; auto. }
    assert (HW : 0 <= weight_of w g).
    { unfold weight_of. apply rsum_nonneg. apply Forall_forall. intros x Hx.
      apply in_map_iff in Hx as (i & <- & Hi). auto. }
    replace (_ - col_sum j g) with
      (weight_of w g * (mean (rows_of d g) j - L) - (col_sum j g - weight_of w g * L)) by ring.
    eapply Rle_trans; [apply Rabs_triang|]. rewrite Rabs_Ropp, Rabs_mult, (Rabs_right (weight_of w g)) by (apply Rle_ge; auto).
    replace (weight_of w g * (2 * tol)) with (weight_of w g * tol + weight_of w g * tol) by ring.
    apply Rplus_le_compat; auto. apply Rmult_le_compat_l; auto.
  Qed.

  Lemma pdd_average_close : forall j, (j < kk)%nat -> 0 <= tol -> Forall (fun a => 0 < a) w -> rsum w = 1 ->
    Rabs (wmean (map fst (map (pdd_row w d kk) groups)) (map snd (map (pdd_row w d kk) groups)) j - wmean w d j)
    <= 2 * tol.
  Proof.
    intros j Hj Htol Hw Hs. rewrite wmean_pdd by auto. unfold wmean. rewrite Hs.
    replace (_ / 1 - _ / 1) with (rsum (map (fun g => weight_of w g * mean (rows_of d g) j) groups) -
      rsum (map (fun p => fst p * nth j (snd p) 0) (combine w d))) by field.
    rewrite <- (col_sum_all j), <- col_sum_concat, rsum_sub.
    eapply Rle_trans; [apply Rabs_rsum_le with (g := fun g => weight_of w g * (2 * tol))|].
    - intros g Hg. apply group_close; auto. eapply Forall_impl; [|exact Hw]. simpl. intros; lra.
    - rewrite rsum_map_scale_r, weight_concat.
      assert (weight_of w (concat groups) = 1) as ->; [|lra].
      rewrite <- Hs, <- weight_all, Hwd. apply rsum_perm, Permutation_map, groups_perm.
  Qed.
End Result.
