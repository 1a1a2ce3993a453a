(** Properties C13-C15, C18-C20 of AMD, PDD and PDD_to_AMD. *)
From Coq Require Import List ZArith Arith Bool Lia Reals Lra Permutation Sorted.
From Verif Require Import Num Base Spec SpecGeom SpecCalc Outcome Condensed CollapseModel CollapseProofs
  Props_Collapse NNModel VecR NNProofs NNSpecProofs NNComplete NNInvariance Props_NN CalcModel CalcProofs
  CalcProofs2 Line.
Import ListNotations.
Open Scope R_scope.

(** ** C13 *)
Lemma AMD_Done : forall dims ps k fuel a, pset_wf dims ps -> AMD fuel ps k = Done a ->
  exists rows, nearest_neighbors fuel (ps_motif ps) (ps_cell ps) (points_of ps) (S k) = Done rows /\
    rows_ok ps k rows /\ a = amd_of ps k rows.
Proof.
  intros dims ps k fuel a Hwf E. rewrite (AMD_run dims ps Hwf) in E.
  destruct (nearest_neighbors fuel (ps_motif ps) (ps_cell ps) (points_of ps) (S k)) as [rows| | |] eqn:En;
    try discriminate. exists rows. split; auto. split; [eapply nn_rows_ok; eauto|]. simpl in E. congruence.
Qed.

Lemma wmean_le : forall ws rows i j, Forall (fun w => 0 < w) ws -> ws <> [] -> length ws = length rows ->
  (forall r, In r rows -> nth i r 0 <= nth j r 0) -> wmean ws rows i <= wmean ws rows j.
Proof.
  intros ws rows i j Hw Hne Hl H. unfold wmean. apply Rmult_le_compat_r.
  - left. apply Rinv_0_lt_compat, rsum_pos; auto.
  - apply rsum_map_le. intros [w r] Hin. simpl. apply Rmult_le_compat_l.
    + apply in_combine_l in Hin. rewrite Forall_forall in Hw. left. auto.
    + apply in_combine_r in Hin. auto.
Qed.

Lemma counts_INR_pos : forall dims ps, pset_wf dims ps ->
  Forall (fun w => 0 < w) (map INR (counts_of ps)) /\ map INR (counts_of ps) <> [].
Proof.
  intros dims ps Hwf. split.
  - pose proof (wf_pos _ _ Hwf) as H. apply Forall_forall. intros a Ha.
    apply in_map_iff in Ha as (c & <- & Hc). rewrite Forall_forall in H. apply lt_0_INR. apply H in Hc. lia.
  - pose proof (points_nonempty _ _ Hwf) as H. pose proof (points_length _ _ Hwf) as Hl.
    destruct (points_of ps), (counts_of ps); simpl in *; try congruence; discriminate.
Qed.

(** AMD returns exactly [k] numbers, non-negative and non-decreasing. *)
Theorem C13_amd_monotone : forall dims ps k fuel a,
  pset_wf dims ps -> AMD fuel ps k = Done a ->
  length a = k /\ Forall (fun d => 0 <= d) a /\ StronglySorted Rle a.
Proof.
  intros dims ps k fuel a Hwf E. destruct (AMD_Done _ _ _ _ _ Hwf E) as (rows & En & Hr & ->).
  destruct (counts_INR_pos _ _ Hwf) as [Hw Hne].
  pose proof (tl_rows ps k rows Hr) as Ht. rewrite Forall_forall in Ht.
  assert (Hl : length (map INR (counts_of ps)) = length (map (@tl R) rows)).
  { rewrite !map_length, <- (points_length _ _ Hwf). destruct Hr. auto. }
  unfold amd_of. split; [rewrite map_length, seq_length; auto|split].
  - apply Forall_forall. intros x Hx. apply in_map_iff in Hx as (j & <- & Hj). apply in_seq in Hj.
    unfold wmean. apply Rmult_le_pos; [|left; apply Rinv_0_lt_compat, rsum_pos; auto].
    apply rsum_nonneg, Forall_forall. intros x Hx. apply in_map_iff in Hx as ([w r] & <- & Hin). simpl.
    apply Rmult_le_pos.
    + apply in_combine_l in Hin. rewrite Forall_forall in Hw. left; auto.
    + apply in_combine_r in Hin. destruct (Ht r Hin) as (L & H & _). rewrite Forall_forall in H.
      apply H, nth_In. lia.
  - apply sorted_nth_le. rewrite map_length, seq_length. intros i j Hij. rewrite !nth_map_seq by lia.
    apply wmean_le; auto. intros r Hin. destruct (Ht r Hin) as (L & _ & H).
    apply sorted_nth_le; auto. lia.
Qed.

(** AMD and PDD return for every non-singular cell, with a loop bound that does not
    depend on anything but the set and [k]; before that they only run out of fuel. *)
Theorem C13_amd_total : forall dims ps k, pset_wf dims ps -> nonsingular dims (ps_cell ps) ->
  exists a fuel0, forall fuel,
    ((fuel0 <= fuel)%nat -> AMD fuel ps k = Done a) /\
    ((fuel < fuel0)%nat -> AMD fuel ps k = OutOfFuel).
Proof.
  intros dims ps k Hwf Hns.
  destruct (C09_terminates dims (ps_motif ps) (ps_cell ps) (points_of ps) k (wf_ok _ _ Hwf) Hns
    (points_incl _ _ Hwf) (points_nonempty _ _ Hwf)) as (rows & f0 & H).
  exists (amd_of ps k rows), f0. intros fuel. destruct (H fuel) as [H1 H2].
  split; intros Hf; rewrite (AMD_run dims ps Hwf); [rewrite H1|rewrite H2]; auto.
Qed.

(** ** C14 *)
Lemma PDD_Done : forall dims ps k fuel lexsort collapse tol res, pset_wf dims ps ->
  PDD fuel ps k lexsort collapse tol = Done res ->
  exists rows, nearest_neighbors fuel (ps_motif ps) (ps_cell ps) (points_of ps) (S k) = Done rows /\
    rows_ok ps k rows /\
    let d := map (@tl R) rows in
    length (weights_of ps) = length d /\ Forall (fun r => length r = k) d /\
    res = assemble (collapse_rows (weights_of ps) d collapse tol) lexsort.
Proof.
  intros dims ps k fuel lexsort collapse tol res Hwf E. rewrite (PDD_run dims ps Hwf) in E.
  destruct (nearest_neighbors fuel (ps_motif ps) (ps_cell ps) (points_of ps) (S k)) as [rows| | |] eqn:En;
    try discriminate. exists rows. split; auto.
  pose proof (nn_rows_ok _ _ Hwf _ _ _ En) as Hr. split; auto. simpl in E. split; [|split].
  - rewrite (weights_length dims ps Hwf), map_length. destruct Hr; auto.
  - eapply Forall_impl; [|apply (tl_rows ps k rows Hr)]. simpl. tauto.
  - congruence.
Qed.

Theorem C14_pdd_is_distribution : forall dims ps k fuel lexsort collapse tol pdd groups,
  pset_wf dims ps -> PDD fuel ps k lexsort collapse tol = Done (pdd, groups) ->
  is_distribution k pdd /\ pdd <> [] /\ (length pdd <= length (positions_of ps))%nat /\
  length groups = length pdd.
Proof.
  intros dims ps k fuel lexsort collapse tol pdd groups Hwf E.
  destruct (PDD_Done _ _ _ _ _ _ _ _ Hwf E) as (rows & En & Hr & Hl & Hk & Ea).
  destruct (assemble_spec _ _ _ Hl Hk lexsort collapse tol) as (g0 & g & E1 & _ & HG & HP & _).
  rewrite E1 in Ea. inversion Ea. subst pdd groups.
  assert (Hd : is_distribution k (map (pdd_row (weights_of ps) (map (tl (A:=R)) rows) k) g)).
  { eapply pdd_distribution; eauto.
    - apply (weights_pos dims ps Hwf).
    - apply (weights_sum dims ps Hwf).
    - apply (tl_rows ps); auto. }
  split; [exact Hd|]. split; [|split].
  - intros E0. destruct Hd as [_ Hs]. rewrite E0 in Hs. simpl in Hs. lra.
  - rewrite map_length. pose proof (groups_perm _ _ _ _ _ HG HP) as P. apply Permutation_length in P.
    rewrite seq_length, map_length in P. destruct Hr as [Hr _]. rewrite Hr in P.
    unfold points_of in P. rewrite map_length in P. rewrite <- P.
    assert (Hne : forall x, In x g -> x <> []) by (intros x; apply (group_ne _ _ _ _ _ HG HP)).
    clear - Hne. induction g as [|x g IH]; simpl; [lia|]. rewrite app_length.
    assert (x <> []) by (apply Hne; simpl; auto). assert (length g <= length (concat g))%nat
      by (apply IH; intros; apply Hne; simpl; auto). destruct x; [congruence|simpl; lia].
  - rewrite map_length. auto.
Qed.

(** ** C15 *)
Lemma amd_of_weights : forall dims ps k rows, pset_wf dims ps ->
  amd_of ps k rows = map (wmean (weights_of ps) (map (@tl R) rows)) (seq 0 k).
Proof.
  intros dims ps k rows Hwf. unfold amd_of. apply map_ext. intros j. apply (wmean_weights dims ps Hwf).
Qed.

Lemma pdd_row_len : forall w d k g, Forall (fun p : R * list R => length (snd p) = k) (map (pdd_row w d k) g).
Proof.
  intros. apply Forall_forall. intros p Hp. apply in_map_iff in Hp as (x & <- & _). simpl.
  rewrite map_length, seq_length. auto.
Qed.

(** Averaging a PDD gives the AMD exactly when nothing is collapsed, or when all points of
    the asymmetric unit have the same multiplicity. *)
Theorem C15_average_exact : forall dims ps k fuel lexsort collapse tol pdd groups,
  pset_wf dims ps ->
  (collapse = false \/ exists c, Forall (fun a => a = c) (counts_of ps)) ->
  PDD fuel ps k lexsort collapse tol = Done (pdd, groups) ->
  AMD fuel ps k = Done (PDD_to_AMD k pdd).
Proof.
  intros dims ps k fuel lexsort collapse tol pdd groups Hwf Hc E.
  destruct (PDD_Done _ _ _ _ _ _ _ _ Hwf E) as (rows & En & Hr & Hl & Hk & Ea).
  destruct (assemble_spec _ _ _ Hl Hk lexsort collapse tol) as (g0 & g & E1 & _ & HG & HP & _).
  rewrite E1 in Ea. inversion Ea. subst pdd groups.
  rewrite (AMD_run dims ps Hwf), En. simpl. f_equal. rewrite (amd_of_weights dims) by auto.
  rewrite PDD_to_AMD_eq by apply pdd_row_len. apply map_ext_in. intros j Hj. apply in_seq in Hj.
  symmetry. eapply pdd_average_exact; eauto; [lia|].
  destruct Hc as [->|(c & Hc)]; [auto|]. right. exists (INR c / INR (length (ps_motif ps))).
  unfold weights_of. apply Forall_forall. intros a Ha. apply in_map_iff in Ha as (c' & <- & Ha).
  rewrite Forall_forall in Hc. rewrite (Hc _ Ha). auto.
Qed.

(** In general every entry is within twice the tolerance. *)
Theorem C15_average_close : forall dims ps k fuel lexsort collapse tol pdd groups j,
  pset_wf dims ps -> 0 <= tol -> (j < k)%nat ->
  PDD fuel ps k lexsort collapse tol = Done (pdd, groups) ->
  exists a, AMD fuel ps k = Done a /\ Rabs (nth j (PDD_to_AMD k pdd) 0 - nth j a 0) <= 2 * tol.
Proof.
  intros dims ps k fuel lexsort collapse tol pdd groups j Hwf Ht Hj E.
  destruct (PDD_Done _ _ _ _ _ _ _ _ Hwf E) as (rows & En & Hr & Hl & Hk & Ea).
  destruct (assemble_spec _ _ _ Hl Hk lexsort collapse tol) as (g0 & g & E1 & _ & HG & HP & _).
  rewrite E1 in Ea. inversion Ea. subst pdd groups.
  rewrite (AMD_run dims ps Hwf), En. simpl. eexists. split; [reflexivity|].
  rewrite (amd_of_weights dims) by auto.
  rewrite PDD_to_AMD_eq by apply pdd_row_len. rewrite !nth_map_seq by auto.
  eapply pdd_average_close; eauto.
  - apply (weights_pos dims ps Hwf).
  - apply (weights_sum dims ps Hwf).
Qed.

(** ** C18 *)
(** With lexsort the rows are in lexicographic order, and sorting only permutes the rows
    together with their groups. *)
Theorem C18_lexsorted : forall dims ps k fuel collapse tol pdd groups,
  pset_wf dims ps -> PDD fuel ps k true collapse tol = Done (pdd, groups) ->
  StronglySorted lex_le (map snd pdd) /\
  exists pdd0 groups0, PDD fuel ps k false collapse tol = Done (pdd0, groups0) /\
    Permutation (combine pdd0 groups0) (combine pdd groups).
Proof.
  intros dims ps k fuel collapse tol pdd groups Hwf E.
  destruct (PDD_Done _ _ _ _ _ _ _ _ Hwf E) as (rows & En & Hr & Hl & Hk & Ea).
  destruct (assemble_spec _ _ _ Hl Hk true collapse tol) as (g0 & g & E1 & E0 & HG & HP & HS).
  rewrite E1 in Ea. inversion Ea. subst pdd groups. split; [apply HS; auto|].
  exists (map (pdd_row (weights_of ps) (map (tl (A:=R)) rows) k) g0), g0. split.
  - rewrite (PDD_run dims ps Hwf), En. simpl. rewrite E0. auto.
  - assert (Hc : forall gs : list (list nat), combine (map (pdd_row (weights_of ps) (map (tl (A:=R)) rows) k) gs) gs =
        map (fun x => (pdd_row (weights_of ps) (map (tl (A:=R)) rows) k x, x)) gs).
    { induction gs; simpl; congruence. }
    rewrite !Hc. apply Permutation_map, HP.
Qed.

(** ** C19 *)
(** The groups returned with a PDD partition the rows of the uncollapsed, unsorted PDD; every
    row of the PDD is the sum of the weights and the mean of the distances of its group. *)
Theorem C19_groups_identify_rows : forall dims ps k fuel lexsort collapse tol pdd groups,
  pset_wf dims ps -> PDD fuel ps k lexsort collapse tol = Done (pdd, groups) ->
  exists full idx, PDD fuel ps k false false tol = Done (full, idx) /\
    idx = map (fun i => [i]) (seq 0 (length (positions_of ps))) /\
    length full = length (positions_of ps) /\
    (forall i, (i < length full)%nat ->
       fst (nth i full (0, [])) = INR (nth i (counts_of ps) 0%nat) / INR (length (ps_motif ps)) /\
       exists ids, neighbour_distances dims (ps_motif ps) (ps_cell ps)
         (nth (nth i (positions_of ps) 0%nat) (ps_motif ps) []) (S k) (0 :: snd (nth i full (0, []))) ids) /\
    Permutation (concat groups) (seq 0 (length full)) /\
    Forall2 (fun p g =>
       g <> [] /\
       fst p = rsum (map (fun i => fst (nth i full (0, []))) g) /\
       snd p = map (mean (map (fun i => snd (nth i full (0, []))) g)) (seq 0 k) /\
       (collapse = false -> exists i, g = [i]) /\
       (forall i, In i g -> i <> hd 0%nat g ->
          close_rows tol (snd (nth (hd 0%nat g) full (0, []))) (snd (nth i full (0, []))))) pdd groups.
Proof.
  intros dims ps k fuel lexsort collapse tol pdd groups Hwf E.
  destruct (PDD_Done _ _ _ _ _ _ _ _ Hwf E) as (rows & En & Hr & Hl & Hk & Ea).
  destruct (assemble_spec _ _ _ Hl Hk lexsort collapse tol) as (g0 & g & E1 & _ & HG & HP & _).
  rewrite E1 in Ea. inversion Ea. subst pdd groups. clear Ea.
  set (d := map (tl (A:=R)) rows) in *. set (w := weights_of ps) in *.
  assert (Hn : length rows = length (positions_of ps)).
  { destruct Hr as [Hr _]. rewrite Hr. unfold points_of. apply map_length. }
  assert (Hnd : length d = length (positions_of ps)) by (unfold d; rewrite map_length; auto).
  set (full := combine w d).
  assert (Hfl : length full = length (positions_of ps)).
  { unfold full. rewrite combine_length, Hl, Hnd. lia. }
  assert (Hfn : forall i, nth i full (0, []) = (nth i w 0, nth i d [])).
  { intros i. unfold full. apply combine_nth. auto. }
  assert (Hnn : Forall2 (fun p r => hd_error r = Some 0 /\ exists ids,
     neighbour_distances dims (ps_motif ps) (ps_cell ps) p (S k) r ids) (points_of ps) rows).
  { eapply C04_rows_are_distances; eauto using points_incl, points_nonempty. apply (wf_ok _ _ Hwf). }
  exists full, (map (fun i => [i]) (seq 0 (length (positions_of ps)))).
  split; [|split; [auto|split; [auto|split; [|split]]]].
  - rewrite (PDD_run dims ps Hwf), En. simpl. fold d. fold w. rewrite Hnd.
    f_equal. f_equal.
    + unfold full. apply (nth_ext _ _ (0, []) (0, [])).
      * rewrite map_length, seq_length, combine_length. lia.
      * rewrite map_length, seq_length. intros i Hi.
        rewrite (nth_map_seq (fun i => (nth i w 0, nth i d []))) by auto. rewrite combine_nth; auto.
    + apply map_ext_in. intros i Hi. apply in_seq in Hi. rewrite (nth_map_seq (fun i => [i])) by lia. auto.
  - intros i Hi. rewrite Hfn. simpl fst. simpl snd. split.
    + unfold w, weights_of.
      rewrite (nth_indep _ 0 ((fun c => INR c / INR (length (ps_motif ps))) 0%nat)).
      2: { rewrite map_length, <- (wf_len _ _ Hwf). lia. }
      rewrite (map_nth (fun c => INR c / INR (length (ps_motif ps)))). auto.
    + assert (X : forall x rs, Forall2 (fun p r => hd_error r = Some 0 /\ exists ids,
         neighbour_distances dims (ps_motif ps) (ps_cell ps) p (S k) r ids) x rs ->
         forall i, (i < length rs)%nat -> exists ids, neighbour_distances dims (ps_motif ps) (ps_cell ps)
           (nth i x []) (S k) (0 :: nth i (map (tl (A:=R)) rs) []) ids).
      { clear. induction 1 as [|p r x rs (H1 & ids & H2) H IH]; intros [|i] Hi; simpl in *; try lia.
        - exists ids. destruct r as [|b r]; simpl in *; [discriminate|]. inversion H1. subst. auto.
        - apply IH. lia. }
      destruct (X _ _ Hnn i) as (ids & Hids); [lia|]. exists ids.
      unfold points_of in Hids.
      rewrite (nth_indep _ [] ((fun i => nth i (ps_motif ps) []) 0%nat)) in Hids.
      2: { rewrite map_length; lia. }
      rewrite (map_nth (fun i => nth i (ps_motif ps) [])) in Hids. auto.
  - rewrite Hfl, <- Hnd. eapply groups_perm; eauto.
  - assert (X : forall gs, incl gs g -> Forall2 (fun p g =>
       g <> [] /\
       fst p = rsum (map (fun i => fst (nth i full (0, []))) g) /\
       snd p = map (mean (map (fun i => snd (nth i full (0, []))) g)) (seq 0 k) /\
       (collapse = false -> exists i, g = [i]) /\
       (forall i, In i g -> i <> hd 0%nat g ->
          close_rows tol (snd (nth (hd 0%nat g) full (0, []))) (snd (nth i full (0, [])))))
       (map (pdd_row w d k) gs) gs).
    2: { apply X. intros ?; auto. }
    induction gs as [|x gs IH]; intros Hi; simpl; constructor.
    2: { apply IH. intros y Hy. apply Hi; simpl; auto. }
    assert (Hx : In x g) by (apply Hi; simpl; auto). clear IH Hi.
    pose proof (group_ne _ _ _ _ _ HG HP x Hx) as Hne. split; [auto|].
    rewrite (map_ext (fun i => fst (nth i full (0, []))) (fun i => nth i w 0)) by (intros i; rewrite Hfn; auto).
    rewrite (map_ext (fun i => snd (nth i full (0, []))) (fun i => nth i d [])) by (intros i; rewrite Hfn; auto).
    split; [reflexivity|]. split; [reflexivity|]. split.
    + intros ->. assert (Hx0 : In x g0) by (eapply groups_In; eauto).
      destruct x as [|a x]; [congruence|]. exists a. destruct x as [|b x]; auto. exfalso.
      pose proof (gr_ne _ _ _ _ HG) as Hss. rewrite Forall_forall in Hss. destruct (Hss _ Hx0) as [_ Hss'].
      inversion Hss' as [|? ? _ HF]. subst. inversion HF. subst.
      destruct (gr_close _ _ _ _ HG _ b Hx0) as [Hbad _]; [simpl; auto|simpl; lia|discriminate].
    + intros i Hi Hni. rewrite !Hfn. simpl.
      apply (gr_close _ _ _ _ HG x i); auto. eapply groups_In; eauto.
Qed.

(** ** Concrete sets *)
Section Witness15.
  (** A line with period 3 + 2t and points 0, 1, 2 + t. The reflection x -> 1 - x maps the
      set to itself, swaps the first two points and fixes the third modulo the lattice. *)
  Variable t : R.
  Hypothesis Ht : 0 < t.
  Let c := 3 + 2 * t.
  Let xs := [0; 1; 2 + t].
  Definition sym_pset : pset R :=
    {| ps_motif := line [0; 1; 2 + t]; ps_cell := [[3 + 2 * t]]; ps_asym := Some [0; 2]%nat; ps_mult := Some [2; 1]%nat |}.

  Let Hc : 0 < c. Proof. unfold c. lra. Qed.
  Let Hxs : Forall (fun x => 0 <= x < c) xs. Proof. unfold xs, c. repeat constructor; lra. Qed.
  Let Hne : xs <> []. Proof. discriminate. Qed.

  Lemma sym_wf : pset_wf 1 sym_pset.
  Proof.
    split; unfold positions_of, counts_of; simpl; auto; try (repeat constructor; fail).
    apply (line_ok xs c Hxs Hne).
  Qed.

  Lemma sym_rows : exists fuel, nearest_neighbors fuel (line xs) [[c]] (points_of sym_pset) 2 = Done [[0; 1]; [0; 1 + t]].
  Proof.
    destruct (line_rows xs c Hc Hxs Hne (points_of sym_pset) 1 [[0; 1]; [0; 1 + t]]) as (f0 & H).
    - apply (points_incl 1 sym_pset sym_wf).
    - discriminate.
    - constructor; [|constructor; [|constructor]].
      + apply (line_near2 xs c Hc 0 0 1); simpl; auto; try lia; try discriminate; [rabs|].
        intros z i Hi. destruct (shift_cases c Hc z) as [->|[Hz|Hz]]; unfold c in *;
          destruct i as [|[|[|i]]]; simpl; auto; try lia; right; rabs.
      + apply (line_near2 xs c Hc 2 0 1); simpl; auto; try lia; try discriminate; [rabs|].
        intros z i Hi. destruct (shift_cases c Hc z) as [->|[Hz|Hz]]; unfold c in *;
          destruct i as [|[|[|i]]]; simpl; auto; try lia; right; rabs.
    - exists f0. apply H. auto.
  Qed.

  Lemma sym_average : exists fuel pdd groups a, PDD fuel sym_pset 1 true true t = Done (pdd, groups) /\
    AMD fuel sym_pset 1 = Done a /\ nth 0 a 0 = 1 + t / 3 /\ nth 0 (PDD_to_AMD 1 pdd) 0 = 1 + t / 2.
  Proof.
    destruct sym_rows as (fuel & E).
    assert (E' : nearest_neighbors fuel (ps_motif sym_pset) (ps_cell sym_pset) (points_of sym_pset) 2 =
      Done [[0; 1]; [0; 1 + t]]) by exact E.
    exists fuel. rewrite (PDD_run 1 sym_pset sym_wf), (AMD_run 1 sym_pset sym_wf), E'. cbn [obind].
    set (w := weights_of sym_pset). set (d := map (tl (A:=R)) [[0; 1]; [0; 1 + t]]).
    assert (Ec : collapse_rows w d true t = ([rsum w], [[1 + t / 2]], [[0; 1]%nat])).
    { unfold collapse_rows.
      assert (Eo : condensed (fun i j => nleb (cheb (nth i d []) (nth j d [])) t) (length d) = [true]).
      { change (condensed (fun i j => nleb (cheb (nth i d []) (nth j d [])) t) (length d))
          with [Rleb (cheb [1] [1 + t]) t]. f_equal. apply Rleb_true, cheb_le; auto.
        split; [lra|]. intros [|j] Hj; simpl in *; try lia. rabs. }
      rewrite Eo. cbn [andb existsb orb].
      assert (Eg : collapse_into_groups (length d) [true] = [[0; 1]%nat]) by reflexivity.
      rewrite Eg. cbn [map]. f_equal. f_equal.
      - rewrite nsum_rsum. unfold w, weights_of. simpl. reflexivity.
      - f_equal. rewrite (average_rows_spec _ 1); [|discriminate|repeat constructor].
        unfold mean. simpl. f_equal. field. }
    rewrite Ec. cbn [assemble]. eexists _, _, _. split; [reflexivity|]. split; [reflexivity|]. split.
    - unfold amd_of, wmean. simpl. field.
    - unfold w. rewrite (weights_sum 1 sym_pset sym_wf). unfold PDD_to_AMD. cbn. field.
  Qed.
End Witness15.

(** With unequal multiplicities the average of a collapsed PDD is not the AMD, whatever
    the tolerance. *)
Theorem C15_collapsed_average_refuted : forall tol, 0 < tol -> exists dims ps k fuel pdd groups a,
  pset_wf dims ps /\ PDD fuel ps k true true tol = Done (pdd, groups) /\
  AMD fuel ps k = Done a /\ PDD_to_AMD k pdd <> a.
Proof.
  intros t Ht. destruct (sym_average t Ht) as (fuel & pdd & groups & a & H1 & H2 & H3 & H4).
  exists 1%nat, (sym_pset t), 1%nat, fuel, pdd, groups, a.
  split; [apply sym_wf; auto|]. split; [auto|]. split; [auto|]. intros E. rewrite E in H4. lra.
Qed.

(** ** C20 *)
Section Witness20.
  (** Points 0, t, 3t, 6t with period 100t: nearest distances t, t, 2t, 3t. *)
  Variable t : R.
  Hypothesis Ht : 0 < t.
  Let c := 100 * t.
  Definition ord1 : list R := [0; t; 3 * t; 6 * t].
  Definition ord2 : list R := [3 * t; 0; t; 6 * t].
  Definition plain (xs : list R) : pset R :=
    {| ps_motif := line xs; ps_cell := [[100 * t]]; ps_asym := None; ps_mult := None |}.

  Let Hc : 0 < c. Proof. unfold c. lra. Qed.

  Lemma ord1_rows : exists fuel, nearest_neighbors fuel (line ord1) [[c]] (line ord1) 2 =
    Done [[0; t]; [0; t]; [0; 2 * t]; [0; 3 * t]].
  Proof.
    assert (Hxs : Forall (fun x => 0 <= x < c) ord1) by (unfold ord1, c; repeat constructor; lra).
    destruct (line_rows ord1 c Hc Hxs ltac:(discriminate) (line ord1) 1
      [[0; t]; [0; t]; [0; 2 * t]; [0; 3 * t]]) as (f0 & H).
    - intros ?; auto.
    - discriminate.
    - constructor; [|constructor; [|constructor; [|constructor; [|constructor]]]].
      + apply (line_near2 ord1 c Hc 0 0 1); simpl; auto; try lia; try discriminate; [rabs|].
        intros z i Hi. destruct (shift_cases c Hc z) as [->|[Hz|Hz]]; unfold c in *;
          destruct i as [|[|[|[|i]]]]; simpl; auto; try lia; right; rabs.
      + apply (line_near2 ord1 c Hc 1 0 0); simpl; auto; try lia; try discriminate; [rabs|].
        intros z i Hi. destruct (shift_cases c Hc z) as [->|[Hz|Hz]]; unfold c in *;
          destruct i as [|[|[|[|i]]]]; simpl; auto; try lia; right; rabs.
      + apply (line_near2 ord1 c Hc 2 0 1); simpl; auto; try lia; try discriminate; [rabs|].
        intros z i Hi. destruct (shift_cases c Hc z) as [->|[Hz|Hz]]; unfold c in *;
          destruct i as [|[|[|[|i]]]]; simpl; auto; try lia; right; rabs.
      + apply (line_near2 ord1 c Hc 3 0 2); simpl; auto; try lia; try discriminate; [rabs|].
        intros z i Hi. destruct (shift_cases c Hc z) as [->|[Hz|Hz]]; unfold c in *;
          destruct i as [|[|[|[|i]]]]; simpl; auto; try lia; right; rabs.
    - exists f0. apply H. auto.
  Qed.

  Lemma ord_ok : forall xs, xs = ord1 \/ xs = ord2 -> pset_wf 1 (plain xs).
  Proof.
    intros xs Hx. apply pset_wf_no_asym. apply line_ok.
    - destruct Hx as [-> | ->]; unfold ord1, ord2; repeat constructor; lra.
    - destruct Hx as [-> | ->]; discriminate.
  Qed.

  Lemma plain_points : forall xs, points_of (plain xs) = line xs.
  Proof. intros xs. unfold points_of, positions_of. simpl. apply map_nth_seq. Qed.

  Lemma ov_spec : forall a b, Rleb (cheb [a] [b]) t = Rleb (Rabs (a - b)) t.
  Proof.
    intros a b. apply eq_true_iff_eq. rewrite !Rleb_true, cheb_le by auto. split.
    - intros [_ H]. apply (H 0%nat). simpl; lia.
    - intros H. split; [lra|]. intros [|j] Hj; simpl in *; [auto|lia].
  Qed.

  Lemma ov_true : forall a b, Rabs (a - b) <= t -> Rleb (cheb [a] [b]) t = true.
  Proof. intros. rewrite ov_spec. apply Rleb_true. auto. Qed.
  Lemma ov_false : forall a b, t < Rabs (a - b) -> Rleb (cheb [a] [b]) t = false.
  Proof. intros. rewrite ov_spec. apply Rleb_false. auto. Qed.

  Lemma order_dependent : exists fuel pdd1 g1 pdd2 g2,
    PDD fuel (plain ord1) 1 true true t = Done (pdd1, g1) /\
    PDD fuel (plain ord2) 1 true true t = Done (pdd2, g2) /\
    length pdd1 = 2%nat /\ length pdd2 = 1%nat.
  Proof.
    destruct ord1_rows as (fuel & E1).
    assert (E2 : nearest_neighbors fuel (line ord2) [[c]] (line ord2) 2 =
      Done [[0; 2 * t]; [0; t]; [0; t]; [0; 3 * t]]).
    { destruct (C12_reordering 1 (line ord1) (line ord2) [[c]] (line ord1) (line ord2) 1 fuel)
        as [[E _]|(f & Ef1 & Ef2)].
      - apply (wf_ok _ _ (ord_ok ord1 (or_introl eq_refl))).
      - unfold line, ord1, ord2. simpl. apply Permutation_sym.
        apply perm_trans with [[0]; [3 * t]; [t]; [6 * t]]; constructor. constructor.
      - unfold line, ord1, ord2. simpl. apply Permutation_sym.
        apply perm_trans with [[0]; [3 * t]; [t]; [6 * t]]; constructor. constructor.
      - intros ?; auto.
      - discriminate.
      - rewrite E1 in E. discriminate.
      - rewrite E1 in Ef1. simpl in Ef1. injection Ef1 as Ha Hb Hd He. rewrite Ef2. simpl.
        rewrite <- Ha, <- Hb, <- Hd, <- He. auto. }
    exists fuel.
    rewrite (PDD_run 1 _ (ord_ok ord1 (or_introl eq_refl))), (PDD_run 1 _ (ord_ok ord2 (or_intror eq_refl))).
    rewrite !plain_points.
    assert (E1' : nearest_neighbors fuel (ps_motif (plain ord1)) (ps_cell (plain ord1)) (line ord1) 2 =
      Done [[0; t]; [0; t]; [0; 2 * t]; [0; 3 * t]]) by exact E1.
    assert (E2' : nearest_neighbors fuel (ps_motif (plain ord2)) (ps_cell (plain ord2)) (line ord2) 2 =
      Done [[0; 2 * t]; [0; t]; [0; t]; [0; 3 * t]]) by exact E2.
    rewrite E1', E2'. cbn [obind map tl].
    assert (C1 : condensed (fun i j => nleb (cheb (nth i [[t]; [t]; [2 * t]; [3 * t]] [])
       (nth j [[t]; [t]; [2 * t]; [3 * t]] [])) t) 4 = [true; true; false; true; false; true]).
    { change (condensed (fun i j => nleb (cheb (nth i [[t]; [t]; [2 * t]; [3 * t]] [])
       (nth j [[t]; [t]; [2 * t]; [3 * t]] [])) t) 4) with
       [Rleb (cheb [t] [t]) t; Rleb (cheb [t] [2 * t]) t; Rleb (cheb [t] [3 * t]) t;
        Rleb (cheb [t] [2 * t]) t; Rleb (cheb [t] [3 * t]) t; Rleb (cheb [2 * t] [3 * t]) t].
      repeat (apply (f_equal2 (@cons bool));
        [first [apply ov_true; solve [rabs] | apply ov_false; solve [rabs]]|]). reflexivity. }
    assert (C2 : condensed (fun i j => nleb (cheb (nth i [[2 * t]; [t]; [t]; [3 * t]] [])
       (nth j [[2 * t]; [t]; [t]; [3 * t]] [])) t) 4 = [true; true; true; true; false; false]).
    { change (condensed (fun i j => nleb (cheb (nth i [[2 * t]; [t]; [t]; [3 * t]] [])
       (nth j [[2 * t]; [t]; [t]; [3 * t]] [])) t) 4) with
       [Rleb (cheb [2 * t] [t]) t; Rleb (cheb [2 * t] [t]) t; Rleb (cheb [2 * t] [3 * t]) t;
        Rleb (cheb [t] [t]) t; Rleb (cheb [t] [3 * t]) t; Rleb (cheb [t] [3 * t]) t].
      repeat (apply (f_equal2 (@cons bool));
        [first [apply ov_true; solve [rabs] | apply ov_false; solve [rabs]]|]). reflexivity. }
    unfold collapse_rows. cbn [length]. rewrite C1, C2. cbn [andb existsb orb].
    replace (collapse_into_groups 4 [true; true; false; true; false; true]) with [[0; 1; 2]; [3]]%nat by reflexivity.
    replace (collapse_into_groups 4 [true; true; true; true; false; false]) with [[0; 1; 2; 3]]%nat by reflexivity.
    unfold assemble. eexists _, _, _, _. split; [reflexivity|]. split; [reflexivity|].
    rewrite !map_length. unfold lex_ordering. rewrite !isort_length, !seq_length. auto.
  Qed.
End Witness20.

(** The number of rows of a collapsed PDD depends on the order of the motif points,
    whatever the tolerance. *)
Theorem C20_collapse_order_refuted : forall tol, 0 < tol -> exists dims ps ps' k fuel pdd g pdd' g',
  pset_wf dims ps /\ pset_wf dims ps' /\ Permutation (ps_motif ps) (ps_motif ps') /\ ps_cell ps = ps_cell ps' /\
  PDD fuel ps k true true tol = Done (pdd, g) /\ PDD fuel ps' k true true tol = Done (pdd', g') /\
  length pdd <> length pdd'.
Proof.
  intros t Ht. destruct (order_dependent t Ht) as (fuel & p1 & g1 & p2 & g2 & H1 & H2 & H3 & H4).
  exists 1%nat, (plain t (ord1 t)), (plain t (ord2 t)), 1%nat, fuel, p1, g1, p2, g2.
  split; [apply ord_ok; auto|]. split; [apply ord_ok; auto|]. split; [|split; [auto|split; [auto|split; [auto|lia]]]].
  simpl. unfold line, ord1, ord2. simpl. apply Permutation_sym.
  apply perm_trans with [[0]; [3 * t]; [t]; [6 * t]]; constructor. constructor.
Qed.

(** ** Cases meeting the hypotheses *)
Example calc_case : exists fuel pdd groups a,
  pset_wf 1 (sym_pset 1) /\ nonsingular 1 (ps_cell (sym_pset 1)) /\
  PDD fuel (sym_pset 1) 1 true true 1 = Done (pdd, groups) /\ AMD fuel (sym_pset 1) 1 = Done a /\ a <> [].
Proof.
  destruct (sym_average 1 ltac:(lra)) as (fuel & pdd & g & a & H1 & H2 & H3 & _).
  exists fuel, pdd, g, a. split; [apply sym_wf; lra|]. split; [apply line_nonsingular; lra|].
  split; [auto|]. split; [auto|]. intros ->. simpl in H3. lra.
Qed.

(** Two rows remain after collapsing three of four. *)
Example calc_case_uniform : exists fuel pdd groups,
  pset_wf 1 (plain 1 (ord1 1)) /\ Forall (fun a => a = 1%nat) (counts_of (plain 1 (ord1 1))) /\
  PDD fuel (plain 1 (ord1 1)) 1 true true 1 = Done (pdd, groups) /\ length pdd = 2%nat.
Proof.
  destruct (order_dependent 1 ltac:(lra)) as (fuel & p1 & g1 & p2 & g2 & H1 & _ & H3 & _).
  exists fuel, p1, g1. split; [apply ord_ok; auto; lra|]. split; [repeat constructor|]. auto.
Qed.

Print Assumptions C13_amd_monotone.
Print Assumptions C13_amd_total.
Print Assumptions C14_pdd_is_distribution.
Print Assumptions C15_average_exact.
Print Assumptions C15_average_close.
Print Assumptions C18_lexsorted.
Print Assumptions C19_groups_identify_rows.
Print Assumptions C15_collapsed_average_refuted.
Print Assumptions C20_collapse_order_refuted.
