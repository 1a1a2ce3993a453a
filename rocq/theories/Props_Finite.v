(** Properties of the invariants of finite sets (C22). *)
From Coq Require Import List ZArith Arith Bool Reals Lia Lra Permutation Sorted.
From Verif Require Import Num Base Outcome Spec SpecGeom VecR Condensed CollapseModel NNModel NNSpecProofs
  SpecCalc CalcModel CalcProofs CalcProofs2 CalcCanon CalcInv Props_Calc Props_Inv.
Import ListNotations.
Local Open Scope R_scope.

Definition dist_row (pts : list (list R)) (p : list R) : list R := tl (sortR (map (edist p) pts)).

Lemma edist_self : forall p, edist p p = 0.
Proof.
  intros p. unfold edist. replace (sq_dist p p) with 0; [apply sqrt_0|].
  induction p as [|a p IH]; simpl; auto. rewrite <- IH. ring.
Qed.

Lemma edist_comm : forall p q, edist p q = edist q p.
Proof. intros. rewrite <- !dist_edist. apply dist_sym. Qed.

Lemma finite_rows_eq : forall pts : list (list R), finite_rows pts = map (dist_row pts) pts.
Proof.
  intros pts. unfold finite_rows.
  transitivity (map (fun i => dist_row pts (nth i pts [])) (seq 0 (length pts))).
  - apply map_ext_in. intros i Hi. apply in_seq in Hi. unfold dist_row. f_equal. unfold sortR. f_equal.
    transitivity (map (fun j => edist (nth i pts []) (nth j pts [])) (seq 0 (length pts))).
    + apply map_ext_in. intros j Hj. apply in_seq in Hj.
      assert (E : forall a b, nsqrt (sqd (nth a pts []) (nth b pts [])) = edist (nth a pts []) (nth b pts [])).
      { intros a b. unfold edist. rewrite <- sqd_sq_dist. reflexivity. }
      rewrite squareform_condensed by (unfold vec in *; lia).
      destruct (Nat.eqb_spec i j) as [->|Hn]; [rewrite edist_self; auto|].
      destruct (i <? j)%nat; rewrite E; auto. apply edist_comm.
    + rewrite <- (map_map (fun j => nth j pts []) (edist (nth i pts []))), map_nth_seq. auto.
  - rewrite <- (map_map (fun j => nth j pts []) (dist_row pts)), map_nth_seq. auto.
Qed.

Lemma filter_neq_perm : forall i n, (i < n)%nat ->
  Permutation (seq 0 n) (i :: filter (fun j => negb (Nat.eqb j i)) (seq 0 n)).
Proof.
  intros i n Hi. apply NoDup_Permutation.
  - apply seq_NoDup.
  - constructor; [|apply NoDup_filter, seq_NoDup].
    intro H. apply filter_In in H as [_ H]. rewrite Nat.eqb_refl in H. discriminate.
  - intros x. simpl. rewrite filter_In, in_seq. split.
    + intros Hx. destruct (Nat.eqb_spec x i) as [->|Hn]; [auto|right; split; auto].
    + intros [<-|[Hx _]]; lia.
Qed.

Lemma dist_row_spec : forall pts i, (i < length pts)%nat ->
  StronglySorted Rle (dist_row pts (nth i pts [])) /\
  Permutation (dist_row pts (nth i pts [])) (distances_to_others pts i).
Proof.
  intros pts i Hi. unfold dist_row. set (l := map (edist (nth i pts [])) pts).
  assert (HP : Permutation (sortR l) (0 :: distances_to_others pts i)).
  { unfold sortR. rewrite <- (isort_perm _ l). unfold l.
    rewrite <- (map_nth_seq pts []) at 2. rewrite map_map.
    rewrite (filter_neq_perm i (length pts) Hi). simpl. rewrite edist_self. apply Permutation_refl. }
  pose proof (sortR_sorted l) as HS.
  destruct (sortR l) as [|h t] eqn:E.
  { apply Permutation_nil in HP. discriminate. }
  inversion HS as [|? ? HS' HF]. subst. simpl. split; auto.
  assert (Hh : h = 0).
  { assert (0 <= h).
    { assert (X : In h (0 :: distances_to_others pts i)) by (eapply Permutation_in; [exact HP|simpl; auto]).
      destruct X as [<-|X]; [lra|]. unfold distances_to_others in X. apply in_map_iff in X as (j & <- & _).
      apply sqrt_pos. }
    assert (X : In 0 (h :: t)) by (eapply Permutation_in; [apply Permutation_sym; exact HP|simpl; auto]).
    destruct X as [X|X]; auto. rewrite Forall_forall in HF. specialize (HF 0 X). lra. }
  subst h. eapply Permutation_cons_inv; eauto.
Qed.

Lemma dist_row_length : forall pts p, length (dist_row pts p) = (length pts - 1)%nat.
Proof.
  intros. unfold dist_row.
  assert (H : length (sortR (map (edist p) pts)) = length pts).
  { unfold sortR. rewrite isort_length, map_length. auto. }
  destruct (sortR (map (edist p) pts)); simpl in *; lia.
Qed.

Lemma finite_rows_len : forall pts, Forall (fun r => length r = (length pts - 1)%nat) (@finite_rows R _ pts).
Proof.
  intros. rewrite finite_rows_eq. apply Forall_forall. intros r Hr. apply in_map_iff in Hr as (p & <- & _).
  apply dist_row_length.
Qed.

Lemma finite_rows_length : forall pts : list (vec R), length (@finite_rows R _ pts) = length pts.
Proof. intros. unfold finite_rows. rewrite map_length, seq_length. auto. Qed.

Lemma finite_weights : forall pts : list (vec R), repeat (ndiv n1 (nofnat (length pts))) (length pts)
   = repeat (1 / INR (length pts)) (length pts).
Proof. intros. rewrite nofnat_INR. reflexivity. Qed.

(** Uncollapsed and unsorted: row [i] belongs to point [i], has weight 1/m and lists the
    distances to the other points in order. *)
Theorem C22_rows : forall pts tol, let m := length pts in
  let pdd := fst (PDD_finite pts false false tol) in
  length pdd = m /\
  forall i, (i < m)%nat -> exists row, nth_error pdd i = Some (1 / INR m, row) /\
    StronglySorted Rle row /\ Permutation row (distances_to_others pts i).
Proof.
  intros pts tol m pdd.
  assert (E : pdd = combine (repeat (1 / INR m) m) (finite_rows pts)).
  { unfold pdd, PDD_finite. fold m. unfold m at 1 2. rewrite finite_weights. fold m. simpl.
    apply (nth_ext _ _ (0, []) (0, [])).
    - rewrite map_length, seq_length, combine_length, ?repeat_length, finite_rows_length. unfold m, vec in *. lia.
    - rewrite map_length, seq_length. intros i Hi.
      rewrite (nth_map_seq (fun i => (nth i _ 0, nth i _ []))) by auto.
      rewrite combine_nth; auto. rewrite finite_rows_length. apply repeat_length. }
  assert (L : length pdd = m).
  { rewrite E, combine_length, repeat_length, finite_rows_length. apply Nat.min_id. }
  split; auto. intros i Hi. exists (dist_row pts (nth i pts [])). split; [|apply dist_row_spec; auto].
  rewrite (nth_error_nth' pdd (0, [])) by lia. f_equal. rewrite E, combine_nth.
  - f_equal.
    + rewrite (nth_indep _ 0 (1 / INR m)) by (rewrite repeat_length; auto). apply nth_repeat.
    + rewrite finite_rows_eq. rewrite (nth_indep _ [] (dist_row pts [])) by (rewrite map_length; auto).
      apply map_nth.
  - rewrite finite_rows_length. apply repeat_length.
Qed.

(** Whatever the options, the result is a distribution over rows of m - 1 sorted distances. *)
Theorem C22_distribution : forall pts lexsort collapse tol, pts <> [] ->
  is_distribution (length pts - 1) (fst (PDD_finite pts lexsort collapse tol)).
Proof.
  intros pts lexsort collapse tol Hne. unfold PDD_finite. rewrite finite_weights.
  set (w := repeat (1 / INR (length pts)) (length pts)). pose proof (INR_length_pos _ _ Hne) as Hp.
  assert (Hl : length w = length (@finite_rows R _ pts)) by (unfold w; rewrite finite_rows_length; apply repeat_length).
  destruct (assemble_spec w _ _ Hl (finite_rows_len pts) lexsort collapse tol) as (g0 & g & E1 & _ & HG & HP & _).
  rewrite E1. simpl. eapply pdd_distribution; eauto.
  - apply Forall_forall. intros a Ha. apply repeat_spec in Ha. subst a. apply Rdiv_lt_0_compat; lra.
  - unfold w. rewrite rsum_repeat. field. lra.
  - rewrite finite_rows_eq. apply Forall_forall. intros r Hr. apply in_map_iff in Hr as (p & <- & Hin).
    split; [apply dist_row_length|]. destruct (In_nth _ _ [] Hin) as (i & Hi & <-).
    destruct (dist_row_spec pts i Hi) as [S P]. split; auto.
    apply Forall_forall. intros x Hx. eapply Permutation_in in Hx; [|exact P].
    apply in_map_iff in Hx as (j & <- & _). apply sqrt_pos.
Qed.

Theorem C22_average : forall pts lexsort collapse tol, pts <> [] ->
  PDD_to_AMD (length pts - 1) (fst (PDD_finite pts lexsort collapse tol)) = AMD_finite pts.
Proof.
  intros pts lexsort collapse tol Hne. unfold PDD_finite, AMD_finite. rewrite finite_weights.
  set (w := repeat (1 / INR (length pts)) (length pts)). pose proof (INR_length_pos _ _ Hne) as Hp.
  assert (Hl : length w = length (@finite_rows R _ pts)) by (unfold w; rewrite finite_rows_length; apply repeat_length).
  destruct (assemble_spec w _ _ Hl (finite_rows_len pts) lexsort collapse tol) as (g0 & g & E1 & _ & HG & HP & _).
  rewrite E1. simpl. rewrite PDD_to_AMD_eq by apply pdd_row_len.
  rewrite (average_rows_spec _ (length pts - 1)).
  - apply map_ext_in. intros j Hj. apply in_seq in Hj.
    rewrite (pdd_average_exact w (finite_rows pts) (length pts - 1) tol collapse Hl g0 g HG HP j ltac:(lia)).
    + unfold wmean, mean, w. rewrite rsum_repeat, finite_rows_length.
      assert (X : forall rows : list (list R), rsum (map (fun p => fst p * nth j (snd p) 0)
         (combine (repeat (1 / INR (length pts)) (length rows)) rows)) =
         (1 / INR (length pts)) * rsum (map (fun r => nth j r 0) rows)).
      { induction rows as [|r rows IH]; simpl; [ring|]. fold (rsum (map (fun r => nth j r 0) rows)).
        unfold rsum in IH. unfold rsum. rewrite IH. ring. }
      rewrite <- (finite_rows_length pts) at 2. rewrite X. field. lra.
    + right. exists (1 / INR (length pts)). apply Forall_forall. intros a. apply repeat_spec.
  - intro E. apply Hne. apply length_zero_iff_nil. rewrite <- finite_rows_length, E. auto.
  - apply finite_rows_len.
Qed.

(** Only the distances between points matter. *)
Theorem C22_isometry : forall (pts pts' : list (vec R)) lexsort collapse tol,
  length pts = length pts' ->
  (forall i j, (i < length pts)%nat -> (j < length pts)%nat ->
     edist (nth i pts' []) (nth j pts' []) = edist (nth i pts []) (nth j pts [])) ->
  PDD_finite pts' lexsort collapse tol = PDD_finite pts lexsort collapse tol /\ AMD_finite pts' = AMD_finite pts.
Proof.
  intros pts pts' lexsort collapse tol L H.
  assert (E : @finite_rows R _ pts' = finite_rows pts).
  { unfold finite_rows. rewrite <- L. apply map_ext_in. intros i Hi. apply in_seq in Hi. do 2 f_equal.
    apply map_ext_in. intros j Hj. apply in_seq in Hj. rewrite !squareform_condensed by (unfold vec in *; lia).
    assert (X : forall a b, nsqrt (@sqd R _ a b) = edist a b).
    { intros a b. unfold edist. rewrite <- sqd_sq_dist. reflexivity. }
    rewrite !X, !H by lia. auto. }
  unfold PDD_finite, AMD_finite. rewrite E, L. auto.
Qed.

(** The order of the points does not matter either (uncollapsed PDD). *)
Theorem C22_reordering : forall (pts pts' : list (vec R)) tol, Permutation pts pts' ->
  AMD_finite pts' = AMD_finite pts /\
  fst (PDD_finite pts' true false tol) = fst (PDD_finite pts true false tol).
Proof.
  intros pts pts' tol HP.
  assert (HR : Permutation (@finite_rows R _ pts) (finite_rows pts')).
  { rewrite !finite_rows_eq.
    assert (E : forall p, dist_row pts' p = dist_row pts p).
    { intros p. unfold dist_row. f_equal. apply sortR_unique; [apply sortR_sorted|].
      transitivity (map (edist p) pts); [apply Permutation_map, Permutation_sym, HP|].
      unfold sortR. apply isort_perm. }
    rewrite (map_ext _ _ E). apply Permutation_map, HP. }
  pose proof (Permutation_length HP) as L.
  split.
  - unfold AMD_finite. destruct pts as [|p0 pts0] eqn:Ep.
    { apply Permutation_nil in HP. subst. auto. }
    rewrite <- Ep in *. assert (Hne : pts <> []) by (rewrite Ep; discriminate). clear Ep.
    assert (Hne' : pts' <> []) by (intro E; apply Hne, length_zero_iff_nil; rewrite L, E; auto).
    assert (N : forall q : list (list R), q <> [] -> @finite_rows R _ q <> []).
    { intros q Hq E. apply Hq. apply length_zero_iff_nil. rewrite <- finite_rows_length, E. auto. }
    rewrite (average_rows_spec _ (length pts' - 1)), (average_rows_spec _ (length pts - 1)) by auto using finite_rows_len.
    rewrite L. apply map_ext. intros j. unfold mean. rewrite (Permutation_length HR). f_equal.
    apply rsum_perm, Permutation_map, Permutation_sym, HR.
  - unfold PDD_finite. rewrite !finite_weights, <- L.
    set (w := repeat (1 / INR (length pts)) (length pts)).
    assert (Hl : length w = length (@finite_rows R _ pts)) by (unfold w; rewrite finite_rows_length; apply repeat_length).
    assert (Hl' : length w = length (@finite_rows R _ pts')) by (unfold w; rewrite finite_rows_length, L; apply repeat_length).
    assert (K : Forall (fun r => length r = (length pts - 1)%nat) (@finite_rows R _ pts')).
    { rewrite L. apply finite_rows_len. }
    destruct (assemble_plain _ _ _ true tol Hl (finite_rows_len pts)) as [P1 S1].
    destruct (assemble_plain _ _ _ true tol Hl' K) as [P2 S2].
    set (a := fst (assemble (collapse_rows w (finite_rows pts) false tol) true)) in *.
    set (a' := fst (assemble (collapse_rows w (finite_rows pts') false tol) true)) in *.
    assert (Hw : forall (d : list (list R)) x, In x (combine w d) -> fst x = 1 / INR (length pts)).
    { intros d [u v] Hx. apply in_combine_l in Hx. apply repeat_spec in Hx. auto. }
    rewrite (combine_const a (1 / INR (length pts))), (combine_const a' (1 / INR (length pts))).
    + f_equal. symmetry. apply (lex_sorted_unique (length pts - 1)); auto.
      * apply Forall_forall. intros r Hr. apply in_map_iff in Hr as ([u v] & <- & Hr).
        eapply Permutation_in in Hr; [|apply Permutation_sym; exact P1]. apply in_combine_r in Hr.
        pose proof (finite_rows_len pts) as F. rewrite Forall_forall in F. auto.
      * rewrite <- P1, <- P2. rewrite !map_snd_combine by lia. auto.
    + apply Forall_forall. intros x Hx. eapply Permutation_in in Hx; [|apply Permutation_sym; exact P2]. eauto.
    + apply Forall_forall. intros x Hx. eapply Permutation_in in Hx; [|apply Permutation_sym; exact P1]. eauto.
Qed.

(** ** Cases *)
(** A repeated point: the zero that is dropped is one of two, and one zero remains. *)
Example C22_repeated_point : finite_rows [[0]; [0]; [3]] = [[0; 3]; [0; 3]; [3; 3]].
Proof.
  assert (E : forall a b, edist [a] [b] = Rabs (a - b)).
  { intros. unfold edist. simpl. rewrite Rplus_0_r. apply sqrt_Rsqr_abs. }
  rewrite finite_rows_eq. cbn [map]. unfold dist_row. cbn [map]. rewrite !E.
  replace (Rabs (0 - 0)) with 0 by (rewrite Rminus_0_r, Rabs_R0; auto).
  replace (Rabs (0 - 3)) with 3 by (unfold Rabs; destruct Rcase_abs; lra).
  replace (Rabs (3 - 0)) with 3 by (unfold Rabs; destruct Rcase_abs; lra).
  replace (Rabs (3 - 3)) with 0 by (unfold Rabs; destruct Rcase_abs; lra).
  assert (S1 : sortR [0; 0; 3] = [0; 0; 3]).
  { apply sortR_unique; auto. repeat constructor; lra. }
  assert (S2 : sortR [3; 3; 0] = [0; 3; 3]).
  { apply sortR_unique; [repeat constructor; lra|].
    apply perm_trans with [3; 0; 3]; [apply perm_skip|]; constructor. }
  rewrite S1, S2. auto.
Qed.

(** Swapping the axes is an isometry moving every point but the first. *)
Example C22_isometry_case : let pts := [[0; 0]; [1; 2]; [5; 0]] in let pts' := [[0; 0]; [2; 1]; [0; 5]] in
  length pts = length pts' /\
  forall i j, (i < length pts)%nat -> (j < length pts)%nat ->
     edist (nth i pts' []) (nth j pts' []) = edist (nth i pts []) (nth j pts []).
Proof.
  intros pts pts'. split; auto. intros [|[|[|i]]] [|[|[|j]]] Hi Hj; simpl in Hi, Hj; try lia;
    unfold edist; f_equal; simpl; ring.
Qed.

Print Assumptions C22_rows.
Print Assumptions C22_distribution.
Print Assumptions C22_average.
Print Assumptions C22_isometry.
Print Assumptions C22_reordering.
