(** Invariance of AMD and PDD. *)
From Coq Require Import List ZArith Arith Bool Lia Reals Lra Permutation Sorted.
From Verif Require Import Num Base Spec SpecGeom SpecCalc Outcome Condensed CollapseModel CollapseProofs
  Props_Collapse NNModel VecR NNProofs NNSpecProofs NNComplete NNInvariance Props_NN CalcModel CalcProofs
  CalcProofs2 CalcCanon.
Import ListNotations.
Open Scope R_scope.

(** Apply maps to the motif points and to the cell vectors. *)
Definition pset_map (f g : list R -> list R) (ps : pset R) : pset R :=
  {| ps_motif := map f (ps_motif ps); ps_cell := map g (ps_cell ps);
     ps_asym := ps_asym ps; ps_mult := ps_mult ps |}.

Lemma positions_map : forall f g ps, positions_of (pset_map f g ps) = positions_of ps.
Proof. intros. unfold positions_of. simpl. rewrite map_length. auto. Qed.
Lemma counts_map : forall f g ps, counts_of (pset_map f g ps) = counts_of ps.
Proof. intros. unfold counts_of. simpl. rewrite map_length. auto. Qed.

Lemma points_map : forall dims f g ps, pset_wf dims ps -> points_of (pset_map f g ps) = map f (points_of ps).
Proof.
  intros dims f g ps Hwf. unfold points_of. rewrite positions_map. simpl. apply sel_map.
  apply (wf_range _ _ Hwf).
Qed.

Lemma pset_map_wf : forall dims f g ps, pset_wf dims ps ->
  pset_ok dims (map f (ps_motif ps)) (map g (ps_cell ps)) -> pset_wf dims (pset_map f g ps).
Proof.
  intros dims f g ps [H1 H2 H3 H4 H5] H.
  split; rewrite ?positions_map, ?counts_map; simpl; rewrite ?map_length; auto.
Qed.

(** * Scaling *)
Section Scale.
  Variable c : R.
  Hypothesis Hc : 0 < c.
  Notation sc := (map (Rmult c)).

  Lemma map2_scale : forall (f : R -> R -> R) u v, (forall a b, f (c * a) (c * b) = c * f a b) ->
    map2 f (sc u) (sc v) = sc (map2 f u v).
  Proof. intros f u v H. revert v. induction u as [|a u IH]; intros [|b v]; simpl; auto. rewrite H, IH. auto. Qed.

  Lemma cheb_scale : forall u v, cheb (sc u) (sc v) = c * cheb u v.
  Proof.
    intros u v. unfold cheb. rewrite map2_scale.
    - generalize (map2 (fun a b : R => nabs (nsub a b)) u v) as l. intros l.
      replace (@n0 R NumR) with (c * @n0 R NumR) at 1 by (simpl; lra).
      generalize (@n0 R NumR) as a. induction l as [|b l IH]; intros a; auto. simpl.
      rewrite <- IH. f_equal. rewrite !nmax_Rmax. apply RmaxRmult. lra.
    - intros a b. rewrite !nabs_Rabs. simpl. replace (c * a - c * b) with (c * (a - b)) by ring.
      rewrite Rabs_mult, (Rabs_right c); lra.
  Qed.

  Lemma Rleb_scale : forall a b, Rleb (c * a) (c * b) = Rleb a b.
  Proof.
    intros a b. apply eq_true_iff_eq. rewrite !Rleb_true. split; intros H.
    - apply Rmult_le_reg_l with c; auto.
    - apply Rmult_le_compat_l; lra.
  Qed.
  Lemma Rltb_scale : forall a b, Rltb (c * a) (c * b) = Rltb a b.
  Proof.
    intros a b. apply eq_true_iff_eq. rewrite !Rltb_true. split; intros H.
    - apply Rmult_lt_reg_l with c; auto.
    - apply Rmult_lt_compat_l; lra.
  Qed.

  Lemma lexleb_scale : forall u v : list R, lexleb (sc u) (sc v) = lexleb u v.
  Proof.
    induction u as [|a u IH]; intros [|b v]; auto. simpl. rewrite !Rltb_scale, IH. auto.
  Qed.

  Lemma nth_sc : forall i (d : list (list R)), nth i (map sc d) [] = sc (nth i d []).
  Proof. intros. change (@nil R) with (sc []) at 1. apply map_nth. Qed.

  Lemma average_rows_scale : forall rows, average_rows (map sc rows) = sc (average_rows rows).
  Proof.
    intros [|r t]; auto. unfold average_rows.
    assert (E : forall j rows, nsum (col_of j (map sc rows)) = c * nsum (col_of j rows)).
    { intros j rows. rewrite !nsum_rsum. unfold col_of. rewrite map_map, <- (rsum_scale _ c). f_equal. apply map_ext. intros x.
      change (@n0 R NumR) with 0. rewrite <- (Rmult_0_r c) at 1. apply (map_nth (Rmult c)). }
    cbn [map]. rewrite map_length, map_map. apply map_ext. intros j. change (sc r :: map sc t) with (map sc (r :: t)). rewrite E, map_length.
    change (@ndiv R NumR) with Rdiv. unfold Rdiv. lra.
  Qed.

  Lemma collapse_rows_scale : forall w d collapse tol,
    collapse_rows w (map sc d) collapse (c * tol) =
    let '(w', d', g) := collapse_rows w d collapse tol in (w', map sc d', g).
  Proof.
    intros w d collapse tol. unfold collapse_rows. rewrite map_length.
    assert (E : condensed (fun i j => nleb (cheb (nth i (map sc d) []) (nth j (map sc d) [])) (c * tol)) (length d) =
                condensed (fun i j => nleb (cheb (nth i d []) (nth j d [])) tol) (length d)).
    { unfold condensed. apply map_ext. intros [i j]. rewrite !nth_sc, cheb_scale. simpl. apply Rleb_scale. }
    rewrite E. destruct (collapse && _)%bool; auto. f_equal. f_equal.
    rewrite map_map. apply map_ext. intros g. rewrite <- average_rows_scale, map_map. f_equal.
    apply map_ext. intros i. apply nth_sc.
  Qed.

  Lemma isort_ext : forall A (f g : A -> A -> bool) l, (forall a b, f a b = g a b) -> isort f l = isort g l.
  Proof.
    intros A f g l H. induction l as [|a l IH]; auto. simpl. rewrite IH. clear IH.
    generalize (isort g l) as s. induction s as [|b s IHs]; auto. simpl. rewrite H, IHs. auto.
  Qed.

  Lemma assemble_scale : forall w d g lexsort,
    assemble (w, map sc d, g) lexsort =
    let '(p, gs) := assemble (w, d, g) lexsort in (map (fun a => (fst a, sc (snd a))) p, gs).
  Proof.
    intros w d g lexsort. unfold assemble. rewrite map_length.
    assert (E : lex_ordering (map sc d) = lex_ordering d).
    { unfold lex_ordering. rewrite map_length. apply isort_ext. intros. rewrite !nth_sc. apply lexleb_scale. }
    rewrite E. f_equal. rewrite map_map. apply map_ext. intros i. rewrite nth_sc. auto.
  Qed.

  Lemma nth_sc0 : forall j (r : list R), nth j (sc r) 0 = c * nth j r 0.
  Proof. intros. replace 0 with (c * 0) at 1 by lra. apply map_nth. Qed.

  Lemma wmean_rows_scale : forall w rows j, wmean w (map sc rows) j = c * wmean w rows j.
  Proof.
    intros w rows j. unfold wmean. rewrite combine_map_r, map_map. simpl.
    rewrite (map_ext _ (fun p => c * (fst p * nth j (snd p) 0))).
    - rewrite rsum_scale. unfold Rdiv. lra.
    - intros [a r]. simpl. rewrite nth_sc0. lra.
  Qed.

  Lemma tl_sc : forall rows, map (@tl R) (map sc rows) = map sc (map (@tl R) rows).
  Proof. intros. rewrite !map_map. apply map_ext. intros [|a r]; auto. Qed.
End Scale.

(** * Reordering *)
Lemma rsum_combine_perm : forall A (f : A -> R) l l', Permutation l l' -> rsum (map f l) = rsum (map f l').
Proof. intros. apply rsum_perm, Permutation_map. auto. Qed.

Lemma combine_map_l : forall A B C (f : A -> C) (l1 : list A) (l2 : list B),
  combine (map f l1) l2 = map (fun p => (f (fst p), snd p)) (combine l1 l2).
Proof. induction l1; destruct l2; simpl; auto. f_equal; auto. Qed.

Lemma combine_swap : forall A B (l1 : list A) (l2 : list B),
  combine l2 l1 = map (fun p => (snd p, fst p)) (combine l1 l2).
Proof. induction l1; destruct l2; simpl; auto. f_equal; auto. Qed.

Lemma map_fst_combine : forall A B (l1 : list A) (l2 : list B), length l1 = length l2 -> map fst (combine l1 l2) = l1.
Proof. induction l1; destruct l2; simpl; intros; try lia; auto. f_equal. apply IHl1. lia. Qed.
Lemma map_snd_combine : forall A B (l1 : list A) (l2 : list B), length l1 = length l2 -> map snd (combine l1 l2) = l2.
Proof. induction l1; destruct l2; simpl; intros; try lia; auto. f_equal. apply IHl1. lia. Qed.

(** Two descriptions of the rows: same points with the same counts, in any order. *)
Definition same_query (ps ps' : pset R) : Prop :=
  Permutation (combine (points_of ps) (counts_of ps)) (combine (points_of ps') (counts_of ps')).

Section Reorder.
  Variables (dims : nat) (ps ps' : pset R).
  Hypothesis Hwf : pset_wf dims ps.
  Hypothesis Hwf' : pset_wf dims ps'.
  Hypothesis Hmotif : Permutation (ps_motif ps) (ps_motif ps').
  Hypothesis Hcell : ps_cell ps = ps_cell ps'.
  Hypothesis Hq : same_query ps ps'.

  Lemma points_perm : Permutation (points_of ps) (points_of ps').
  Proof.
    rewrite <- (map_fst_combine _ _ (points_of ps) (counts_of ps)) by (apply (points_length _ _ Hwf)).
    rewrite <- (map_fst_combine _ _ (points_of ps') (counts_of ps')) by (apply (points_length _ _ Hwf')).
    apply Permutation_map. auto.
  Qed.

  Lemma nn_reorder : forall fuel k,
    (nearest_neighbors fuel (ps_motif ps) (ps_cell ps) (points_of ps) (S k) = OutOfFuel /\
     nearest_neighbors fuel (ps_motif ps') (ps_cell ps') (points_of ps') (S k) = OutOfFuel) \/
    exists f, nearest_neighbors fuel (ps_motif ps) (ps_cell ps) (points_of ps) (S k) = Done (map f (points_of ps)) /\
     nearest_neighbors fuel (ps_motif ps') (ps_cell ps') (points_of ps') (S k) = Done (map f (points_of ps')).
  Proof.
    intros. rewrite <- Hcell. apply (C12_reordering dims); auto using points_perm.
    - apply (wf_ok _ _ Hwf).
    - apply (points_incl _ _ Hwf).
    - apply (points_nonempty _ _ Hwf).
  Qed.

  Lemma weighted_rows_perm : forall f : list R -> list R,
    Permutation (combine (weights_of ps) (map f (points_of ps))) (combine (weights_of ps') (map f (points_of ps'))).
  Proof.
    intros f. unfold weights_of. rewrite (Permutation_length Hmotif).
    set (g := fun c : nat => INR c / INR (length (ps_motif ps'))).
    assert (E : forall q, combine (map g (counts_of q)) (map f (points_of q)) =
       map (fun p => (g (snd p), f (fst p))) (combine (points_of q) (counts_of q))).
    { intros q. rewrite combine_map_l, combine_map_r, map_map, combine_swap, map_map. auto. }
    rewrite !E. apply Permutation_map. auto.
  Qed.

  Lemma counted_rows_perm : forall f : list R -> list R,
    Permutation (combine (map INR (counts_of ps)) (map f (points_of ps)))
                (combine (map INR (counts_of ps')) (map f (points_of ps'))).
  Proof.
    intros f.
    assert (E : forall q, combine (map INR (counts_of q)) (map f (points_of q)) =
       map (fun p => (INR (snd p), f (fst p))) (combine (points_of q) (counts_of q))).
    { intros q. rewrite combine_map_l, combine_map_r, map_map, combine_swap, map_map. auto. }
    rewrite !E. apply Permutation_map. auto.
  Qed.

  Lemma counts_perm : Permutation (counts_of ps) (counts_of ps').
  Proof.
    rewrite <- (map_snd_combine _ _ (points_of ps) (counts_of ps)) by (apply (points_length _ _ Hwf)).
    rewrite <- (map_snd_combine _ _ (points_of ps') (counts_of ps')) by (apply (points_length _ _ Hwf')).
    apply Permutation_map. auto.
  Qed.

  Theorem AMD_reorder : forall fuel k, AMD fuel ps k = AMD fuel ps' k.
  Proof.
    intros fuel k. rewrite (AMD_run dims ps Hwf), (AMD_run dims ps' Hwf').
    destruct (nn_reorder fuel k) as [[-> ->]|(f & -> & ->)]; auto. simpl. f_equal.
    unfold amd_of. apply map_ext. intros j. unfold wmean.
    rewrite (rsum_perm _ _ (Permutation_map INR counts_perm)). f_equal.
    rewrite !map_map. apply (rsum_perm _ _ (Permutation_map _ (counted_rows_perm (fun p => tl (f p))))).
  Qed.
End Reorder.
