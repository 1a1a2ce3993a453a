(** The distances of C25 to C33 between PDDs as calculate.py returns them. *)
From Coq Require Import List ZArith Arith Bool Reals Lia Lra Permutation Sorted.
From Verif Require Import Num Outcome Base Spec SpecGeom SpecCalc NNModel VecR CalcModel CalcProofs CalcProofs2 Line Props_NN Props_Calc.
From Verif Require Import Sums SpecEmd EmdReal EmdTop Props_Emd.
Import ListNotations.
Open Scope R_scope.

(** The array with the weights in column 0, calculate.py:200-210. *)
Definition pdd_array (pdd : list (R * list R)) : list (list R) := map (fun r => fst r :: snd r) pdd.

Lemma pdd_array_nth : forall pdd i, (i < length pdd)%nat ->
  nth i (pdd_array pdd) [] = fst (nth i pdd (0, [])) :: snd (nth i pdd (0, [])).
Proof.
  intros pdd i H. unfold pdd_array. rewrite (nth_indep _ [] ((fun r : R * list R => fst r :: snd r) (0, []))) by now rewrite map_length.
  exact (map_nth (fun r : R * list R => fst r :: snd r) pdd (0, []) i).
Qed.

Lemma Sum_shift : forall k f, Sum (S k) f = f 0%nat + Sum k (fun i => f (S i)).
Proof.
  induction k as [|k IH]; intros f; [cbn; lra|].
  change (Sum (S (S k)) f) with (Sum (S k) f + f (S k)). rewrite IH. cbn [Sum]. lra.
Qed.

Lemma Sum_list : forall (A : Type) (l : list A) (d : A) (f : A -> R), Sum (length l) (fun i => f (nth i l d)) = rsum (map f l).
Proof.
  induction l as [|a l IH]; intros d f; [reflexivity|]. cbn [length]. rewrite Sum_shift. cbn [nth map]. rewrite IH. reflexivity.
Qed.

Lemma pdd_total : forall pdd, Sum (length (pdd_array pdd)) (fun i => mx (pdd_array pdd) i 0) = rsum (map fst pdd).
Proof.
  intros pdd. unfold pdd_array at 1. rewrite map_length. rewrite <- (Sum_list _ pdd (0, []) fst). apply Sum_ext. intros i Hi.
  unfold mx. now rewrite pdd_array_nth.
Qed.

Lemma rsum_ge : forall m l, 0 <= m -> l <> [] -> Forall (fun x => m <= x) l -> m <= rsum l.
Proof.
  intros m [|a l] Hm Hl F; [congruence|]. inversion F as [|? ? H1 H2]. subst. unfold rsum. cbn [fold_right].
  assert (0 <= fold_right Rplus 0 l); [|lra]. clear - H2 Hm. induction H2; cbn [fold_right]; lra.
Qed.

(** A PDD satisfies the hypotheses of C25 to C33 when the motif has at most 10^8 points. *)
Theorem C32_pdd_weights : forall dims ps k fuel lexsort collapse tol pdd groups,
  pset_wf dims ps -> (Z.of_nat (length (ps_motif ps)) <= 100000000)%Z ->
  PDD fuel ps k lexsort collapse tol = Done (pdd, groups) -> pdd_like k (pdd_array pdd).
Proof.
  intros dims ps k fuel lexsort collapse tol pdd groups Hwf Hm E.
  destruct (C14_pdd_is_distribution _ _ _ _ _ _ _ _ _ Hwf E) as ((HF & HS) & Hne & _).
  destruct (C19_groups_identify_rows _ _ _ _ _ _ _ _ _ Hwf E) as (full & idx & _ & _ & Hlen & Hrow & HP & H2).
  assert (Hpos : forall i, In i (concat groups) -> 1 / 100000000 <= fst (nth i full (0, []))).
  { intros i Hi. assert (Hi' : (i < length full)%nat).
    { apply (Permutation_in _ HP) in Hi. apply in_seq in Hi. lia. }
    destruct (Hrow i Hi') as [-> _]. pose proof (wf_pos _ _ Hwf) as W. rewrite Forall_forall in W.
    assert (C1 : (1 <= nth i (counts_of ps) 0)%nat).
    { apply W, nth_In. rewrite <- (wf_len _ _ Hwf). lia. }
    assert (Hsum : (1 <= length (ps_motif ps))%nat).
    { rewrite <- (wf_sum _ _ Hwf). assert (In (nth i (counts_of ps) 0%nat) (counts_of ps)) as HIn
        by (apply nth_In; rewrite <- (wf_len _ _ Hwf); lia).
      revert HIn C1. generalize (nth i (counts_of ps) 0%nat). clear. intros n HIn C1. induction (counts_of ps) as [|a l IH]; [destruct HIn|]. simpl. destruct HIn as [->|HIn]; [lia|].
      specialize (IH HIn). lia. }
    assert (M1 : 0 < INR (length (ps_motif ps))) by (apply lt_0_INR; lia).
    assert (M2 : INR (length (ps_motif ps)) <= 100000000) by (rewrite INR_IZR_INZ; apply IZR_le; lia).
    apply le_INR in C1. change (INR 1) with 1 in C1.
    apply Rmult_le_reg_r with (INR (length (ps_motif ps))); [auto|].
    unfold Rdiv at 2. rewrite Rmult_assoc, Rinv_l by lra. lra. }
  constructor.
  - intros E0. apply Hne. destruct pdd; [auto|discriminate].
  - unfold pdd_array. apply Forall_forall. intros r Hr. apply in_map_iff in Hr as (x & <- & Hx).
    rewrite Forall_forall in HF. destruct (HF x Hx) as (_ & L & _). cbn [length]. now rewrite L.
  - unfold pdd_array. apply Forall_map. cbn [nth].
    assert (Q : forall g, incl (concat g) (concat groups) -> forall p, Forall2 (fun p g =>
       g <> [] /\
       fst p = rsum (map (fun i => fst (nth i full (0, []))) g) /\
       snd p = map (mean (map (fun i => snd (nth i full (0, []))) g)) (seq 0 k) /\
       (collapse = false -> exists i, g = [i]) /\
       (forall i, In i g -> i <> hd 0%nat g ->
          close_rows tol (snd (nth (hd 0%nat g) full (0, []))) (snd (nth i full (0, []))))) p g ->
       Forall (fun x : R * list R => 1 / 100000000 <= fst x) p).
    { intros g Hg p F. induction F as [|x g1 p g (G1 & G2 & _) F IH]; constructor.
      - rewrite G2. apply rsum_ge; [lra| |].
        + destruct g1; [congruence|discriminate].
        + apply Forall_forall. intros y Hy. apply in_map_iff in Hy as (i & <- & Hi). apply Hpos, Hg. cbn [concat].
          apply in_or_app. auto.
      - apply IH. intros y Hy. apply Hg. cbn [concat]. apply in_or_app. auto. }
    apply (Q groups); auto. apply incl_refl.
  - rewrite pdd_total. exact HS.
Qed.

Lemma wmean_row : forall k pdd j, Forall (fun p : R * list R => length (snd p) = k) pdd -> rsum (map fst pdd) = 1 -> (j < k)%nat ->
  nth j (PDD_to_AMD k pdd) 0 = row_mean (pdd_array pdd) j.
Proof.
  intros k pdd j HF HS Hj. rewrite PDD_to_AMD_eq by auto.
  rewrite (nth_indep _ 0 (wmean (map fst pdd) (map snd pdd) 0)) by (now rewrite map_length, seq_length).
  rewrite (map_nth (wmean (map fst pdd) (map snd pdd))). rewrite seq_nth by auto. cbn [Nat.add].
  unfold wmean. rewrite HS. unfold row_mean, pdd_array at 1. rewrite map_length.
  unfold Rdiv. rewrite Rinv_1, Rmult_1_r. transitivity (rsum (map (fun r => fst r * nth j (snd r) 0) pdd)).
  - f_equal. clear. induction pdd as [|r p IH]; [reflexivity|]. cbn [map combine]. now rewrite IH.
  - rewrite <- (Sum_list _ pdd (0, []) (fun r => fst r * nth j (snd r) 0)). apply Sum_ext. intros i Hi.
    unfold mx. now rewrite pdd_array_nth.
Qed.

(** The AMDs of two crystals differ by at most the EMD of their (uncollapsed) PDDs, up to the
    accuracy of the latter. *)
Theorem C30_amd_below_emd : forall dims ps ps' k fuel lex lex' tol tol' pdd pdd' g g' a a' fe v plan d dmax j,
  pset_wf dims ps -> pset_wf dims ps' ->
  (Z.of_nat (length (ps_motif ps)) <= 100000000)%Z -> (Z.of_nat (length (ps_motif ps')) <= 100000000)%Z ->
  PDD fuel ps k lex false tol = Done (pdd, g) -> PDD fuel ps' k lex' false tol' = Done (pdd', g') ->
  AMD fuel ps k = Done a -> AMD fuel ps' k = Done a' ->
  row_distance k (pdd_array pdd) (pdd_array pdd') d ->
  below_cap (length pdd) (length pdd') (fun _ _ => dmax) d -> (j < k)%nat ->
  EMD fe (pdd_array pdd) (pdd_array pdd') = Done (v, plan) ->
  Rabs (nth j a 0 - nth j a' 0) <= v + accuracy (length pdd) (length pdd') dmax.
Proof.
  intros dims ps ps' k fuel lex lex' tol tol' pdd pdd' g g' a a' fe v plan d dmax j W W' M M' E E' A A' D B Hj EE.
  pose proof (C32_pdd_weights _ _ _ _ _ _ _ _ _ W M E) as P. pose proof (C32_pdd_weights _ _ _ _ _ _ _ _ _ W' M' E') as P'.
  rewrite (C15_average_exact _ _ _ _ _ _ _ _ _ W (or_introl eq_refl) E) in A.
  rewrite (C15_average_exact _ _ _ _ _ _ _ _ _ W' (or_introl eq_refl) E') in A'.
  injection A as <-. injection A' as <-.
  destruct (C14_pdd_is_distribution _ _ _ _ _ _ _ _ _ W E) as ((HF & HS) & _).
  destruct (C14_pdd_is_distribution _ _ _ _ _ _ _ _ _ W' E') as ((HF' & HS') & _).
  rewrite !(wmean_row k); auto.
  - pose proof (C30_average_below_value k _ _ d dmax fe v plan j P P' D) as Q. unfold pdd_array in Q at 1 2 7 8.
    rewrite !map_length in Q. auto.
  - eapply Forall_impl; [|exact HF']. cbn. tauto.
  - eapply Forall_impl; [|exact HF]. cbn. tauto.
Qed.

Example C30_pdd_case : exists fuel pdd pdd' g g' a a' fe v plan d dmax,
  pset_wf 1 (sym_pset 1) /\ pset_wf 1 (sym_pset 2) /\
  PDD fuel (sym_pset 1) 1 false false 1 = Done (pdd, g) /\ PDD fuel (sym_pset 2) 1 false false 2 = Done (pdd', g') /\
  AMD fuel (sym_pset 1) 1 = Done a /\ AMD fuel (sym_pset 2) 1 = Done a' /\
  row_distance 1 (pdd_array pdd) (pdd_array pdd') d /\ below_cap (length pdd) (length pdd') (fun _ _ => dmax) d /\
  EMD fe (pdd_array pdd) (pdd_array pdd') = Done (v, plan).
Proof.
  assert (T : forall t, 0 < t -> exists f0 pdd g a, pset_wf 1 (sym_pset t) /\ forall fuel, (f0 <= fuel)%nat ->
    PDD fuel (sym_pset t) 1 false false t = Done (pdd, g) /\ AMD fuel (sym_pset t) 1 = Done a).
  { intros t Ht. assert (W : pset_wf 1 (sym_pset t)) by now apply sym_wf.
    assert (N : nonsingular 1 (ps_cell (sym_pset t))) by (apply line_nonsingular; lra).
    destruct (C09_terminates 1 (ps_motif (sym_pset t)) (ps_cell (sym_pset t)) (points_of (sym_pset t)) 1 (wf_ok _ _ W) N
      (points_incl _ _ W) (points_nonempty _ _ W)) as (rows & f0 & H).
    destruct (assemble (collapse_rows (CalcProofs2.weights_of (sym_pset t)) (map (@tl R) rows) false t) false) as [pdd g] eqn:EA.
    exists f0, pdd, g, (amd_of (sym_pset t) 1 rows). split; [auto|]. intros fuel Hf. destruct (H fuel) as [H1 _].
    rewrite (AMD_run 1 _ W), (PDD_run 1 _ W), (H1 Hf). cbn [obind]. rewrite <- EA. auto. }
  destruct (T 1 ltac:(lra)) as (f1 & pdd & g & a & W & H1). destruct (T 2 ltac:(lra)) as (f2 & pdd' & g' & a' & W' & H2).
  destruct (H1 (f1 + f2)%nat ltac:(lia)) as [E A]. destruct (H2 (f1 + f2)%nat ltac:(lia)) as [E' A'].
  pose proof (C32_pdd_weights _ _ _ _ _ _ _ _ _ W ltac:(cbn; lia) E) as P.
  pose proof (C32_pdd_weights _ _ _ _ _ _ _ _ _ W' ltac:(cbn; lia) E') as P'.
  destruct (EMD_returns 1 _ _ P P') as (v & plan & F & HE). pose proof (dm_dist 1 _ _ P P') as D.
  exists (f1 + f2)%nat, pdd, pdd', g, g', a, a', F, v, plan. eexists.
  exists (Sum (length (pdd_array pdd)) (fun i => Sum (length (pdd_array pdd')) (fun j => mx (dm (pdd_array pdd) (pdd_array pdd')) i j))).
  repeat (split; [eassumption|]). split; [|auto].
  pose proof (d_pos 1 _ _ _ D) as DP. unfold pdd_array in DP at 1 2. unfold pdd_array at 1 2. rewrite !map_length in *.
  intros i j Hi Hj. eapply Rle_trans; [|apply (Sum_ge_one (length pdd) _ i); auto].
  - cbv beta. apply (Sum_ge_one (length pdd') (fun j => mx (dm (pdd_array pdd) (pdd_array pdd')) i j)); auto.
  - intros i' Hi'. apply Sum_nonneg. auto.
Qed.

Print Assumptions C32_pdd_weights.
Print Assumptions C30_amd_below_emd.
