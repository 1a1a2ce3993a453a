(** Properties C10-C12, C16, C20, C21 for AMD and PDD. *)
From Coq Require Import List ZArith Arith Bool Lia Reals Lra Permutation Sorted.
From Verif Require Import Num Base Spec SpecGeom SpecCalc Outcome Condensed CollapseModel CollapseProofs
  Props_Collapse NNModel VecR NNProofs NNSpecProofs NNComplete NNInvariance Props_NN CalcModel CalcProofs
  CalcProofs2 CalcCanon CalcInv Line Props_Calc.
Import ListNotations.
Open Scope R_scope.

(** ** C10 *)
Definition move dims cols t (ps : pset R) : pset R := pset_map (rigid dims cols t) (lin_map dims cols) ps.

Lemma move_nn : forall dims cols t ps k fuel, pset_wf dims ps ->
  length cols = dims -> dual_basis dims cols cols -> length t = dims ->
  pset_wf dims (move dims cols t ps) /\
  nearest_neighbors fuel (ps_motif (move dims cols t ps)) (ps_cell (move dims cols t ps))
    (points_of (move dims cols t ps)) (S k) =
  nearest_neighbors fuel (ps_motif ps) (ps_cell ps) (points_of ps) (S k).
Proof.
  intros dims cols t ps k fuel Hwf Hcols Hd Ht. split.
  - apply pset_map_wf; auto. apply pset_ok_rigid, (wf_ok _ _ Hwf).
  - unfold move. rewrite (points_map dims) by auto. simpl. apply C10_isometry_invariant; auto.
    + apply (wf_ok _ _ Hwf).
    + apply (points_incl _ _ Hwf).
    + apply (points_nonempty _ _ Hwf).
Qed.

Theorem C10_amd_isometry : forall dims cols t ps k fuel, pset_wf dims ps ->
  length cols = dims -> dual_basis dims cols cols -> length t = dims ->
  AMD fuel (move dims cols t ps) k = AMD fuel ps k.
Proof.
  intros dims cols t ps k fuel Hwf Hcols Hd Ht.
  destruct (move_nn dims cols t ps k fuel Hwf Hcols Hd Ht) as [Hwf' E].
  rewrite (AMD_run dims _ Hwf'), (AMD_run dims _ Hwf), E. unfold amd_of, move. rewrite counts_map. auto.
Qed.

Theorem C10_pdd_isometry : forall dims cols t ps k fuel lexsort collapse tol, pset_wf dims ps ->
  length cols = dims -> dual_basis dims cols cols -> length t = dims ->
  PDD fuel (move dims cols t ps) k lexsort collapse tol = PDD fuel ps k lexsort collapse tol.
Proof.
  intros dims cols t ps k fuel lexsort collapse tol Hwf Hcols Hd Ht.
  destruct (move_nn dims cols t ps k fuel Hwf Hcols Hd Ht) as [Hwf' E].
  rewrite (PDD_run dims _ Hwf'), (PDD_run dims _ Hwf), E. unfold weights_of, move. rewrite counts_map.
  simpl. rewrite map_length. auto.
Qed.

(** ** C11 *)
Definition scaled c (ps : pset R) : pset R := pset_map (map (Rmult c)) (map (Rmult c)) ps.

Lemma scaled_nn : forall dims c ps k fuel, 0 < c -> pset_wf dims ps ->
  pset_wf dims (scaled c ps) /\
  nearest_neighbors fuel (ps_motif (scaled c ps)) (ps_cell (scaled c ps)) (points_of (scaled c ps)) (S k) =
  obind (nearest_neighbors fuel (ps_motif ps) (ps_cell ps) (points_of ps) (S k))
    (fun rows => Done (map (map (Rmult c)) rows)).
Proof.
  intros dims c ps k fuel Hc Hwf. split.
  - apply pset_map_wf; auto. apply pset_ok_scaled, (wf_ok _ _ Hwf).
  - unfold scaled. rewrite (points_map dims) by auto. simpl.
    destruct (C11_scaling dims c (ps_motif ps) (ps_cell ps) (points_of ps) k fuel Hc (wf_ok _ _ Hwf)
      (points_incl _ _ Hwf) (points_nonempty _ _ Hwf)) as [[-> ->]|(rows & -> & ->)]; auto.
Qed.

Theorem C11_amd_scaling : forall dims c ps k fuel, 0 < c -> pset_wf dims ps ->
  AMD fuel (scaled c ps) k = obind (AMD fuel ps k) (fun a => Done (map (Rmult c) a)).
Proof.
  intros dims c ps k fuel Hc Hwf. destruct (scaled_nn dims c ps k fuel Hc Hwf) as [Hwf' E].
  rewrite (AMD_run dims _ Hwf'), (AMD_run dims _ Hwf), E.
  destruct (nearest_neighbors fuel (ps_motif ps) (ps_cell ps) (points_of ps) (S k)) as [rows| | |]; auto.
  simpl. f_equal. unfold amd_of, scaled. rewrite tl_sc, counts_map, (map_map (wmean _ _) (Rmult c)).
  apply map_ext. intros j. apply wmean_rows_scale.
Qed.

Theorem C11_pdd_scaling : forall dims c ps k fuel lexsort collapse tol, 0 < c -> pset_wf dims ps ->
  PDD fuel (scaled c ps) k lexsort collapse (c * tol) =
  obind (PDD fuel ps k lexsort collapse tol)
    (fun pg => Done (map (fun p => (fst p, map (Rmult c) (snd p))) (fst pg), snd pg)).
Proof.
  intros dims c ps k fuel lexsort collapse tol Hc Hwf.
  destruct (scaled_nn dims c ps k fuel Hc Hwf) as [Hwf' E].
  rewrite (PDD_run dims _ Hwf'), (PDD_run dims _ Hwf), E.
  destruct (nearest_neighbors fuel (ps_motif ps) (ps_cell ps) (points_of ps) (S k)) as [rows| | |]; auto.
  cbn [obind]. f_equal. rewrite tl_sc, collapse_rows_scale by auto.
  assert (Ew : weights_of (scaled c ps) = weights_of ps).
  { unfold weights_of, scaled. rewrite counts_map. simpl ps_motif. rewrite map_length. auto. }
  rewrite Ew.
  destruct (collapse_rows (weights_of ps) (map (@tl R) rows) collapse tol) as [[w d] g].
  rewrite assemble_scale by auto. destruct (assemble (w, d, g) lexsort) as [p gs]. auto.
Qed.

(** ** C12 *)
Theorem C12_amd_reordering : forall dims motif motif' cell k fuel,
  pset_ok dims motif cell -> Permutation motif motif' ->
  AMD fuel {| ps_motif := motif; ps_cell := cell; ps_asym := None; ps_mult := None |} k =
  AMD fuel {| ps_motif := motif'; ps_cell := cell; ps_asym := None; ps_mult := None |} k.
Proof.
  intros dims motif motif' cell k fuel Hok HP.
  assert (Hok' : pset_ok dims motif' cell).
  { destruct Hok as [H1 H2 H3 H4 H5]. split; auto.
    - intros ->. apply Permutation_sym, Permutation_nil in HP. congruence.
    - rewrite Forall_forall in H3 |- *. intros p Hp. apply H3. eapply Permutation_in; [|exact Hp].
      apply Permutation_sym, HP. }
  apply (AMD_reorder dims); auto using pset_wf_no_asym.
  unfold same_query, points_of, positions_of, counts_of. simpl. rewrite !map_nth_seq.
  assert (E : forall l : list (list R), combine l (repeat 1%nat (length l)) = map (fun p => (p, 1%nat)) l).
  { induction l; simpl; congruence. }
  assert (E' : forall l : list (vec R), combine l (repeat 1%nat (length l)) = map (fun p => (p, 1%nat)) l) by exact E.
  rewrite !E'. apply Permutation_map, HP.
Qed.

(** More generally the points of the asymmetric unit may be listed in any order along with
    their multiplicities. *)
Theorem C12_amd_reordering_asym : forall dims ps ps' k fuel,
  pset_wf dims ps -> pset_wf dims ps' -> Permutation (ps_motif ps) (ps_motif ps') -> ps_cell ps = ps_cell ps' ->
  Permutation (combine (points_of ps) (counts_of ps)) (combine (points_of ps') (counts_of ps')) ->
  AMD fuel ps k = AMD fuel ps' k.
Proof. intros. eapply AMD_reorder; eauto. Qed.

(** The uncollapsed PDD, sorted or not. *)
Lemma assemble_plain : forall w d kk lexsort tol, length w = length d -> Forall (fun r => length r = kk) d ->
  Permutation (combine w d) (fst (assemble (collapse_rows w d false tol) lexsort)) /\
  (lexsort = true -> StronglySorted lex_le (map snd (fst (assemble (collapse_rows w d false tol) lexsort)))).
Proof.
  intros w d kk lexsort tol L D.
  assert (E : fst (assemble (collapse_rows w d false tol) false) = combine w d).
  { simpl. apply (nth_ext _ _ (0, []) (0, [])).
    - rewrite map_length, seq_length, combine_length. lia.
    - rewrite map_length, seq_length. intros i Hi.
      rewrite (nth_map_seq (fun i => (nth i w 0, nth i d []))) by auto. rewrite combine_nth; auto. }
  destruct (assemble_spec w d kk L D lexsort false tol) as (g0 & g & E1 & E0 & HG & HP & HS).
  rewrite E0 in E. rewrite E1. simpl in *. rewrite <- E. split; auto. apply Permutation_map, HP.
Qed.

Lemma lex_sorted_unique : forall kk (l l' : list (list R)), Forall (fun r => length r = kk) l ->
  Permutation l l' -> StronglySorted lex_le l -> StronglySorted lex_le l' -> l = l'.
Proof.
  intros kk l l' L HP S S'. revert l' HP S'.
  induction S as [|u l S IH HF]; intros l' HP S'.
  - apply Permutation_nil in HP. auto.
  - inversion L as [|? ? L1 L2]. subst. destruct S' as [|v l' S' HF'].
    + apply Permutation_sym, Permutation_nil in HP. discriminate.
    + assert (u = v).
      { assert (Hu : In u (v :: l')) by (eapply Permutation_in; [exact HP|simpl; auto]).
        assert (Hv : In v (u :: l)) by (eapply Permutation_in; [apply Permutation_sym; exact HP|simpl; auto]).
        destruct Hu as [Hu|Hu]; auto. destruct Hv as [Hv|Hv]; auto.
        rewrite Forall_forall in HF, HF', L2. apply lex_le_antisym; auto. rewrite (L2 v); auto. }
      subst v. f_equal. apply IH; auto. eapply Permutation_cons_inv; eauto.
Qed.

Lemma combine_const : forall (p : list (R * list R)) c, Forall (fun a => fst a = c) p ->
  p = map (fun r => (c, r)) (map snd p).
Proof. induction 1 as [|[w r] p Hw H IH]; simpl in *; auto. congruence. Qed.

Theorem C12_pdd_reordering : forall dims motif motif' cell k fuel lexsort tol pdd groups,
  pset_ok dims motif cell -> Permutation motif motif' ->
  PDD fuel {| ps_motif := motif; ps_cell := cell; ps_asym := None; ps_mult := None |} k lexsort false tol
    = Done (pdd, groups) ->
  exists pdd' groups',
    PDD fuel {| ps_motif := motif'; ps_cell := cell; ps_asym := None; ps_mult := None |} k lexsort false tol
      = Done (pdd', groups') /\
    Permutation pdd pdd' /\ (lexsort = true -> pdd = pdd').
Proof.
  intros dims motif motif' cell k fuel lexsort tol pdd groups Hok HP E.
  assert (Hok' : pset_ok dims motif' cell).
  { destruct Hok as [H1 H2 H3 H4 H5]. split; auto.
    - intros ->. apply Permutation_sym, Permutation_nil in HP. congruence.
    - rewrite Forall_forall in H3 |- *. intros p Hp. apply H3. eapply Permutation_in; [|exact Hp].
      apply Permutation_sym, HP. }
  set (ps := {| ps_motif := motif; ps_cell := cell; ps_asym := None; ps_mult := None |}) in *.
  set (ps' := {| ps_motif := motif'; ps_cell := cell; ps_asym := None; ps_mult := None |}).
  assert (Hwf : pset_wf dims ps) by (apply pset_wf_no_asym; auto).
  assert (Hwf' : pset_wf dims ps') by (apply pset_wf_no_asym; auto).
  assert (Hq : same_query ps ps').
  { unfold same_query, points_of, positions_of, counts_of. simpl. rewrite !map_nth_seq.
    assert (Ec : forall l : list (vec R), combine l (repeat 1%nat (length l)) = map (fun p => (p, 1%nat)) l).
    { induction l; simpl; congruence. }
    rewrite !Ec. apply Permutation_map, HP. }
  destruct (PDD_Done _ _ _ _ _ _ _ _ Hwf E) as (rows & En & Hr & Hl & Hk & Ea).
  destruct (nn_reorder dims ps ps' Hwf Hwf' HP eq_refl Hq fuel k) as [[En' _]|(f & En1 & En2)];
    [rewrite En in En'; discriminate|].
  rewrite En in En1. injection En1 as ->.
  destruct (PDD fuel ps' k lexsort false tol) as [[pdd' groups']| | |] eqn:E';
    rewrite (PDD_run dims ps' Hwf'), En2 in E'; try discriminate E'.
  exists pdd', groups'. split; auto. cbn [obind] in E'.
  assert (Ea' : assemble (collapse_rows (weights_of ps') (map (tl (A:=R)) (map f (points_of ps'))) false tol) lexsort = (pdd', groups')) by congruence.
  pose proof (nn_rows_ok _ _ Hwf' _ _ _ En2) as Hr'.
  assert (Hl' : length (weights_of ps') = length (map (tl (A:=R)) (map f (points_of ps')))).
  { rewrite (weights_length dims ps' Hwf'), !map_length. auto. }
  assert (Hk' : Forall (fun r => length r = k) (map (tl (A:=R)) (map f (points_of ps')))).
  { eapply Forall_impl; [|apply (tl_rows ps' k _ Hr')]. simpl. tauto. }
  destruct (assemble_plain _ _ _ lexsort tol Hl Hk) as [P1 S1].
  destruct (assemble_plain _ _ _ lexsort tol Hl' Hk') as [P2 S2].
  rewrite <- Ea in P1, S1. rewrite Ea' in P2, S2. simpl in P1, P2, S1, S2.
  assert (PP : Permutation pdd pdd').
  { rewrite <- P1, <- P2. rewrite !(map_map f).
    apply (weighted_rows_perm ps ps' HP Hq (fun p => tl (f p))). }
  split; auto. intros ->.
  assert (Hw : forall q, In q pdd -> fst q = 1 / INR (length motif) /\ length (snd q) = k).
  { intros [a r] Hin. eapply Permutation_in in Hin; [|apply Permutation_sym; exact P1]. split.
    - apply in_combine_l in Hin. unfold weights_of, counts_of in Hin. simpl in Hin.
      apply in_map_iff in Hin as (c & <- & Hc). apply repeat_spec in Hc. subst c. auto.
    - apply in_combine_r in Hin. rewrite Forall_forall in Hk. auto. }
  rewrite (combine_const pdd (1 / INR (length motif))), (combine_const pdd' (1 / INR (length motif))).
  - f_equal. apply (lex_sorted_unique k); auto using Permutation_map.
    apply Forall_forall. intros r Hin. apply in_map_iff in Hin as (q & <- & Hin). apply Hw; auto.
  - apply Forall_forall. intros q Hin. apply Hw. eapply Permutation_in; [apply Permutation_sym; exact PP|auto].
  - apply Forall_forall. intros q Hin. apply Hw; auto.
Qed.

(** ** C20, positive part *)
(** The collapsed, sorted PDD does not depend on the order of the points when rows of the
    uncollapsed PDD within the tolerance of each other are equal. *)
Theorem C20_separated_rows : forall dims ps ps' k fuel tol full idx,
  pset_wf dims ps -> pset_wf dims ps' -> Permutation (ps_motif ps) (ps_motif ps') -> ps_cell ps = ps_cell ps' ->
  Permutation (combine (points_of ps) (counts_of ps)) (combine (points_of ps') (counts_of ps')) ->
  0 <= tol ->
  PDD fuel ps k false false tol = Done (full, idx) ->
  (forall u v, In u (map snd full) -> In v (map snd full) -> close_rows tol u v -> u = v) ->
  exists pdd groups groups', PDD fuel ps k true true tol = Done (pdd, groups) /\
    PDD fuel ps' k true true tol = Done (pdd, groups').
Proof.
  intros dims ps ps' k fuel tol full idx Hwf Hwf' HP Hc Hq Ht E Hsep.
  destruct (PDD_Done _ _ _ _ _ _ _ _ Hwf E) as (rows & En & Hr & Hl & Hk & Ea).
  destruct (nn_reorder dims ps ps' Hwf Hwf' HP Hc Hq fuel k) as [[En' _]|(f & En1 & En2)];
    [rewrite En in En'; discriminate|].
  rewrite En in En1. injection En1 as ->.
  pose proof (nn_rows_ok _ _ Hwf' _ _ _ En2) as Hr'.
  assert (Hl' : length (weights_of ps') = length (map (tl (A:=R)) (map f (points_of ps')))).
  { rewrite (weights_length dims ps' Hwf'), !map_length. auto. }
  assert (Hk' : Forall (fun r => length r = k) (map (tl (A:=R)) (map f (points_of ps')))).
  { eapply Forall_impl; [|apply (tl_rows ps' k _ Hr')]. simpl. tauto. }
  destruct (assemble_plain _ _ _ false tol Hl Hk) as [P1 _]. rewrite <- Ea in P1. simpl in P1.
  rewrite (PDD_run dims ps Hwf), (PDD_run dims ps' Hwf'), En, En2. cbn [obind].
  assert (U := canonical_unique k tol _ _ _ _ Hl Hl' Hk Hk' (weights_pos dims ps Hwf) (weights_pos dims ps' Hwf') Ht).
  assert (H1 : forall u, In u (map (tl (A:=R)) (map f (points_of ps))) -> In u (map snd full)).
  { intros u Hu. eapply Permutation_in; [apply Permutation_map; exact P1|].
    rewrite map_snd_combine; auto. }
  specialize (U ltac:(intros; apply Hsep; auto)).
  assert (H2 : forall r, row_weight (combine (weights_of ps) (map (tl (A:=R)) (map f (points_of ps)))) r =
    row_weight (combine (weights_of ps') (map (tl (A:=R)) (map f (points_of ps')))) r).
  { intros r. apply row_weight_perm. rewrite !(map_map f).
    apply (weighted_rows_perm ps ps' HP Hq (fun p => tl (f p))). }
  specialize (U H2).
  destruct (assemble (collapse_rows (weights_of ps) (map (tl (A:=R)) (map f (points_of ps))) true tol) true) as [p g].
  destruct (assemble (collapse_rows (weights_of ps') (map (tl (A:=R)) (map f (points_of ps'))) true tol) true) as [p' g'].
  simpl in U. subst p'. exists p, g, g'. auto.
Qed.

(** ** C16: any two rows merged into one are within twice the tolerance. *)
Theorem C16_group_diameter : forall dims ps k fuel lexsort collapse tol pdd groups,
  pset_wf dims ps -> 0 <= tol -> PDD fuel ps k lexsort collapse tol = Done (pdd, groups) ->
  exists full idx, PDD fuel ps k false false tol = Done (full, idx) /\
    forall g i j, In g groups -> In i g -> In j g ->
      close_rows (2 * tol) (snd (nth i full (0, []))) (snd (nth j full (0, []))).
Proof.
  intros dims ps k fuel lexsort collapse tol pdd groups Hwf Ht E.
  destruct (C19_groups_identify_rows _ _ _ _ _ _ _ _ _ Hwf E) as (full & idx & H1 & _ & H3 & H4 & H5 & H6).
  exists full, idx. split; auto. intros g i j Hg Hi Hj c Hcl.
  assert (Hlen : forall i, In i g -> length (snd (nth i full (0, []))) = k).
  { intros i' Hi'. assert (X : (i' < length full)%nat).
    { assert (In i' (seq 0 (length full))).
      { eapply Permutation_in; [exact H5|]. apply in_concat; eauto. }
      apply in_seq in H. lia. }
    destruct (H4 i' X) as (_ & ids & (L1 & _ & _ & L2 & _)).
    apply (f_equal (@length R)) in L2. rewrite map_length in L2. simpl in L2. lia. }
  assert (X : forall l l', Forall2 (fun (p : R * list R) g =>
       g <> [] /\
       fst p = rsum (map (fun i => fst (nth i full (0, []))) g) /\
       snd p = map (mean (map (fun i => snd (nth i full (0, []))) g)) (seq 0 k) /\
       (collapse = false -> exists i, g = [i]) /\
       (forall i, In i g -> i <> hd 0%nat g ->
          close_rows tol (snd (nth (hd 0%nat g) full (0, []))) (snd (nth i full (0, []))))) l l' ->
       In g l' -> g <> [] /\ forall i, In i g -> i <> hd 0%nat g ->
          close_rows tol (snd (nth (hd 0%nat g) full (0, []))) (snd (nth i full (0, [])))).
  { induction 1 as [|? ? ? ? (A & _ & _ & _ & B) _ IH]; intros [].
    - subst. auto.
    - auto. }
  destruct (X _ _ H6 Hg) as [Hne Hcl'].
  assert (Hh : In (hd 0%nat g) g) by (destruct g; [congruence|left; auto]).
  assert (Y : forall i, In i g -> Rabs (nth c (snd (nth (hd 0%nat g) full (0, []))) 0 - nth c (snd (nth i full (0, []))) 0) <= tol).
  { intros i' Hi'. destruct (Nat.eq_dec i' (hd 0%nat g)) as [->|Hn].
    - rewrite Rminus_diag_eq, Rabs_R0; auto.
    - apply (Hcl' i' Hi' Hn). rewrite Hlen in *; auto. }
  pose proof (Y i Hi) as Yi. pose proof (Y j Hj) as Yj.
  revert Yi Yj. unfold Rabs. repeat destruct Rcase_abs; lra.
Qed.

(** ** Cases meeting the hypotheses *)

(** The honeycomb, turned by a right angle and shifted; scaled by 3; listed in the other order. *)
Definition honeycomb : pset R :=
  {| ps_motif := hex_motif; ps_cell := hex_cell; ps_asym := None; ps_mult := None |}.

Example inv_case : exists fuel a pdd groups,
  pset_wf 2 honeycomb /\ dual_basis 2 [[0; 1]; [-1; 0]] [[0; 1]; [-1; 0]] /\
  AMD fuel honeycomb 3 = Done a /\ PDD fuel honeycomb 3 true true (1 / 10000) = Done (pdd, groups) /\
  ps_motif (move 2 [[0; 1]; [-1; 0]] [1; 2] honeycomb) <> ps_motif honeycomb /\
  Permutation hex_motif [[0; sqrt 3 / 3]; [0; 0]].
Proof.
  destruct hex_ok as (H1 & H2 & _).
  assert (Hwf : pset_wf 2 honeycomb) by (apply pset_wf_no_asym; auto).
  destruct (C13_amd_total 2 honeycomb 3 Hwf H2) as (a & fuel & Ha).
  destruct (PDD fuel honeycomb 3 true true (1 / 10000)) as [[pdd g]| | |] eqn:E.
  1: { exists fuel, a, pdd, g. split; [auto|]. split; [apply rotation_ok|].
       split; [apply Ha; auto|]. split; [auto|]. split; [|constructor].
       intro X. apply (f_equal (fun m => nth 0 (nth 0 m []) 0)) in X.
       unfold move, pset_map, rigid, lin_map, comb_coord, vadd in X. simpl in X. unfold rsum in X. simpl in X. lra. }
  all: exfalso; destruct (Ha fuel) as [Ha1 _]; specialize (Ha1 (le_n _)); rewrite (AMD_run 2 _ Hwf) in Ha1; rewrite (PDD_run 2 _ Hwf) in E;
    destruct (nearest_neighbors fuel (ps_motif honeycomb) (ps_cell honeycomb) (points_of honeycomb) 4);
    simpl in *; discriminate.
Qed.

(** Points 0, 1, 3, 6 of period 100: nearest neighbours at 1, 1, 2, 3, which a tolerance of
    1/2 keeps apart, in two orders. *)
Definition apart1 : pset R := {| ps_motif := line [0; 1; 3; 6]; ps_cell := [[100]]; ps_asym := None; ps_mult := None |}.
Definition apart2 : pset R := {| ps_motif := line [3; 1; 0; 6]; ps_cell := [[100]]; ps_asym := None; ps_mult := None |}.

Example separated_case : exists fuel full idx,
  pset_wf 1 apart1 /\ pset_wf 1 apart2 /\ Permutation (ps_motif apart1) (ps_motif apart2) /\
  Permutation (combine (points_of apart1) (counts_of apart1)) (combine (points_of apart2) (counts_of apart2)) /\
  PDD fuel apart1 1 false false (1/2) = Done (full, idx) /\
  (forall u v, In u (map snd full) -> In v (map snd full) -> close_rows (1/2) u v -> u = v).
Proof.
  assert (X1 : Forall (fun x => 0 <= x < 100) [0; 1; 3; 6]) by (repeat constructor; lra).
  assert (X2 : Forall (fun x => 0 <= x < 100) [3; 1; 0; 6]) by (repeat constructor; lra).
  assert (W1 : pset_wf 1 apart1) by (apply pset_wf_no_asym, (line_ok _ _ X1); discriminate).
  assert (W2 : pset_wf 1 apart2) by (apply pset_wf_no_asym, (line_ok _ _ X2); discriminate).
  assert (PM : Permutation (line [0; 1; 3; 6]) (line [3; 1; 0; 6])).
  { unfold line. simpl. apply perm_trans with [[1]; [0]; [3]; [6]]; [constructor|].
    apply perm_trans with [[1]; [3]; [0]; [6]]; [apply perm_skip; constructor|constructor]. }
  destruct (line_rows [0; 1; 3; 6] 100 ltac:(lra) X1 ltac:(discriminate) (line [0; 1; 3; 6]) 1 [[0; 1]; [0; 1]; [0; 2]; [0; 3]])
    as (fuel & Hf).
  { intros p Hp; auto. }
  { discriminate. }
  { assert (D : forall i z, (i < 4)%nat -> z = 0%Z \/ IZR z * 100 <= - 100 \/ 100 <= IZR z * 100)
      by (intros i z _; destruct (shift_cases 100 ltac:(lra) z) as [H|[H|H]]; auto).
    constructor; [|constructor; [|constructor; [|constructor; [|constructor]]]].
    - apply (line_near2 [0; 1; 3; 6] 100 ltac:(lra) 0%nat 0%Z 1%nat); simpl; try lia; try discriminate; auto.
      + rabs.
      + intros z i Hi. destruct (D i z Hi) as [->|[H|H]]; destruct i as [|[|[|[|i]]]]; try lia; auto; right; rabs.
    - apply (line_near2 [0; 1; 3; 6] 100 ltac:(lra) 1%nat 0%Z 0%nat); simpl; try lia; try discriminate; auto.
      + rabs.
      + intros z i Hi. destruct (D i z Hi) as [->|[H|H]]; destruct i as [|[|[|[|i]]]]; try lia; auto; right; rabs.
    - apply (line_near2 [0; 1; 3; 6] 100 ltac:(lra) 2%nat 0%Z 1%nat); simpl; try lia; try discriminate; auto.
      + rabs.
      + intros z i Hi. destruct (D i z Hi) as [->|[H|H]]; destruct i as [|[|[|[|i]]]]; try lia; auto; right; rabs.
    - apply (line_near2 [0; 1; 3; 6] 100 ltac:(lra) 3%nat 0%Z 2%nat); simpl; try lia; try discriminate; auto.
      + rabs.
      + intros z i Hi. destruct (D i z Hi) as [->|[H|H]]; destruct i as [|[|[|[|i]]]]; try lia; auto; right; rabs. }
  specialize (Hf fuel (le_n _)).
  destruct (PDD fuel apart1 1 false false (1/2)) as [[full idx]| | |] eqn:E.
  2,3,4: exfalso; rewrite (PDD_run 1 _ W1) in E; change (ps_motif apart1) with (line [0; 1; 3; 6]) in E;
    change (ps_cell apart1) with [[100]] in E; change (points_of apart1) with (line [0; 1; 3; 6]) in E;
    rewrite Hf in E; discriminate.
  exists fuel, full, idx. split; [auto|]. split; [auto|]. split; [auto|]. split; [|split; [exact E|]].
  - change (points_of apart1) with (line [0; 1; 3; 6]). change (points_of apart2) with (line [3; 1; 0; 6]).
    change (counts_of apart1) with (repeat 1%nat 4). change (counts_of apart2) with (repeat 1%nat 4).
    assert (Ec : forall l : list (list R), combine l (repeat 1%nat (length l)) = map (fun p => (p, 1%nat)) l).
    { induction l; simpl; congruence. }
    change 4%nat with (length (line [0; 1; 3; 6])) at 1. change 4%nat with (length (line [3; 1; 0; 6])).
    rewrite !Ec. apply Permutation_map, PM.
  - rewrite (PDD_run 1 _ W1) in E. change (ps_motif apart1) with (line [0; 1; 3; 6]) in E;
    change (ps_cell apart1) with [[100]] in E; change (points_of apart1) with (line [0; 1; 3; 6]) in E.
    rewrite Hf in E. cbn [obind] in E. injection E as <- <-.
    assert (K : forall u, In u (map snd (fst (assemble (collapse_rows (weights_of apart1)
        (map (tl (A:=R)) [[0; 1]; [0; 1]; [0; 2]; [0; 3]]) false (1/2)) false))) -> u = [1] \/ u = [2] \/ u = [3]).
    { simpl. intros u [<-|[<-|[<-|[<-|[]]]]]; auto. }
    intros u v Hu Hv Hc. apply K in Hu. apply K in Hv.
    destruct Hu as [-> | [-> | ->]], Hv as [-> | [-> | ->]]; auto; exfalso;
      specialize (Hc 0%nat ltac:(simpl; lia)); simpl in Hc; revert Hc; rabs.
Qed.

Print Assumptions C10_amd_isometry.
Print Assumptions C10_pdd_isometry.
Print Assumptions C11_amd_scaling.
Print Assumptions C11_pdd_scaling.
Print Assumptions C12_amd_reordering.
Print Assumptions C12_amd_reordering_asym.
Print Assumptions C12_pdd_reordering.
Print Assumptions C20_separated_rows.
Print Assumptions C16_group_diameter.
