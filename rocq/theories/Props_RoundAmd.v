(** Property C88: distance matrices and nearest neighbours of AMDs with rounded operations. *)
From Coq Require Import String List ZArith Arith Bool Lia Reals Lra Psatz Permutation Sorted.
From Verif Require Import Num Base Spec Outcome Condensed CollapseModel NNModel VecR Sums SpecGeom SpecCalc SpecEmd SpecEmd64 SpecSites SpecCont SpecDeform SpecCell NNProofs NNSpecProofs NNComplete NNInvariance Props_NN CompareModel SpecCompare CompareProofs CompareNear Props_Matrix CalcModel CalcProofs CalcProofs2 Props_Calc
  EmdModel EmdReal EmdSym EmdTop Props_Emd Props_EmdPdd SitesModel SitesProofs SitesExpand Props_Sites SpecSymmetry SymmetryProofs Props_Symmetry Props_Geo Props_Finite Props_Asym
  RoundModel SpecRound RoundSum RoundProofs RoundGeom RoundTop RoundCalc RoundCollapse RoundBinary Props_Round RoundSitesModel SpecRoundSites RoundSites RoundSites2 RoundSites3
  RoundEmdModel RoundEmd RoundEmdTop RoundEmdArgs RoundEmdPdd Props_RoundEmd Props_RoundSites ContProofs Props_Cont DeformProofs Props_Deform SpecRoundCell UtilsModel Props_Utils DominantProofs RoundCellModel RoundCell RoundCell2 Props_RoundCell ReadRows Props_ReadEmd Props_ParEmd.
Import ListNotations.
Open Scope string_scope.
Open Scope R_scope.
Open Scope list_scope.
Notation length := List.length.

(** Rows of numbers, each within [e] of the corresponding one. *)
Definition rows_near (e : R) (a a' : list (list R)) : Prop := Forall2 (Forall2 (fun x x' => Rabs (x' - x) <= e)) a a'.

Lemma chebyshev_sym : forall k us vs d, is_chebyshev k us vs d -> is_chebyshev k vs us d.
Proof.
  intros k us vs d [A B]. split.
  - intros t Ht. rewrite Rabs_minus_sym. auto.
  - destruct B as [->|(t & Ht & ->)]; [left; auto|right; exists t; split; [auto|apply Rabs_minus_sym]].
Qed.

Section Rounded.
  Context (u eta : R) (ar : arith) (FL : float_like u eta ar) (Hu : u <= 1 / 10000).
  Let N : Num R := num_of ar.

  Lemma r_nabs_nonneg : forall x, 0 <= @nabs R N x.
  Proof.
    intros x. unfold nabs. change (@nleb R N (@n0 R N) x) with (Rleb 0 x). destruct (Rleb 0 x) eqn:L; [apply Rleb_true in L; auto|].
    apply Rleb_false in L. change (@nsub R N (@n0 R N) x) with (r_sub ar 0 x). pose proof (fl_sub _ _ _ FL 0 x) as Z. rewrite Rminus_0_l, Rabs_Ropp, (Rabs_left x) in Z by lra.
    apply Rabs_le_both in Z. assert (u * - x <= 1 * - x) by (apply Rmult_le_compat_r; lra). lra.
  Qed.

  Lemma r_amax_cheb : forall (r v : list R) k, length r = k -> length v = k -> (1 <= k)%nat ->
    obind (@row_minus R N r v) (fun d => @amax R N (map (@nabs R N) d)) = Done (@cheb R N r v).
  Proof.
    intros r v k Hr Hv Hk. unfold row_minus. rewrite Hr, Hv, Nat.eqb_refl. cbn [obind]. rewrite map_map2. unfold cheb.
    destruct r as [|a r], v as [|b v]; simpl in Hr, Hv; try lia. cbn [map2 fold_left].
    assert (E : @nmax R N (@n0 R N) (@nabs R N (@nsub R N a b)) = @nabs R N (@nsub R N a b)).
    { unfold nmax. change (@nleb R N (@n0 R N) (@nabs R N (@nsub R N a b))) with (Rleb 0 (@nabs R N (@nsub R N a b))). rewrite (proj2 (Rleb_true _ _) (r_nabs_nonneg _)). reflexivity. }
    rewrite E. reflexivity.
  Qed.

  Lemma r_amax_rows : forall c varr v k, amds_of k c -> (is_array c || varr)%bool = true ->
    length v = k -> (1 <= k)%nat -> @amax_abs_diff R N c varr v = Done (map (fun r => @cheb R N r v) (cl_rows c)).
  Proof.
    intros c varr v k (Hc & Hr & Hk) Ha Hv Hk1. unfold amax_abs_diff. rewrite Ha. cbn [negb].
    replace (rectangular (cl_cols c) (cl_rows c)) with true.
    2:{ symmetry. apply forallb_forall. intros r Hin. apply Nat.eqb_eq. rewrite Forall_forall in Hr. rewrite Hc. auto. }
    cbn [negb].
    assert (E : omap (fun r => obind (@row_minus R N r v) (fun d => @amax R N (map (@nabs R N) d))) (cl_rows c) = Done (map (fun r => @cheb R N r v) (cl_rows c))).
    { apply omap_ok. intros r Hin. apply (r_amax_cheb r v k); auto. rewrite Forall_forall in Hr. auto. }
    destruct (cl_rows c) as [|r rows] eqn:Er.
    - destruct Hk as [Hk|Hk]; [|tauto]. rewrite Hk, Hc, Hv, Nat.eqb_refl. reflexivity.
    - destruct (cl_kind c); exact E.
  Qed.

  Lemma r_pdist_low : forall om junk c k, (1 <= k)%nat -> amds_of k c -> cl_kind c = Ndarray -> length junk = length (Condensed.pairs (length (cl_rows c))) ->
    @AMD_pdist R N om junk c "chebyshev" true =
    Done (condensed (fun i j => @cheb R N (nth j (cl_rows c) []) (nth i (cl_rows c) [])) (length (cl_rows c))).
  Proof.
    intros om junk c k Hk Hc Hn Hj. unfold AMD_pdist. change (String.eqb "chebyshev" "chebyshev") with true. cbn [negb].
    set (rows := cl_rows c) in *. set (m := length rows) in *. set (f := fun i j => @cheb R N (nth j rows []) (nth i rows [])).
    set (step := fun i => obind (get_at rows i) (fun v => @amax_abs_diff R N (from c (S i)) (rows_are_arrays c) v)).
    pose proof (blocks_from f m step) as X.
    assert (Hstep : forall i, (i < m)%nat -> step i = Done (map (f i) (seq (S i) (m - S i)))).
    { intros i Hi. unfold step. rewrite get_at_nth with (d := []) by auto. cbn [obind]. rewrite (r_amax_rows (from c (S i)) _ _ k).
      - cbn [from cl_rows]. rewrite (skipn_as_map _ [] (cl_rows c) (S i)). rewrite map_map. reflexivity.
      - apply from_ok; auto.
      - unfold is_array, from. simpl. rewrite Hn. auto.
      - destruct Hc as (_ & Hr & _). rewrite Forall_forall in Hr. apply Hr, nth_In. auto.
      - auto. }
    specialize (X Hstep m 0%nat [] junk). cbn [app List.length] in X. rewrite <- condensed_blocks in X. rewrite condensed_length in X. specialize (X eq_refl Hj).
    match goal with |- obind (ofold ?F _ _) _ = _ => rewrite (ofold_ext _ _ F
      (fun (st : list R * nat) i =>
               let '(cdm, ind) := st in
               let ind_ := (ind + m - i - 1)%nat in
               obind (step i) (fun row => obind (set_slice cdm ind ind_ row) (fun c => Done (c, ind_))))) end.
    - cbv zeta in X |- *. rewrite X. reflexivity.
    - intros [cdm ind] i _. unfold step. destruct (get_at rows i); reflexivity.
  Qed.

  Lemma r_cheb_near : forall k e a a' b b' i j d, 0 <= e -> rows_near e a a' -> rows_near e b b' -> Forall (fun r => length r = k) a -> Forall (fun r => length r = k) b ->
    (i < length a)%nat -> (j < length b)%nat -> is_chebyshev k (nth i a []) (nth j b []) d ->
    0 <= @cheb R N (nth i a' []) (nth j b' []) /\ Rabs (@cheb R N (nth i a' []) (nth j b' []) - d) <= 2 * e + 3 * u * (d + 2 * e).
  Proof.
    intros k e a a' b b' i j d He Na Nb La Lb Hi Hj HD. rewrite Forall_forall in La, Lb.
    apply (cheb_near ar u eta FL Hu k (nth i a []) (nth j b [])); auto; try (apply La, nth_In; auto); try (apply Lb, nth_In; auto).
    - apply (RoundCalc.F2_nth _ _ _ _ _ [] [] Na); auto.
    - apply (RoundCalc.F2_nth _ _ _ _ _ [] [] Nb); auto.
  Qed.
End Rounded.

(** AMD_cdist with rounded subtractions, of AMDs that are within [e] of exact ones: every entry is
    close to the exact Chebyshev distance, with and without low_memory. *)
Theorem C88_cdist : forall u eta ar om junk A B a b k e low, float_like u eta ar -> u <= 1 / 10000 -> (1 <= k)%nat -> amds_of k A -> amds_of k B ->
  (cl_kind B = Ndarray \/ cl_kind A <> ListOfLists) -> has_shape (length (cl_rows A)) (length (cl_rows B)) junk ->
  0 <= e -> Forall (fun r => length r = k) a -> Forall (fun r => length r = k) b -> rows_near e a (cl_rows A) -> rows_near e b (cl_rows B) ->
  exists dm, @AMD_cdist R (num_of ar) om junk A B "chebyshev" low = Done dm /\ has_shape (length a) (length b) dm /\
    forall i j d, (i < length a)%nat -> (j < length b)%nat -> is_chebyshev k (nth i a []) (nth j b []) d ->
      0 <= mx dm i j /\ Rabs (mx dm i j - d) <= 2 * e + 3 * u * (d + 2 * e).
Proof.
  intros u eta ar om junk A B a b k e low FL Hu Hk HA HB Hkind [Hj _] He La Lb Na Nb.
  pose proof (RoundCalc.F2_len _ _ _ _ _ Na) as LA. pose proof (RoundCalc.F2_len _ _ _ _ _ Nb) as LB.
  set (g := fun x y : list R => if low then @cheb R (num_of ar) y x else @cheb R (num_of ar) x y).
  exists (map (fun x => map (g x) (cl_rows B)) (cl_rows A)). split; [|split].
  - unfold g, AMD_cdist. destruct low.
    + change (String.eqb "chebyshev" "chebyshev") with true. cbn [negb].
      apply (fill _ _ (@amax_abs_diff R (num_of ar) B (rows_are_arrays A)) (fun x => map (fun r => @cheb R (num_of ar) r x) (cl_rows B))); auto.
      intros v Hv. apply (r_amax_rows u eta ar FL Hu B _ v k HB); auto.
      * unfold is_array, rows_are_arrays. destruct Hkind as [->|Hn]; auto. destruct (cl_kind A); try tauto; apply orb_true_r.
      * destruct HA as (_ & HA & _). rewrite Forall_forall in HA. auto.
    + unfold scipy_cdist. rewrite (two_d_ok k A HA), (two_d_ok k B HB). destruct HA as (-> & _), HB as (-> & _). rewrite Nat.eqb_refl. reflexivity.
  - rewrite LA, LB. split; [apply map_length|]. apply Forall_forall. intros r Hr. apply in_map_iff in Hr as (x & <- & _). apply map_length.
  - intros i j d Hi Hj' HD. unfold mx. rewrite (SitesExpand.nth_map' _ _ _ _ _ ([] : list R)) by lia. rewrite (SitesExpand.nth_map' _ _ _ _ _ ([] : list R)) by lia.
    unfold g. destruct low; [apply (r_cheb_near u eta ar FL Hu k e b _ a)|apply (r_cheb_near u eta ar FL Hu k e a _ b)]; auto. apply chebyshev_sym. auto.
Qed.

(** AMD_pdist likewise, with the entry for items i < j in its place. *)
Theorem C88_pdist : forall u eta ar om junk A a k e low, float_like u eta ar -> u <= 1 / 10000 -> (1 <= k)%nat -> amds_of k A -> cl_kind A = Ndarray ->
  0 <= e -> Forall (fun r => length r = k) a -> rows_near e a (cl_rows A) ->
  let m := length a in (2 * length junk = m * (m - 1))%nat ->
  exists v, @AMD_pdist R (num_of ar) om junk A "chebyshev" low = Done v /\ (2 * length v = m * (m - 1))%nat /\
    forall i j d, (i < j < m)%nat -> is_chebyshev k (nth i a []) (nth j a []) d ->
      0 <= nth (SpecCompare.before m i j) v 0 /\ Rabs (nth (SpecCompare.before m i j) v 0 - d) <= 2 * e + 3 * u * (d + 2 * e).
Proof.
  intros u eta ar om junk A a k e low FL Hu Hk HA Hn He La Na m Hj. pose proof (CompareProofs.pairs_count m) as C. pose proof (RoundCalc.F2_len _ _ _ _ _ Na) as LA. fold m in LA.
  set (g := fun i j : nat => if low then @cheb R (num_of ar) (nth j (cl_rows A) []) (nth i (cl_rows A) []) else @cheb R (num_of ar) (nth i (cl_rows A) []) (nth j (cl_rows A) [])).
  exists (condensed g m). split; [|split].
  - unfold g. rewrite LA. destruct low.
    + apply (r_pdist_low u eta ar FL Hu om junk A k); auto. rewrite <- LA. lia.
    + unfold AMD_pdist, scipy_pdist. rewrite (two_d_ok k A HA). reflexivity.
  - rewrite condensed_length. exact C.
  - intros i j d Hij HD. rewrite before_cidx, condensed_nth by auto. unfold g. destruct low; apply (r_cheb_near u eta ar FL Hu k e a _ a); auto; try (fold m; lia). apply chebyshev_sym. auto.
Qed.

(** ** Nearest neighbours *)

(** [inds] are [n] items nearest up to [err]: their listed distances are within [err] of the exact
    ones, and no item left out is nearer by more than twice as much. *)
Record nearly_nearest (m : nat) (ok : nat -> Prop) (dist : nat -> R) (err : R) (n : nat) (inds : list nat) (ds : list R) : Prop := {
  nn_count : length inds = n;
  nn_distinct : NoDup inds;
  nn_valid : Forall (fun j => (j < m)%nat /\ ok j) inds;
  nn_dist : Forall2 (fun j x => Rabs (x - dist j) <= err) inds ds;
  nn_sorted : StronglySorted Rle ds;
  nn_rest : forall i j, (j < m)%nat -> ok j -> In i inds -> ~ In j inds -> dist i <= dist j + 2 * err
}.

Lemma nearest_nearly : forall m ok dist' dist err n inds ds, nearest_of m ok dist' n inds ds -> (forall j, (j < m)%nat -> ok j -> Rabs (dist' j - dist j) <= err) ->
  nearly_nearest m ok dist err n inds ds.
Proof.
  intros m ok dist' dist err n inds ds [A B C D E F] H. rewrite Forall_forall in D. constructor; auto.
  - apply Forall_forall. auto.
  - rewrite B. clear -D H. induction inds as [|i l IH]; constructor; [|apply IH; intros; apply D; right; auto]. destruct (D i (or_introl eq_refl)). apply H; auto.
  - intros i j Hj Ho Hi Hn. specialize (F j Hj Ho Hn). rewrite Forall_forall in F. specialize (F (dist' i) ltac:(rewrite B; apply in_map; auto)). destruct (D i Hi) as [Di Oi].
    pose proof (H i Di Oi) as X. pose proof (H j Hj Ho) as Y. apply Rabs_le_both in X, Y. lra.
Qed.

(** When the exact distances leave a gap of more than [2 * err], the items are the right ones. *)
Theorem C88_gap : forall m ok dist err n inds ds inds0 ds0, nearly_nearest m ok dist err n inds ds -> nearest_of m ok dist n inds0 ds0 ->
  (forall i j, In i inds0 -> (j < m)%nat -> ok j -> ~ In j inds0 -> dist i + 2 * err < dist j) -> Permutation inds inds0.
Proof.
  intros m ok dist err n inds ds inds0 ds0 H H0 G. assert (LE : length inds = length inds0) by (rewrite (nn_count _ _ _ _ _ _ _ H), (no_count _ _ _ _ _ _ H0); auto).
  assert (I : incl inds inds0).
  { intros j Hj. destruct (in_dec Nat.eq_dec j inds0) as [|Nj]; auto. exfalso.
    assert (X : exists i, In i inds0 /\ ~ In i inds).
    { destruct (Exists_dec (fun i => ~ In i inds) inds0) as [X|X]; [intros i; destruct (in_dec Nat.eq_dec i inds); [right|left]; auto|apply Exists_exists in X; exact X|].
      exfalso. assert (II : incl inds0 inds) by (intros i Hi; destruct (in_dec Nat.eq_dec i inds); auto; exfalso; apply X, Exists_exists; eauto).
      assert (LL : (length inds <= length inds0)%nat) by lia. apply Nj. exact (NoDup_length_incl (no_distinct _ _ _ _ _ _ H0) LL II j Hj). }
    destruct X as (i & Hi & Ni). pose proof (nn_valid _ _ _ _ _ _ _ H) as V. pose proof (no_valid _ _ _ _ _ _ H0) as V0. rewrite Forall_forall in V, V0.
    destruct (V j Hj) as [Vj Oj]. destruct (V0 i Hi) as [Vi Oi]. pose proof (nn_rest _ _ _ _ _ _ _ H j i Vi Oi Hj Ni). specialize (G i j Hi Vj Oj Nj). lra. }
  apply NoDup_Permutation_bis; auto; [apply (nn_distinct _ _ _ _ _ _ _ H)|lia].
Qed.

(** _nearest_items with rounded AMDs and rounded distances. *)
Theorem C88_items_two : forall u eta ar kn opts f junk n XA XB a b k e Dmax dist, float_like u eta ar -> u <= 1 / 10000 -> (forall n XB XA, kn opts n XB XA = Done (f n XB XA)) ->
  kneighbors_ok (@cheb R (num_of ar)) f -> (1 <= n <= length XB)%nat -> 0 <= e ->
  Forall (fun r => length r = k) a -> Forall (fun r => length r = k) b -> rows_near e a XA -> rows_near e b XB ->
  (forall i j, (i < length a)%nat -> (j < length b)%nat -> is_chebyshev k (nth i a []) (nth j b []) (dist i j) /\ dist i j <= Dmax) ->
  exists ds inds, @nearest_items R kn junk n XA (Some XB) opts = Done (ds, inds) /\ length ds = length a /\ length inds = length a /\
    forall i, (i < length a)%nat -> nearly_nearest (length b) (fun _ => True) (dist i) (2 * e + 3 * u * (Dmax + 2 * e)) n (nth i inds []) (nth i ds []).
Proof.
  intros u eta ar kn opts f junk n XA XB a b k e Dmax dist FL Hu Hk KN Hn He La Lb Na Nb HD. pose proof (fl_u _ _ _ FL) as u0.
  destruct (C37_items_two kn opts _ f junk n XA XB Hk KN Hn) as (ds & inds & E & L1 & L2 & H).
  pose proof (RoundCalc.F2_len _ _ _ _ _ Na) as LA. pose proof (RoundCalc.F2_len _ _ _ _ _ Nb) as LB. unfold vec in *. rewrite LA, LB in *.
  exists ds, inds. split; [exact E|]. split; [auto|]. split; [auto|]. intros i Hi. eapply nearest_nearly; [apply H; auto|]. intros j Hj _. cbv beta.
  destruct (HD i j Hi Hj) as [C B]. eapply Rle_trans; [apply (r_cheb_near u eta ar FL Hu k e a XA b XB i j (dist i j)); auto; lia|].
  assert (u * (dist i j + 2 * e) <= u * (Dmax + 2 * e)) by (apply Rmult_le_compat_l; lra). lra.
Qed.

Theorem C88_items_one : forall u eta ar kn opts f junk n XA a k e Dmax dist, float_like u eta ar -> u <= 1 / 10000 -> (forall n XB XA, kn opts n XB XA = Done (f n XB XA)) ->
  kneighbors_ok (@cheb R (num_of ar)) f -> (1 <= n < length XA)%nat -> has_shape (length XA) n junk -> 0 <= e ->
  Forall (fun r => length r = k) a -> rows_near e a XA ->
  (forall i j, (i < length a)%nat -> (j < length a)%nat -> is_chebyshev k (nth i a []) (nth j a []) (dist i j) /\ dist i j <= Dmax) ->
  exists ds inds, @nearest_items R kn junk n XA None opts = Done (ds, inds) /\ length ds = length a /\ length inds = length a /\
    forall i, (i < length a)%nat -> nearly_nearest (length a) (fun j => j <> i) (dist i) (2 * e + 3 * u * (Dmax + 2 * e)) n (nth i inds []) (nth i ds []).
Proof.
  intros u eta ar kn opts f junk n XA a k e Dmax dist FL Hu Hk KN Hn Hj0 He La Na HD. pose proof (fl_u _ _ _ FL) as u0.
  destruct (C37_items_one kn opts _ f junk n XA Hk KN Hn Hj0) as (ds & inds & E & L1 & L2 & H).
  pose proof (RoundCalc.F2_len _ _ _ _ _ Na) as LA. unfold vec in *. rewrite LA in *.
  exists ds, inds. split; [exact E|]. split; [auto|]. split; [auto|]. intros i Hi. eapply nearest_nearly; [apply H; auto|]. intros j Hj _. cbv beta.
  destruct (HD i j Hi Hj) as [C B]. eapply Rle_trans; [apply (r_cheb_near u eta ar FL Hu k e a XA a XA i j (dist i j)); auto; lia|].
  assert (u * (dist i j + 2 * e) <= u * (Dmax + 2 * e)) by (apply Rmult_le_compat_l; lra). lra.
Qed.

(** ** From the contents of files on *)
Lemma amd_upto : forall dims ps k fuel a D, pset_wf dims ps -> (dims <= 4)%nat -> spread dims (ps_cell ps) (ps_motif ps) ->
  distances_within dims (ps_motif ps) (ps_cell ps) (points_of ps) k D -> AMD fuel ps k = Done a -> Forall (fun x => 0 <= x <= D) a.
Proof.
  intros dims ps k fuel a D Wf H4 SP DW A. destruct (C13_amd_monotone _ _ _ _ _ Wf A) as (La & P & _).
  destruct (AMD_Done _ _ _ _ _ Wf A) as (rows & En & _ & Ea).
  pose proof (C05_rows_are_nearest dims _ _ _ _ _ _ (wf_ok _ _ Wf) ltac:(lia) SP (points_incl _ _ Wf) (points_nonempty _ _ Wf) En) as NR.
  destruct (counts_INR_pos _ _ Wf) as [CP CN]. pose proof (RoundCalc.F2_len _ _ _ _ _ NR) as LR. rewrite (points_length _ _ Wf) in LR.
  rewrite Forall_forall in P. apply Forall_forall. intros x Hx. split; [auto|]. rewrite Ea in Hx. unfold CalcProofs2.amd_of in Hx. apply in_map_iff in Hx as (j & <- & Hj). apply in_seq in Hj.
  unfold wmean. set (ws := map INR (counts_of ps)) in *. pose proof (rsum_pos ws CN CP) as W0. apply Rmult_le_reg_r with (rsum ws); [auto|]. unfold Rdiv. rewrite Rmult_assoc, Rinv_l, Rmult_1_r by lra.
  assert (LW : length ws = length rows) by (unfold ws; rewrite map_length; auto).
  assert (B : forall r, In r rows -> nth j (tl r) 0 <= D).
  { intros r Hr. apply (In_nth _ _ []) in Hr as (i & Hi & <-). pose proof (RoundCalc.F2_nth _ _ _ _ _ [] [] NR i) as X. cbv beta in X. rewrite (points_length _ _ Wf) in X. specialize (X ltac:(lia)).
    assert (IP : In (nth i (points_of ps) []) (points_of ps)) by (apply nth_In; rewrite (points_length _ _ Wf); lia). pose proof (DW _ _ IP X) as Y. destruct X as (ids & (Ln & _ & _ & En' & _) & _). rewrite Forall_forall in Y. 
    assert (LL : length (nth i rows []) = S k) by (rewrite En', map_length; auto). destruct (nth i rows []) as [|z zs]; [discriminate|]. cbn [tl]. apply Y. right. apply nth_In. simpl in LL. lia. }
  clear - B LW CP. revert rows LW B. induction ws as [|w ws IH]; intros [|r rows] LW B; try discriminate; cbn; [unfold rsum; simpl; lra|]. inversion CP as [|? ? C1 C2]; subst.
  specialize (IH C2 rows ltac:(simpl in LW; lia) ltac:(intros; apply B; right; auto)). pose proof (B r (or_introl eq_refl)) as Br. unfold rsum in *. cbn [map fold_right combine fst snd]. assert (w * nth j (tl r) 0 <= w * D) by (apply Rmult_le_compat_l; lra). lra.
Qed.

(** How far AMDs of crystals with at most [M] points are from the exact ones. *)
Definition amd_error (M D b : R) : R := (110 + 3 * M) * u64 * (D + 2 * b).

Lemma entry_amd : forall ar rdeg rcos rsin s l D b k tol e cell cs M, binary64 u64 ar -> representable_dots ar -> trig_like u64 rdeg rcos rsin -> 0 <= s ->
  stated ar rdeg rcos rsin s l D b k false tol e cell cs -> INR (length (ps_motif (cs_set cs))) <= M -> M <= 50000 ->
  0 <= D /\ 0 <= b /\ exists cs' warn exact rounded fuel0, read_entry ar rdeg rcos rsin e = Done (cs', warn) /\ length exact = k /\ length rounded = k /\ Forall (fun x => 0 <= x <= D) exact /\
    (forall fuel, (fuel0 <= fuel)%nat -> AMD fuel (cs_set cs) k = Done exact /\ @AMD R (num_of ar) fuel (cs_set cs') k = Done rounded) /\
    Forall2 (fun x x' => Rabs (x' - x) <= amd_error M D b) exact rounded.
Proof.
  intros ar rdeg rcos rsin s l D b k tol e cell cs M BI HR TG Hs ST HM HM5. set (m := INR (length (ps_motif (cs_set cs)))) in *. destruct u64_small as [U E]. assert (M0 : 0 <= m) by apply pos_INR. pose proof u64_pos as UP.
  assert (ME : m * eta64 <= u64). { assert (EE : eta64 <= powerRZ 2 (-20) * u64) by (unfold u64, eta64; rewrite <- two_add; apply two_le; lia). assert (E20 : powerRZ 2 (-20) <= 1 / 1000000) by (simpl; lra).
    assert (E0 : eta64 <= 1 / 1000000 * u64) by (eapply Rle_trans; [exact EE|apply Rmult_le_compat_r; lra]). assert (P : 0 <= eta64) by (apply Rlt_le, two_pos).
    apply Rle_trans with (50000 * eta64); [apply Rmult_le_compat_r; lra|lra]. }
  destruct (entry_pdd ar rdeg rcos rsin s l D b k false false false tol e cell cs m BI HR TG Hs ST (Rle_refl _) ltac:(lra) ltac:(assert (m * u64 <= 50000 * u64) by (apply Rmult_le_compat_r; lra); lra) ME) as (cs' & warn & F & F' & _ & B0 & CP).
  assert (D0 : 0 <= D) by (destruct CP as (ex & g & ro & g' & f & p0 & _ & _ & _ & _ & _ & _ & _ & D0 & _); exact D0). clear CP.
  destruct ST as [HS HP HD HD'0 Hl (Ha & Hb & Hc) HL Ht Ho Hops Hne Hasym Hty HI HDS HB _ DW _].
  unfold read_entry in F'. destruct (r_cellpar_to_cell ar rdeg rcos rsin [en_a e; en_b e; en_c e; en_alpha e; en_beta e; en_gamma e]) as [cell'| | |] eqn:Q; try discriminate. cbn [obind] in F'. pose proof (HD'0 _ eq_refl) as HD'.
  destruct (C83_amd_computed u64 ar rdeg rcos rsin cell cell' _ _ _ _ _ _ l s (en_tol e) (en_asym e) (en_types e) (en_ops e) (en_uniquify e) k BI HR TG HS HP HD Hl Ha Hb Hc HL Q HD' Hs Ht Ho Hops Hne Hasym Hty HI HDS)
    as (cs0 & cs1 & warn0 & exact & rounded & f0 & F0 & F1 & Le & H).
  unfold read_exactly in F. cbn [with_cell ct_cell ct_asym ct_types ct_ops ct_tol ct_uniquify] in F. rewrite F0 in F. injection F as -> ->.
  unfold read_rounded in F'. cbn [with_cell ct_cell ct_asym ct_types ct_ops ct_tol ct_uniquify] in F'. rewrite F1 in F'. injection F' as ->. cbv zeta in H. fold m in H. specialize (H ltac:(lra)).
  assert (T0 : 0 <= en_tol e < 1). { split; [|lra]. destruct HDS as [D1 _]. assert (0 <= 22 * u64 * (s + 1)) by (repeat apply Rmult_le_pos; lra). lra. }
  pose proof HS as [LS VS]. destruct (C67_wf 3 (en_tol e) (en_uniquify e) cell (en_asym e) (en_types e) (en_ops e) cs warn ltac:(lia) T0 Ho Hops Hne Hasym LS VS F0) as (Wf & IC & Ec & _).
  destruct (H f0 (le_n _)) as (A1 & A2 & B1).
  assert (SP : spread 3 (ps_cell (cs_set cs)) (ps_motif (cs_set cs))) by (rewrite Ec; apply in_cell_spread; auto).
  pose proof (amd_upto 3 (cs_set cs) k f0 exact D Wf ltac:(lia) SP ltac:(rewrite Ec; exact DW) A1) as AU.
  split; [auto|]. split; [auto|]. exists cs', warn, exact, rounded, f0. split; [unfold read_entry; rewrite Q; cbn [obind]; exact F1|]. split; [auto|]. split; [rewrite <- Le; symmetry; apply (RoundCalc.F2_len _ _ _ _ _ B1)|]. split; [auto|]. split.
  - intros fuel Hf. destruct (H fuel Hf) as (X & Y & _). auto.
  - set (L := en_a e + en_b e + en_c e) in *. set (K := L / l) in *. assert (K3 : 3 <= K). { unfold K. apply Rmult_le_reg_r with l; [lra|]. unfold Rdiv. rewrite Rmult_assoc, Rinv_l by lra. unfold L. lra. }
    assert (L0 : 0 <= L) by (unfold L; lra). assert (SL : 0 <= s * L) by (apply Rmult_le_pos; lra). unfold entry_bound in HB. fold K in HB. set (DS := D + (s + 3) * L) in *.
    assert (DS0 : 0 <= DS) by (unfold DS; replace ((s + 3) * L) with (s * L + 3 * L) by ring; lra). assert (KD : 3 * DS <= K * DS) by (apply Rmult_le_compat_r; lra).
    apply (F2_of_nth _ _ _ 0 0); [apply (RoundCalc.F2_len _ _ _ _ _ B1)|]. intros j Hj. eapply Rle_trans; [apply (RoundCalc.F2_nth _ _ _ _ _ 0 0 B1 j Hj)|]. rewrite Forall_forall in AU. destruct (AU _ (nth_In exact 0 Hj)) as [X0 X1]. set (x := nth j exact 0) in *.
    assert (C1 : 31 * u64 * (s + 1) * L <= u64 * b). { replace (31 * u64 * (s + 1) * L) with (u64 * (31 * (s * L) + 31 * L)) by ring. apply Rmult_le_compat_l; [lra|]. unfold DS in *. replace ((s + 3) * L) with (s * L + 3 * L) in * by ring. lra. }
    assert (C2 : 1600 * u64 * x <= u64 * b). { replace (1600 * u64 * x) with (u64 * (1600 * x)) by ring. apply Rmult_le_compat_l; [lra|]. unfold DS in *. replace ((s + 3) * L) with (s * L + 3 * L) in * by ring. lra. }
    assert (C3 : 31 * u64 * (s + 1) * L <= (s + 3) * L). { replace (31 * u64 * (s + 1) * L) with (31 * u64 * ((s + 1) * L)) by ring. assert (0 <= (s + 1) * L) by (apply Rmult_le_pos; lra). apply Rle_trans with (1 * ((s + 1) * L)); [apply Rmult_le_compat_r; lra|]. lra. }
    assert (C4 : 24 * (1 + 21 * K) * (2 * x + 31 * u64 * (s + 1) * L + 3 * L) <= 3 / 2 * b).
    { apply Rle_trans with (24 * (1 + 21 * K) * (2 * DS)); [apply Rmult_le_compat_l; [lra|]; unfold DS; assert (3 * L <= (s + 3) * L) by (apply Rmult_le_compat_r; lra); lra|].
      replace (24 * (1 + 21 * K) * (2 * DS)) with (48 * DS + 1008 * (K * DS)) by ring. lra. }
    unfold amd_error. apply Rle_trans with ((110 + 3 * M) * (u64 * (2 * b))); [|replace ((110 + 3 * M) * u64 * (D + 2 * b)) with ((110 + 3 * M) * (u64 * (2 * b)) + (110 + 3 * M) * (u64 * D)) by ring; assert (0 <= (110 + 3 * M) * (u64 * D)) by (apply Rmult_le_pos; [lra|apply Rmult_le_pos; lra]); lra].
    assert (UB : 0 <= u64 * b) by (apply Rmult_le_pos; lra).
    assert (C5 : (110 + 3 * m) * (24 * u64 * (1 + 21 * K)) * (2 * x + 31 * u64 * (s + 1) * L + 3 * L) <= (110 + 3 * M) * (3 / 2 * (u64 * b))).
    { replace ((110 + 3 * m) * (24 * u64 * (1 + 21 * K)) * (2 * x + 31 * u64 * (s + 1) * L + 3 * L)) with ((110 + 3 * m) * (u64 * (24 * (1 + 21 * K) * (2 * x + 31 * u64 * (s + 1) * L + 3 * L)))) by ring.
      apply Rle_trans with ((110 + 3 * m) * (u64 * (3 / 2 * b))); [apply Rmult_le_compat_l; [lra|apply Rmult_le_compat_l; lra]|]. replace (u64 * (3 / 2 * b)) with (3 / 2 * (u64 * b)) by ring. apply Rmult_le_compat_r; lra. }
    assert (C6 : 110 * (u64 * b) <= (110 + 3 * M) * (u64 * b)) by (apply Rmult_le_compat_r; lra). lra.
Qed.

(** The AMDs of a list of crystals, read and computed with rounded operations. *)
Definition entries_amds (ar : arith) (rdeg rcos rsin : R -> R) (fuel : nat) (k : nat) (es : list entry) : outcome (list (list R)) :=
  omap (fun e => x <- read_entry ar rdeg rcos rsin e ;; @AMD R (num_of ar) fuel (cs_set (fst x)) k) es.
Definition exact_amds (fuel k : nat) (ccs : list (list (list R) * @crystal_set R)) : outcome (list (list R)) :=
  omap (fun cc => AMD fuel (cs_set (snd cc)) k) ccs.

(** Their rows are close to the AMDs of the exact crystals. *)
Theorem C88_amds : forall ar rdeg rcos rsin s l D b k tol M es ccs, binary64 u64 ar -> representable_dots ar -> trig_like u64 rdeg rcos rsin -> 0 <= s -> M <= 50000 ->
  Forall2 (fun e cc => stated ar rdeg rcos rsin s l D b k false tol e (fst cc) (snd cc) /\ INR (length (ps_motif (cs_set (snd cc)))) <= M) es ccs ->
  exists exact rounded fuel0, (forall fuel, (fuel0 <= fuel)%nat -> exact_amds fuel k ccs = Done exact /\ entries_amds ar rdeg rcos rsin fuel k es = Done rounded) /\
    has_shape (length es) k exact /\ has_shape (length es) k rounded /\ Forall (Forall (fun x => 0 <= x <= D)) exact /\ rows_near (amd_error M D b) exact rounded.
Proof.
  intros ar rdeg rcos rsin s l D b k tol M es ccs BI HR TG Hs HM F. induction F as [|e cc es ccs [ST Hm] F IH].
  - exists [], [], 0%nat. split; [auto|]. repeat split; auto; constructor.
  - destruct IH as (ex & ro & f1 & H1 & [S1 S1'] & [S2 S2'] & S3 & S4).
    destruct (entry_amd ar rdeg rcos rsin s l D b k tol e _ _ M BI HR TG Hs ST Hm HM) as (_ & _ & cs' & warn & x & x' & f2 & E & Lx & Lx' & Rx & H2 & N).
    exists (x :: ex), (x' :: ro), (Nat.max f1 f2). split.
    + intros fuel Hf. destruct (H1 fuel ltac:(lia)) as [A1 A2]. destruct (H2 fuel ltac:(lia)) as [B1 B2]. unfold exact_amds, entries_amds in *. cbn [omap]. rewrite B1, E. cbn [obind fst]. rewrite B2. cbn [obind]. rewrite A1, A2. auto.
    + repeat split; try (simpl; congruence); constructor; auto.
Qed.

Lemma three_errors : forall M D b d, 0 <= M -> 0 <= D -> 0 <= b -> d <= D -> 0 <= amd_error M D b /\ 2 * amd_error M D b + 3 * u64 * (d + 2 * amd_error M D b) <= 3 * amd_error M D b.
Proof.
  intros M D b d HM HD Hb Hd. destruct u64_small as [U _]. pose proof u64_pos as UP. unfold amd_error. set (e := (110 + 3 * M) * u64 * (D + 2 * b)).
  assert (E : 110 * u64 * D <= e). { unfold e. apply Rmult_le_compat; try (repeat apply Rmult_le_pos; lra); try lra. apply Rmult_le_compat_r; lra. }
  assert (0 <= u64 * D) by (apply Rmult_le_pos; lra). assert (u64 * d <= u64 * D) by (apply Rmult_le_compat_l; lra). assert (u64 * e <= 1 / 1000 * e) by (apply Rmult_le_compat_r; lra). lra.
Qed.

Lemma cheb_upto : forall k us vs d D, length us = k -> length vs = k -> Forall (fun x => 0 <= x <= D) us -> Forall (fun x => 0 <= x <= D) vs -> 0 <= D -> is_chebyshev k us vs d -> d <= D.
Proof.
  intros k us vs d D Lu Lv Fu Fv HD [_ [->|(t & Ht & ->)]]; auto. rewrite Forall_forall in Fu, Fv. pose proof (Fu (nth t us 0) ltac:(apply nth_In; lia)). pose proof (Fv (nth t vs 0) ltac:(apply nth_In; lia)). apply Rabs_le. lra.
Qed.

(** A numpy array of these rows. *)
Definition array_of (k : nat) (rows : list (list R)) : coll (T := R) := {| cl_kind := Ndarray; cl_cols := k; cl_rows := rows |}.

(** AMD_pdist of the AMDs of crystals given by the parameters of their cells, binary64 throughout. *)
Theorem C88_entries_pdist : forall ar rdeg rcos rsin s l D b k tol M es ccs, binary64 u64 ar -> representable_dots ar -> trig_like u64 rdeg rcos rsin -> 0 <= s -> 0 <= M <= 50000 -> 0 <= D -> 0 <= b -> (1 <= k)%nat ->
  Forall2 (fun e cc => stated ar rdeg rcos rsin s l D b k false tol e (fst cc) (snd cc) /\ INR (length (ps_motif (cs_set (snd cc)))) <= M) es ccs ->
  exists exact rounded fuel0, (forall fuel, (fuel0 <= fuel)%nat -> exact_amds fuel k ccs = Done exact /\ entries_amds ar rdeg rcos rsin fuel k es = Done rounded) /\
    let m := length es in forall om junk low, (2 * length junk = m * (m - 1))%nat ->
    exists v, @AMD_pdist R (num_of ar) om junk (array_of k rounded) "chebyshev" low = Done v /\ (2 * length v = m * (m - 1))%nat /\
      forall i j d, (i < j < m)%nat -> is_chebyshev k (nth i exact []) (nth j exact []) d ->
        0 <= nth (SpecCompare.before m i j) v 0 /\ Rabs (nth (SpecCompare.before m i j) v 0 - d) <= 3 * amd_error M D b.
Proof.
  intros ar rdeg rcos rsin s l D b k tol M es ccs BI HR TG Hs HM HD Hb Hk F.
  destruct (C88_amds ar rdeg rcos rsin s l D b k tol M es ccs BI HR TG Hs ltac:(lra) F) as (ex & ro & f & H & [S1 S1'] & [S2 S2'] & S3 & S4).
  exists ex, ro, f. split; [exact H|]. intros m om junk low Hj. destruct u64_small as [U _].
  pose proof (b64_for u64 ar 1 BI) as FL. destruct FL as (FL & _); [apply Rle_trans with (powerRZ 2 0); [apply two_le; lia|simpl; lra]|].
  destruct (three_errors M D b 0 ltac:(lra) HD Hb ltac:(lra)) as [E0 _].
  destruct (C88_pdist u64 eta64 ar om junk (array_of k ro) ex k (amd_error M D b) low FL ltac:(lra) Hk) as (v & V1 & V2 & V3); auto; try (unfold m in Hj; congruence).
  - split; [reflexivity|]. split; [exact S2'|left; reflexivity].
  - exists v. split; [exact V1|]. rewrite S1 in V2, V3. fold m in V2, V3. split; [exact V2|]. intros i j d Hij C. destruct (V3 i j d Hij C) as [P Q]. split; [exact P|]. eapply Rle_trans; [exact Q|]. apply three_errors; auto; try lra.
    rewrite Forall_forall in S3, S1'. assert (I : In (nth i ex []) ex) by (apply nth_In; unfold m in Hij; lia). assert (J : In (nth j ex []) ex) by (apply nth_In; unfold m in Hij; lia). apply (cheb_upto k (nth i ex []) (nth j ex [])); auto.
Qed.

(** AMD_cdist of two lists of crystals likewise. *)
Theorem C88_entries_cdist : forall ar rdeg rcos rsin s l D b k tol M es ccs es2 ccs2, binary64 u64 ar -> representable_dots ar -> trig_like u64 rdeg rcos rsin -> 0 <= s -> 0 <= M <= 50000 -> 0 <= D -> 0 <= b -> (1 <= k)%nat ->
  Forall2 (fun e cc => stated ar rdeg rcos rsin s l D b k false tol e (fst cc) (snd cc) /\ INR (length (ps_motif (cs_set (snd cc)))) <= M) es ccs ->
  Forall2 (fun e cc => stated ar rdeg rcos rsin s l D b k false tol e (fst cc) (snd cc) /\ INR (length (ps_motif (cs_set (snd cc)))) <= M) es2 ccs2 ->
  exists exact rounded exact2 rounded2 fuel0, (forall fuel, (fuel0 <= fuel)%nat -> exact_amds fuel k ccs = Done exact /\ entries_amds ar rdeg rcos rsin fuel k es = Done rounded /\
      exact_amds fuel k ccs2 = Done exact2 /\ entries_amds ar rdeg rcos rsin fuel k es2 = Done rounded2) /\
    forall om junk low, has_shape (length es) (length es2) junk ->
    exists dm, @AMD_cdist R (num_of ar) om junk (array_of k rounded) (array_of k rounded2) "chebyshev" low = Done dm /\ has_shape (length es) (length es2) dm /\
      forall i j d, (i < length es)%nat -> (j < length es2)%nat -> is_chebyshev k (nth i exact []) (nth j exact2 []) d ->
        0 <= mx dm i j /\ Rabs (mx dm i j - d) <= 3 * amd_error M D b.
Proof.
  intros ar rdeg rcos rsin s l D b k tol M es ccs es2 ccs2 BI HR TG Hs HM HD Hb Hk F F2.
  destruct (C88_amds ar rdeg rcos rsin s l D b k tol M es ccs BI HR TG Hs ltac:(lra) F) as (ex & ro & f & H & [S1 S1'] & [S2 S2'] & S3 & S4).
  destruct (C88_amds ar rdeg rcos rsin s l D b k tol M es2 ccs2 BI HR TG Hs ltac:(lra) F2) as (ex2 & ro2 & f2 & H2 & [T1 T1'] & [T2 T2'] & T3 & T4).
  exists ex, ro, ex2, ro2, (Nat.max f f2). split; [intros fuel Hf; destruct (H fuel ltac:(lia)); destruct (H2 fuel ltac:(lia)); auto|]. intros om junk low Hj. destruct u64_small as [U _].
  pose proof (b64_for u64 ar 1 BI) as FL. destruct FL as (FL & _); [apply Rle_trans with (powerRZ 2 0); [apply two_le; lia|simpl; lra]|].
  destruct (three_errors M D b 0 ltac:(lra) HD Hb ltac:(lra)) as [E0 _].
  destruct (C88_cdist u64 eta64 ar om junk (array_of k ro) (array_of k ro2) ex ex2 k (amd_error M D b) low FL ltac:(lra) Hk) as (v & V1 & V2 & V3); auto; try (left; reflexivity); try (cbn [array_of cl_rows]; rewrite S2, T2; exact Hj).
  - split; [reflexivity|]. split; [exact S2'|left; reflexivity].
  - split; [reflexivity|]. split; [exact T2'|left; reflexivity].
  - exists v. split; [exact V1|]. rewrite S1, T1 in V2, V3. split; [exact V2|]. intros i j d Hi Hj' C. destruct (V3 i j d Hi Hj' C) as [P Q]. split; [exact P|]. eapply Rle_trans; [exact Q|]. apply three_errors; auto; try lra.
    rewrite Forall_forall in S3, S1', T3, T1'. assert (I : In (nth i ex []) ex) by (apply nth_In; lia). assert (J : In (nth j ex2 []) ex2) by (apply nth_In; lia). apply (cheb_upto k (nth i ex []) (nth j ex2 [])); auto.
Qed.

Lemma omap_nth : forall A B (f : A -> outcome B) l r i a b, omap f l = Done r -> (i < length l)%nat -> f (nth i l a) = Done (nth i r b).
Proof.
  induction l as [|x l IH]; intros r i a b H Hi; cbn [omap] in H; [simpl in Hi; lia|]. destruct (f x) as [y| | |] eqn:E; try discriminate. cbn [obind] in H. destruct (omap f l) as [ys| | |] eqn:El; try discriminate. cbn [obind] in H. injection H as <-.
  destruct i as [|i]; cbn [nth]; [exact E|]. apply IH; auto. simpl in Hi. lia.
Qed.

(** Two descriptions of one crystal in a list: the computed distance is at most the error. *)
Theorem C88_same_crystal : forall ar rdeg rcos rsin s l D b k tol M es ccs i j, binary64 u64 ar -> representable_dots ar -> trig_like u64 rdeg rcos rsin -> 0 <= s -> 0 <= M <= 50000 -> 0 <= D -> 0 <= b -> (1 <= k)%nat ->
  Forall2 (fun e cc => stated ar rdeg rcos rsin s l D b k false tol e (fst cc) (snd cc) /\ INR (length (ps_motif (cs_set (snd cc)))) <= M) es ccs ->
  let m := length es in (i < j < m)%nat -> forall e1 e2 cell cs1 cs2, nth_error es i = Some e1 -> nth_error es j = Some e2 -> nth_error ccs i = Some (cell, cs1) -> nth_error ccs j = Some (cell, cs2) ->
  lawful 3 (with_cell e1 cell) -> lawful 3 (with_cell e2 cell) -> en_tol e2 = en_tol e1 -> covered (en_asym e1) (en_ops e1) (en_asym e2) (en_ops e2) -> covered (en_asym e2) (en_ops e2) (en_asym e1) (en_ops e1) ->
  (en_uniquify e1 = true \/ disjoint_orbits (en_tol e1) (en_asym e1) (en_ops e1)) -> (en_uniquify e2 = true \/ disjoint_orbits (en_tol e2) (en_asym e2) (en_ops e2)) ->
  exists rounded fuel0, (forall fuel, (fuel0 <= fuel)%nat -> entries_amds ar rdeg rcos rsin fuel k es = Done rounded) /\
    forall om junk low, (2 * length junk = m * (m - 1))%nat ->
    exists v, @AMD_pdist R (num_of ar) om junk (array_of k rounded) "chebyshev" low = Done v /\ 0 <= nth (SpecCompare.before m i j) v 0 <= 3 * amd_error M D b.
Proof.
  intros ar rdeg rcos rsin s l D b k tol M es ccs i j BI HR TG Hs HM HD Hb Hk F m Hij e1 e2 cell cs1 cs2 E1 E2 C1 C2 W1 W2 ET V1 V2 U1 U2.
  destruct (C88_entries_pdist ar rdeg rcos rsin s l D b k tol M es ccs BI HR TG Hs HM HD Hb Hk F) as (ex & ro & f & H & P). fold m in P. exists ro, f. split; [intros fuel Hf; apply (H fuel Hf)|].
  intros om junk low Hj. destruct (P om junk low Hj) as (v & Q1 & Q2 & Q3). exists v. split; [exact Q1|].
  assert (ST : forall i e cc, nth_error es i = Some e -> nth_error ccs i = Some cc -> stated ar rdeg rcos rsin s l D b k false tol e (fst cc) (snd cc)).
  { clear - F. induction F as [|e cc es ccs [X _] F IH]; intros [|i] e0 c0 A B; cbn in A, B; try discriminate; [injection A as <-; injection B as <-; auto|eauto]. }
  pose proof (ST _ _ _ E1 C1) as LG1. pose proof (ST _ _ _ E2 C2) as LG2. cbn [fst snd] in LG1, LG2.
  destruct (entry_spread _ _ _ _ _ _ _ _ _ _ _ _ _ _ BI Hs LG1 W1) as (S1 & EC1 & TR). destruct (entry_spread _ _ _ _ _ _ _ _ _ _ _ _ _ _ BI Hs LG2 W2) as (S2 & EC2 & _).
  destruct (st_crystal _ _ _ _ _ _ _ _ _ _ _ _ _ _ LG1) as (w1 & X1). destruct (st_crystal _ _ _ _ _ _ _ _ _ _ _ _ _ _ LG2) as (w2 & X2).
  pose proof (described_displaced 3 (with_cell e1 cell) (with_cell e2 cell) cs1 cs2 w1 w2 ltac:(lia) TR (st_dominant _ _ _ _ _ _ _ _ _ _ _ _ _ _ LG1) W1 W2 eq_refl ET V1 V2 U1 U2 X1 X2) as DS. cbn [with_cell ct_cell] in DS.
  destruct (H f (le_n _)) as [HE _]. unfold exact_amds in HE. pose proof (RoundCalc.F2_len _ _ _ _ _ F) as LF. unfold m in Hij.
  pose proof (omap_nth _ _ _ _ _ i (cell, cs1) [] HE ltac:(lia)) as A1. pose proof (omap_nth _ _ _ _ _ j (cell, cs2) [] HE ltac:(lia)) as A2. rewrite (nth_error_nth _ _ _ C1) in A1. rewrite (nth_error_nth _ _ _ C2) in A2. cbn [snd] in A1, A2.
  assert (CH : is_chebyshev k (nth i ex []) (nth j ex []) 0).
  { assert (Z : forall t, (t < k)%nat -> Rabs (nth t (nth i ex []) 0 - nth t (nth j ex []) 0) <= 0).
    { intros t Ht. pose proof (C79_amd_continuous 3 (cs_set cs1) (cs_set cs2) 0 k f f _ _ t ltac:(lia) ltac:(congruence) S1 S2 ltac:(rewrite EC1; exact DS) A1 A2 Ht). lra. }
    split; [exact Z|left; reflexivity]. }
  destruct (Q3 i j 0 ltac:(unfold m; lia) CH) as [R1 R2]. rewrite Rminus_0_r in R2. split; [exact R1|]. rewrite Rabs_right in R2 by lra. exact R2.
Qed.

(** ** The monoclinic crystal of C87, with and without its inversion *)
Example C88_case : exists rounded fuel0, (forall fuel, (fuel0 <= fuel)%nat -> entries_amds b64 deg64 cos64 sin64 fuel 2 [symmetric_entry; plain_entry] = Done rounded) /\
  forall om junk low, length junk = 1%nat -> exists v, @AMD_pdist R (num_of b64) om junk (array_of 2 rounded) "chebyshev" low = Done v /\ 0 <= nth 0 v 0 <= 2 / 100000000.
Proof.
  assert (E1 : exists cs, read_exactly (with_cell symmetric_entry monoclinic) = Done (cs, []) /\ length (ps_motif (cs_set cs)) = 2%nat).
  { unfold read_exactly, finish. cbn [with_cell symmetric_entry en_tol en_asym en_types en_ops en_uniquify ct_tol ct_cell ct_ops ct_asym ct_types ct_uniquify]. rewrite space_site_motif. cbn [obind]. eexists. split; reflexivity. }
  assert (E2 : exists cs, read_exactly (with_cell plain_entry monoclinic) = Done (cs, []) /\ length (ps_motif (cs_set cs)) = 2%nat).
  { unfold read_exactly, finish. cbn [with_cell plain_entry en_tol en_asym en_types en_ops en_uniquify ct_tol ct_cell ct_ops ct_asym ct_types ct_uniquify]. rewrite space_sites_motif. cbn [obind]. eexists. split; reflexivity. }
  destruct E1 as (cs1 & E1 & L1). destruct E2 as (cs2 & E2 & L2). destruct entries_lawful as [W1 W2]. destruct space_same as [V1 V2].
  destruct (C88_same_crystal b64 deg64 cos64 sin64 1 4 4 220000 2 0 2 [symmetric_entry; plain_entry] [(monoclinic, cs1); (monoclinic, cs2)] 0 1 b64_binary64 b64_dots trig64 ltac:(lra) ltac:(lra) ltac:(lra) ltac:(lra) ltac:(lia)) with (e1 := symmetric_entry) (e2 := plain_entry) (cell := monoclinic) (cs1 := cs1) (cs2 := cs2)
    as (ro & f & H & P); auto; try (simpl; lia); try (left; reflexivity).
  - constructor; [|constructor; [|constructor]]; cbn [fst snd]; (split; [|unfold vec in *; rewrite ?L1, ?L2; simpl; lra]).
    + exact (mono_stated _ _ (or_introl eq_refl) E1).
    + exact (mono_stated _ _ (or_intror eq_refl) E2).
  - exists ro, f. split; [exact H|]. intros om junk low Hj. destruct (P om junk low ltac:(simpl; lia)) as (v & A & B & C). exists v. split; [exact A|]. split; [exact B|]. eapply Rle_trans; [exact C|].
    destruct u64_small as [U _]. assert (US : u64 <= 1 / 9007199254740992) by (unfold u64; simpl; lra). unfold amd_error. lra.
Qed.

(** One AMD and two others, all with errors of up to 1/100: the nearest one is found. *)
Example C88_neighbor : forall XA XB junk, rows_near (1 / 100) [[1; 2]] XA -> rows_near (1 / 100) [[1; 3]; [4; 5]] XB ->
  exists ds, @nearest_items R (fun _ n XB XA => Done (brute_force (@cheb R (num_of b64)) n XB XA)) junk 1 XA (Some XB) [] = Done (ds, [[0%nat]]).
Proof.
  intros XA XB junk HA HB. destruct u64_small as [U _]. pose proof (b64_for u64 b64 1 b64_binary64) as FL. destruct FL as (FL & _); [apply Rle_trans with (powerRZ 2 0); [apply two_le; lia|simpl; lra]|].
  set (dist := fun i j : nat => match j with O => 1 | _ => 3 end). destruct C34_case as (_ & K1 & K2).
  assert (LB : length XB = 2%nat) by (symmetry; apply (RoundCalc.F2_len _ _ _ _ _ HB)).
  destruct (C88_items_two u64 eta64 b64 (fun _ n XB XA => Done (brute_force (@cheb R (num_of b64)) n XB XA)) [] (brute_force (@cheb R (num_of b64))) junk 1 XA XB [[1; 2]] [[1; 3]; [4; 5]] 2 (1 / 100) 3 dist FL ltac:(lra))
    as (ds & inds & E & _ & L & H); auto; try (apply C37_kneighbors); try (unfold vec in *; lia); try lra; try (repeat constructor; fail).
  - intros [|i] j Hi Hj; [|simpl in Hi; lia]. destruct j as [|[|j]]; [| |simpl in Hj; lia]; (split; [|unfold dist; lra]); [exact K1|exact K2].
  - exists ds. rewrite E. do 2 f_equal. destruct inds as [|x [|y inds]]; try discriminate. f_equal. specialize (H 0%nat ltac:(simpl; lia)). cbn [nth] in H. clear E.
    destruct H as [H1 _ H2 _ _ H3]. destruct x as [|i [|j x]]; try discriminate. inversion H2 as [|? ? [V _] _]; subst. cbn [length] in V. f_equal. destruct i as [|[|i]]; [reflexivity| |cbn in V; lia].
    exfalso. specialize (H3 1%nat 0%nat ltac:(simpl; lia) I (or_introl eq_refl) ltac:(intros [X|[]]; discriminate)). unfold dist in H3. lra.
Qed.

Print Assumptions C88_cdist.
Print Assumptions C88_pdist.
Print Assumptions C88_gap.
Print Assumptions C88_items_two.
Print Assumptions C88_items_one.
Print Assumptions C88_amds.
Print Assumptions C88_entries_pdist.
Print Assumptions C88_entries_cdist.
Print Assumptions C88_same_crystal.
Print Assumptions C88_case.
Print Assumptions C88_neighbor.
