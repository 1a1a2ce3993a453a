(** C34, C35, C37, C38: distance matrices and nearest neighbours. *)
From Coq Require Import List ZArith Arith Bool Lia Lra Reals Permutation Sorting.Sorted String.
From Verif Require Import Num Base Outcome Condensed NNModel CalcModel CalcProofs SpecEmd EmdTop CompareModel SpecCompare
  CompareProofs CompareNear.
Import ListNotations.
Open Scope string_scope.
Open Scope R_scope.
Open Scope list_scope.
Notation length := List.length.

(** ** C34 *)

(** A collection of AMDs with [k] entries each; an empty one must be an array. *)
Definition amds_of (k : nat) (c : coll (T := R)) : Prop :=
  cl_cols c = k /\ Forall (fun r => length r = k) (cl_rows c) /\ (cl_kind c = Ndarray \/ cl_rows c <> []).

Lemma fold_max_first : forall l (a : R), 0 <= a -> fold_left (fun s x : R => nmax s x) (a :: l) 0 = fold_left nmax l a.
Proof.
  intros l a Ha. simpl. f_equal. unfold nmax. simpl. replace (Rleb 0 a) with true; auto.
  symmetry. apply Rleb_true. auto.
Qed.

Lemma nabs_nonneg : forall x : R, 0 <= nabs x.
Proof.
  intros x. unfold nabs. simpl. unfold Rleb. destruct (Rle_dec 0 x); lra.
Qed.

Lemma map_map2 : forall A B C D (g : C -> D) (f : A -> B -> C) l1 l2,
  map g (map2 f l1 l2) = map2 (fun a b => g (f a b)) l1 l2.
Proof. induction l1 as [|a l1 IH]; intros [|b l2]; simpl; auto. f_equal. auto. Qed.

Lemma amax_cheb : forall (r v : list R) k, length r = k -> length v = k -> (1 <= k)%nat ->
  obind (row_minus r v) (fun d => amax (map nabs d)) = Done (cheb r v).
Proof.
  intros r v k Hr Hv Hk. unfold row_minus. rewrite Hr, Hv, Nat.eqb_refl. cbn [obind].
  rewrite map_map2. unfold cheb.
  destruct r as [|a r], v as [|b v]; simpl in Hr, Hv; try lia.
  cbn [map2]. rewrite fold_max_first by apply nabs_nonneg. reflexivity.
Qed.

Lemma amax_rows : forall c varr v k, amds_of k c -> (is_array c || varr)%bool = true ->
  length v = k -> (1 <= k)%nat -> amax_abs_diff c varr v = Done (map (fun r => cheb v r) (cl_rows c)).
Proof.
  intros c varr v k (Hc & Hr & Hk) Ha Hv Hk1. unfold amax_abs_diff. rewrite Ha. cbn [negb].
  replace (rectangular (cl_cols c) (cl_rows c)) with true.
  2:{ symmetry. apply forallb_forall. intros r Hin. apply Nat.eqb_eq. rewrite Forall_forall in Hr.
      rewrite Hc. auto. }
  cbn [negb].
  assert (E : omap (fun r => obind (row_minus r v) (fun d => amax (map nabs d))) (cl_rows c) =
              Done (map (fun r => cheb v r) (cl_rows c))).
  { apply omap_ok. intros r Hin. rewrite (amax_cheb r v k); auto.
    - f_equal. apply cheb_sym.
    - rewrite Forall_forall in Hr. auto. }
  destruct (cl_rows c) as [|r rows] eqn:Er.
  - destruct Hk as [Hk|Hk]; [|tauto]. rewrite Hk, Hc, Hv, Nat.eqb_refl. reflexivity.
  - destruct (cl_kind c); exact E.
Qed.

Lemma two_d_ok : forall k c, amds_of k c -> two_d c = true.
Proof.
  intros k c (Hc & Hr & Hk). unfold two_d. apply andb_true_intro. split.
  - apply forallb_forall. intros r Hin. apply Nat.eqb_eq. rewrite Forall_forall in Hr. rewrite Hc. auto.
  - destruct (cl_kind c), (cl_rows c) eqn:E; auto; destruct Hk; try discriminate; tauto.
Qed.

Lemma cheb_matrix : forall k (A B : list (list R)), Forall (fun r => length r = k) A ->
  Forall (fun r => length r = k) B ->
  let dm := map (fun u => map (cheb u) B) A in
  has_shape (length A) (length B) dm /\
  forall i j, (i < length A)%nat -> (j < length B)%nat -> is_chebyshev k (nth i A []) (nth j B []) (mx dm i j).
Proof.
  intros k A B HA HB dm. split.
  - split; [apply map_length|]. apply Forall_forall. intros r Hr. apply in_map_iff in Hr as (u & <- & _).
    apply map_length.
  - intros i j Hi Hj. unfold mx, dm.
    rewrite (nth_indep (map (fun u => map (cheb u) B) A) [] (map (cheb []) B)) by (rewrite map_length; auto).
    rewrite (map_nth (fun u => map (cheb u) B)).
    rewrite (nth_indep (map (cheb (nth i A [])) B) 0 (cheb (nth i A []) [])) by (rewrite map_length; auto).
    rewrite map_nth. rewrite Forall_forall in HA, HB. apply cheb_spec; [apply HA|apply HB]; apply nth_In; auto.
Qed.

(** AMD_cdist: with and without low_memory the same matrix of Chebyshev distances. When the
    second collection is not an array the rows of the first must be arrays. *)
Theorem C34_cdist : forall om junk junk' A B k, (1 <= k)%nat -> amds_of k A -> amds_of k B ->
  (cl_kind B = Ndarray \/ cl_kind A <> ListOfLists) ->
  has_shape (length (cl_rows A)) (length (cl_rows B)) junk ->
  exists dm, AMD_cdist om junk A B "chebyshev" true = Done dm /\
    AMD_cdist om junk' A B "chebyshev" false = Done dm /\
    has_shape (length (cl_rows A)) (length (cl_rows B)) dm /\
    forall i j, (i < length (cl_rows A))%nat -> (j < length (cl_rows B))%nat ->
      is_chebyshev k (nth i (cl_rows A) []) (nth j (cl_rows B) []) (mx dm i j).
Proof.
  intros om junk junk' A B k Hk HA HB Hkind [Hj _].
  exists (map (fun u => map (cheb u) (cl_rows B)) (cl_rows A)). split; [|split].
  - unfold AMD_cdist. cbn [String.eqb negb].
    change (String.eqb "chebyshev" "chebyshev") with true. cbn [negb].
    apply (fill _ _ (amax_abs_diff B (rows_are_arrays A)) (fun u => map (cheb u) (cl_rows B))); auto.
    intros v Hv. apply (amax_rows B _ v k HB).
    + unfold is_array, rows_are_arrays. destruct Hkind as [->|Hn]; auto. destruct (cl_kind A); try tauto; apply orb_true_r.
    + destruct HA as (_ & HA & _). rewrite Forall_forall in HA. auto.
    + auto.
  - unfold AMD_cdist, scipy_cdist. rewrite (two_d_ok k A HA), (two_d_ok k B HB).
    destruct HA as (-> & _), HB as (-> & _). rewrite Nat.eqb_refl. reflexivity.
  - apply cheb_matrix; [apply HA|apply HB].
Qed.

Lemma from_ok : forall k c i, cl_kind c = Ndarray -> amds_of k c -> amds_of k (from c i).
Proof.
  intros k c i Hn (Hc & Hr & _). split; [auto|split; [|left; auto]]. simpl.
  apply Forall_forall. intros r Hin. rewrite Forall_forall in Hr. apply Hr.
  rewrite <- (firstn_skipn i (cl_rows c)). apply in_or_app. auto.
Qed.

Lemma pdist_low : forall om junk c k, (1 <= k)%nat -> amds_of k c -> cl_kind c = Ndarray ->
  length junk = length (pairs (length (cl_rows c))) ->
  AMD_pdist om junk c "chebyshev" true =
  Done (condensed (fun i j => cheb (nth i (cl_rows c) []) (nth j (cl_rows c) [])) (length (cl_rows c))).
Proof.
  intros om junk c k Hk Hc Hn Hj. unfold AMD_pdist. change (String.eqb "chebyshev" "chebyshev") with true. cbn [negb].
  set (rows := cl_rows c) in *. set (m := length rows) in *.
  set (f := fun i j => cheb (nth i rows []) (nth j rows [])).
  set (step := fun i => obind (get_at rows i) (fun v => amax_abs_diff (from c (S i)) (rows_are_arrays c) v)).
  pose proof (blocks_from f m step) as X.
  assert (Hstep : forall i, (i < m)%nat -> step i = Done (map (f i) (seq (S i) (m - S i)))).
  { intros i Hi. unfold step. rewrite get_at_nth with (d := []) by auto. cbn [obind].
    rewrite (amax_rows (from c (S i)) _ _ k).
    - cbn [from cl_rows]. rewrite (skipn_as_map _ [] (cl_rows c) (S i)). rewrite map_map. reflexivity.
    - apply from_ok; auto.
    - unfold is_array, from. simpl. rewrite Hn. auto.
    - destruct Hc as (_ & Hr & _). rewrite Forall_forall in Hr. apply Hr, nth_In. auto.
    - auto. }
  specialize (X Hstep m 0%nat [] junk). cbn [app List.length] in X.
  rewrite <- condensed_blocks in X. rewrite condensed_length in X. specialize (X eq_refl Hj).
  match goal with |- obind (ofold ?F _ _) _ = _ => rewrite (ofold_ext _ _ F
    (fun (st : list R * nat) i =>
             let '(cdm, ind) := st in
             let ind_ := (ind + m - i - 1)%nat in
             obind (step i) (fun row => obind (set_slice cdm ind ind_ row) (fun c => Done (c, ind_))))) end.
  - cbv zeta in X |- *. rewrite X. reflexivity.
  - intros [cdm ind] i _. unfold step. destruct (get_at rows i); reflexivity.
Qed.

Lemma before_cidx : forall m i j, (i < j < m)%nat -> before m i j = cidx m i j.
Proof.
  intros m i j H. unfold before. pose proof (cidx_formula m i j H) as E.
  replace (2 * m * i - i * (i + 1))%nat with (i * (2 * m - i - 1))%nat in E by nia.
  set (a := (i * (2 * m - i - 1))%nat) in *.
  assert (Ea : a = (2 * (cidx m i j - (j - i - 1)))%nat).
  { assert (2 * cidx m i j = a + 2 * (j - i - 1))%nat by lia. lia. }
  assert (2 * cidx m i j = a + 2 * (j - i - 1))%nat by lia.
  rewrite Ea. rewrite Nat.mul_comm. rewrite Nat.div_mul by lia. lia.
Qed.

(** AMD_pdist of an array, likewise, with the entry for items i < j in its place. *)
Theorem C34_pdist : forall om junk junk' A k, (1 <= k)%nat -> amds_of k A -> cl_kind A = Ndarray ->
  let m := length (cl_rows A) in
  (2 * length junk = m * (m - 1))%nat ->
  exists v, AMD_pdist om junk A "chebyshev" true = Done v /\
    AMD_pdist om junk' A "chebyshev" false = Done v /\ (2 * length v = m * (m - 1))%nat /\
    forall i j, (i < j < m)%nat ->
      is_chebyshev k (nth i (cl_rows A) []) (nth j (cl_rows A) []) (nth (before m i j) v 0).
Proof.
  intros om junk junk' A k Hk HA Hn m Hj. pose proof (pairs_count m) as C.
  eexists. split; [apply (pdist_low om junk A k); auto; fold m; lia|]. split; [|split].
  - unfold AMD_pdist, scipy_pdist. rewrite (two_d_ok k A HA). reflexivity.
  - rewrite condensed_length. exact C.
  - intros i j Hij. fold m. rewrite before_cidx, condensed_nth by auto.
    destruct HA as (_ & Hr & _). rewrite Forall_forall in Hr.
    apply cheb_spec; apply Hr, nth_In; fold m; lia.
Qed.

(** With low_memory other metrics raise ValueError. *)
Theorem C34_metric : forall om junk junk' (A B : coll (T := R)) metric, metric <> "chebyshev"%string ->
  AMD_cdist om junk A B metric true = Raise ValueError /\
  AMD_pdist om junk' A metric true = Raise ValueError.
Proof.
  intros om junk junk' A B metric Hm. unfold AMD_cdist, AMD_pdist.
  apply String.eqb_neq in Hm. rewrite Hm. auto.
Qed.

(** The documentation accepts lists of AMDs. For every non-empty list the low memory version
    of AMD_pdist raises; the default one returns. *)
Theorem C34_pdist_list_raises : forall om junk junk' A k, (1 <= k)%nat -> amds_of k A -> cl_kind A = ListOfArrays ->
  (2 * length junk = length (cl_rows A) * (length (cl_rows A) - 1))%nat ->
  AMD_pdist om junk A "chebyshev" true = Raise ValueError /\
  exists v, AMD_pdist om junk' A "chebyshev" false = Done v.
Proof.
  intros om junk junk' A k Hk HA Hkind Hj. split.
  - unfold AMD_pdist. change (String.eqb "chebyshev" "chebyshev") with true. cbn [negb].
    set (rows := cl_rows A) in *. set (m := length rows) in *.
    assert (Hm : (1 <= m)%nat).
    { destruct HA as (_ & _ & [E|E]); [congruence|]. unfold m, rows. destruct (cl_rows A); [tauto|simpl; lia]. }
    set (f := fun i j => cheb (nth i rows []) (nth j rows [])).
    set (F := fun (st : list R * nat) i => let '(cdm, ind) := st in
                    let ind_ := (ind + m - i - 1)%nat in
                    obind (get_at rows i) (fun v =>
                    obind (amax_abs_diff (from A (S i)) (rows_are_arrays A) v) (fun row =>
                    obind (set_slice cdm ind ind_ row) (fun cdm' => Done (cdm', ind_))))).
    assert (Hnext : forall i, (S i < m)%nat ->
      amax_abs_diff (from A (S i)) (rows_are_arrays A) (nth i rows []) = Done (map (f i) (seq (S i) (m - S i)))).
    { intros i Hi. rewrite (amax_rows (from A (S i)) _ _ k).
      - cbn [from cl_rows]. rewrite (skipn_as_map _ [] (cl_rows A) (S i)). rewrite map_map. reflexivity.
      - destruct HA as (Hc & Hr & _). split; [auto|split].
        + simpl. apply Forall_forall. intros r Hin. rewrite Forall_forall in Hr. apply Hr.
          rewrite <- (firstn_skipn (S i) (cl_rows A)). apply in_or_app. auto.
        + right. cbn [from cl_rows]. intros E. apply (f_equal (@List.length _)) in E. rewrite skipn_length in E. fold rows in E. fold m in E.
          simpl in E. lia.
      - unfold rows_are_arrays. rewrite Hkind. apply orb_true_r.
      - destruct HA as (_ & Hr & _). rewrite Forall_forall in Hr. apply Hr, nth_In. fold rows. fold m. lia.
      - auto. }
    assert (G : forall n i cdm ind, (i + S n = m)%nat ->
      (ind + length (flat_map (fun i => map (f i) (seq (S i) (m - S i))) (seq i (S n))) = length cdm)%nat ->
      ofold F (seq i (S n)) (cdm, ind) = Raise ValueError).
    { induction n as [|n IH]; intros i cdm ind Hi Hl.
      - simpl. rewrite get_at_nth with (d := []) by (fold m; lia). cbn [obind].
        replace (amax_abs_diff _ _ _) with (@Raise (list R) ValueError); [reflexivity|].
        unfold amax_abs_diff, from, is_array, rows_are_arrays. simpl.
        assert (E : skipn (S i) (cl_rows A) = []) by (apply skipn_all2; fold rows; fold m; lia).
        simpl in E. rewrite Hkind, E. reflexivity.
      - change (seq i (S (S n))) with (i :: seq (S i) (S n)) in *. cbn [flat_map] in Hl. rewrite app_length in Hl.
        cbn [ofold]. unfold F at 1. rewrite get_at_nth with (d := []) by (fold m; lia). cbn [obind].
        rewrite Hnext by lia. cbn [obind].
        set (blk := map (f i) (seq (S i) (m - S i))) in *.
        assert (Lb : length blk = (m - S i)%nat) by (unfold blk; rewrite map_length, seq_length; auto).
        unfold set_slice.
        replace (length blk =? _)%nat with true by (symmetry; apply Nat.eqb_eq; lia).
        cbn [obind]. apply IH; [lia|].
        rewrite !app_length, firstn_length, skipn_length. lia. }
    change (obind (ofold F (seq 0 m) (junk, 0%nat)) (fun x => let '(cdm, _) := x in Done cdm) = Raise ValueError).
    assert (Hs : exists n, m = S n) by (exists (m - 1)%nat; lia). destruct Hs as [n Hs].
    rewrite Hs at 1. rewrite G; auto.
    rewrite <- Hs, <- condensed_blocks, condensed_length. pose proof (pairs_count m). lia.
  - unfold AMD_pdist, scipy_pdist. rewrite (two_d_ok k A HA). eexists. reflexivity.
Qed.

Theorem C34_pdist_list_refuted : exists A, amds_of 2 A /\ length (cl_rows A) = 2%nat /\
  AMD_pdist (fun _ => None) [0] A "chebyshev" true = Raise ValueError /\
  exists v, AMD_pdist (fun _ => None) [0] A "chebyshev" false = Done v.
Proof.
  set (A := {| cl_kind := ListOfArrays; cl_cols := 2; cl_rows := [[1; 2]; [1; 3]] |}).
  exists A. assert (HA : amds_of 2 A).
  { split; [reflexivity|split; [|right; discriminate]]. simpl. auto. }
  split; [auto|split; [reflexivity|]]. apply (C34_pdist_list_raises _ _ _ A 2); auto.
Qed.

(** AMDs of different lengths: rejected by default, but an AMD with one entry is compared with
    every entry of a longer one with low_memory. *)
Theorem C34_lengths_refuted : exists A B dm, amds_of 1 A /\ amds_of 3 B /\
  AMD_cdist (fun _ => None) [[0]] A B "chebyshev" true = Done dm /\
  AMD_cdist (fun _ => None) [[0]] A B "chebyshev" false = Raise ValueError.
Proof.
  exists {| cl_kind := Ndarray; cl_cols := 1; cl_rows := [[1]] |}.
  exists {| cl_kind := Ndarray; cl_cols := 3; cl_rows := [[1; 2; 3]] |}.
  eexists. split; [|split; [|split]].
  - split; [reflexivity|split; [|left; reflexivity]]. simpl. auto.
  - split; [reflexivity|split; [|left; reflexivity]]. simpl. auto.
  - reflexivity.
  - reflexivity.
Qed.

(** Inputs meeting the conditions, with distances 1 and 3. *)
Definition case_amds : coll (T := R) := {| cl_kind := Ndarray; cl_cols := 2; cl_rows := [[1; 2]; [1; 3]; [4; 5]] |}.
Example C34_case : amds_of 2 case_amds /\ is_chebyshev 2 [1; 2] [1; 3] 1 /\ is_chebyshev 2 [1; 2] [4; 5] 3.
Proof.
  split; [|split].
  - split; [reflexivity|split; [|left; reflexivity]]. simpl. auto.
  - split.
    + intros [|[|t]] Ht; simpl; [rewrite Rabs_right; lra|rewrite Rabs_left; lra|lia].
    + right. exists 1%nat. split; [lia|]. simpl. rewrite Rabs_left; lra.
  - split.
    + intros [|[|t]] Ht; simpl; [rewrite Rabs_left; lra|rewrite Rabs_left; lra|lia].
    + right. exists 1%nat. split; [lia|]. simpl. rewrite Rabs_left; lra.
Qed.

(** ** C35 *)

Lemma get_at_some : forall A (l : list A) i, (i < length l)%nat -> exists a, nth_error l i = Some a /\ get_at l i = Done a.
Proof.
  intros A l i Hi. unfold get_at. destruct (nth_error l i) as [a|] eqn:E.
  - exists a. auto.
  - apply nth_error_None in E. lia.
Qed.

Lemma table_entries : forall n m (e : nat -> nat -> R),
  let dm := map (fun i => map (e i) (seq 0 m)) (seq 0 n) in
  has_shape n m dm /\ forall i j, (i < n)%nat -> (j < m)%nat -> mx dm i j = e i j.
Proof.
  intros n m e dm. split.
  - split; [unfold dm; rewrite map_length, seq_length; auto|]. apply Forall_forall. intros r Hr.
    apply in_map_iff in Hr as (i & <- & _). rewrite map_length, seq_length. auto.
  - intros i j Hi Hj. unfold mx, dm.
    rewrite (nth_indep _ [] (map (e 0%nat) (seq 0 m))) by (rewrite map_length, seq_length; auto).
    rewrite (map_nth (fun i => map (e i) (seq 0 m))), seq_nth by auto.
    rewrite (nth_indep _ 0 (e (0 + i)%nat 0%nat)) by (rewrite map_length, seq_length; auto).
    rewrite map_nth, seq_nth by auto. auto.
Qed.

Section C35.
  Context (P : Type) (emd : string -> P -> P -> outcome R).

  Lemma cdist_table : forall metric pdds pdds_ e, pdds <> [] ->
    (forall i j p q, nth_error pdds i = Some p -> nth_error pdds_ j = Some q -> emd metric p q = Done (e i j)) ->
    forall n_jobs junk sched, has_shape (length pdds) (length pdds_) junk ->
    Permutation sched (seq 0 (length pdds * length pdds_)) ->
    PDD_cdist P emd junk sched pdds pdds_ metric n_jobs =
    Done (map (fun i => map (e i) (seq 0 (length pdds_))) (seq 0 (length pdds))).
  Proof.
    intros metric pdds pdds_ e Hne He n_jobs junk sched Hj Hs. unfold PDD_cdist.
    destruct pdds as [|p0 pdds']; [tauto|]. cbv iota. set (pdds := p0 :: pdds') in *.
    set (n := length pdds) in *. set (m := length pdds_) in *.
    set (entry := fun ij : nat * nat => obind (get_at pdds (fst ij)) (fun p => obind (get_at pdds_ (snd ij)) (fun q => emd metric p q))).
    assert (Hent : forall i j, (i < n)%nat -> (j < m)%nat -> entry (i, j) = Done (e i j)).
    { intros i j Hi Hj'. unfold entry. cbn [fst snd].
      destruct (get_at_some _ pdds i Hi) as (p & N1 & G1). destruct (get_at_some _ pdds_ j Hj') as (q & N2 & G2).
      rewrite G1. cbn [obind]. rewrite G2. cbn [obind]. eauto. }
    destruct (match n_jobs with None => false | Some z => negb ((z =? 0) || (z =? 1))%Z end).
    - rewrite (parallel_ok _ _ entry (fun ij => e (fst ij) (snd ij))).
      + cbn [obind]. unfold reshape. rewrite map_length, flat_table_length, seq_length, Nat.eqb_refl. f_equal.
        pose proof (reshape_table _ e m (seq 0 n) []) as X. rewrite app_nil_r, seq_length in X. exact X.
      + intros [i j] Hin. apply in_table in Hin as [Hi Hj']. cbn [fst snd]. apply Hent; auto.
      + rewrite flat_table_length, seq_length. exact Hs.
    - pose proof (fill2 _ entry e n m [] junk) as X. cbn [app List.length] in X. apply X; auto.
  Qed.

  (** PDD_cdist: entry (i, j) is the EMD of pdds[i] and pdds_[j], for every number of jobs, every
      order in which workers finish and whatever the preallocated array contains. *)
  Theorem C35_cdist : forall metric pdds pdds_ e, pdds <> [] ->
    (forall i j p q, nth_error pdds i = Some p -> nth_error pdds_ j = Some q -> emd metric p q = Done (e i j)) ->
    exists dm, has_shape (length pdds) (length pdds_) dm /\
      (forall i j, (i < length pdds)%nat -> (j < length pdds_)%nat -> mx dm i j = e i j) /\
      forall n_jobs junk sched, has_shape (length pdds) (length pdds_) junk ->
        Permutation sched (seq 0 (length pdds * length pdds_)) ->
        PDD_cdist P emd junk sched pdds pdds_ metric n_jobs = Done dm.
  Proof.
    intros metric pdds pdds_ e Hne He.
    destruct (table_entries (length pdds) (length pdds_) e) as [H1 H2].
    eexists. split; [exact H1|split; [exact H2|]]. intros. apply cdist_table; auto.
  Qed.

  Lemma pdist_condensed : forall metric pdds e, pdds <> [] ->
    (forall i j p q, (i < j)%nat -> nth_error pdds i = Some p -> nth_error pdds j = Some q -> emd metric p q = Done (e i j)) ->
    forall n_jobs junk sched, (2 * length junk = length pdds * (length pdds - 1))%nat ->
    Permutation sched (seq 0 (length junk)) ->
    PDD_pdist P emd junk sched pdds metric n_jobs = Done (condensed e (length pdds)).
  Proof.
    intros metric pdds e Hne He n_jobs junk sched Hj Hs. unfold PDD_pdist.
    destruct pdds as [|p0 pdds']; [tauto|]. cbv iota. set (pdds := p0 :: pdds') in *.
    set (m := length pdds) in *.
    assert (Lj : length junk = length (pairs m)) by (pose proof (pairs_count m); lia).
    set (entry := fun ij : nat * nat => obind (get_at pdds (fst ij)) (fun p => obind (get_at pdds (snd ij)) (fun q => emd metric p q))).
    assert (Hent : forall ij, In ij (pairs m) -> entry ij = Done (e (fst ij) (snd ij))).
    { intros [i j] Hin. apply pairs_In in Hin. unfold entry. cbn [fst snd].
      destruct (get_at_some _ pdds i ltac:(fold m; lia)) as (p & N1 & G1).
      destruct (get_at_some _ pdds j ltac:(fold m; lia)) as (q & N2 & G2).
      rewrite G1. cbn [obind]. rewrite G2. cbn [obind]. apply He; auto. lia. }
    assert (Hm : (1 <= m)%nat) by (unfold m, pdds; simpl; lia).
    destruct (match n_jobs with None => false | Some z => (1 <? z)%Z end).
    - rewrite (parallel_ok _ _ entry (fun ij => e (fst ij) (snd ij))); auto. rewrite <- Lj. exact Hs.
    - replace (flat_map (fun i => map (fun j => (i, j)) (seq (i + 1) (m - (i + 1)))) (seq 0 (m - 1))) with (pairs m).
      + apply (fill _ _ entry (fun ij => e (fst ij) (snd ij))); auto.
      + clear - Hm. clearbody m. unfold pairs.
        assert (Es : seq 0 m = seq 0 (m - 1) ++ [(m - 1)%nat]).
        { replace (seq 0 m) with (seq 0 ((m - 1) + 1)) by (f_equal; lia). rewrite seq_app. reflexivity. }
        rewrite Es, flat_map_app.
        cbn [flat_map]. unfold pairs_from at 2. replace (m - S (m - 1))%nat with 0%nat by lia. simpl. rewrite app_nil_r.
        apply flat_map_ext. intros i. unfold pairs_from. replace (i + 1)%nat with (S i) by lia. auto.
  Qed.

  (** PDD_pdist: the EMD of pdds[i] and pdds[j] for i < j stands in its place of the condensed
      matrix, and squareform gives the symmetric matrix with zeros on the diagonal. *)
  Theorem C35_pdist : forall metric pdds e, pdds <> [] ->
    (forall i j p q, (i < j)%nat -> nth_error pdds i = Some p -> nth_error pdds j = Some q -> emd metric p q = Done (e i j)) ->
    let m := length pdds in
    exists v M, (2 * length v = m * (m - 1))%nat /\
      (forall i j, (i < j < m)%nat -> nth (before m i j) v 0 = e i j) /\
      squareform_matrix v = Done M /\ has_shape m m M /\
      (forall i, (i < m)%nat -> mx M i i = 0) /\
      (forall i j, (i < j < m)%nat -> mx M i j = e i j /\ mx M j i = e i j) /\
      forall n_jobs junk sched, (2 * length junk = m * (m - 1))%nat ->
        Permutation sched (seq 0 (length junk)) ->
        PDD_pdist P emd junk sched pdds metric n_jobs = Done v.
  Proof.
    intros metric pdds e Hne He m. exists (condensed e m).
    assert (Hm : (1 <= m)%nat) by (unfold m; destruct pdds; [tauto|simpl; lia]).
    eexists. split; [rewrite condensed_length; apply pairs_count|]. split.
    { intros i j Hij. rewrite before_cidx by auto. apply condensed_nth. auto. }
    split; [apply squareform_matrix_condensed; auto|].
    destruct (table_entries m m (fun i j => if (i =? j)%nat then 0 else if (i <? j)%nat then e i j else e j i)) as [H1 H2].
    split; [exact H1|]. split; [|split].
    - intros i Hi. change (@n0 R NumR) with 0. rewrite H2 by auto. rewrite Nat.eqb_refl. auto.
    - intros i j Hij. change (@n0 R NumR) with 0. rewrite !H2 by lia.
      rewrite (proj2 (Nat.eqb_neq i j)), (proj2 (Nat.eqb_neq j i)), (proj2 (Nat.ltb_lt i j)), (proj2 (Nat.ltb_ge j i)) by lia.
      auto.
    - intros. apply pdist_condensed; auto.
  Qed.

  (** No PDDs at all raise IndexError. *)
  Theorem C35_empty : forall metric pdds_ n_jobs junk junk' sched,
    PDD_cdist P emd junk sched [] pdds_ metric n_jobs = Raise IndexError /\
    PDD_pdist P emd junk' sched [] metric n_jobs = Raise IndexError.
  Proof. auto. Qed.
End C35.

(** Three items, with workers finishing in the order 2, 0, 1. *)
Example C35_case :
  PDD_pdist R (fun _ x y => Done (y - x)) [7; 7; 7] [2; 0; 1]%nat [1; 3; 6] "chebyshev" (Some 4%Z) = Done [3 - 1; 6 - 1; 6 - 3] /\
  Permutation [2; 0; 1]%nat (seq 0 3).
Proof.
  split; [reflexivity|]. apply perm_trans with [0; 2; 1]%nat; [apply perm_swap|]. apply perm_skip, perm_swap.
Qed.

(** ** C37 *)

(** From a 2D matrix: the n nearest columns of each row. *)
Theorem C37_two_collections : forall ap g n m rows, argpartition_ok ap -> argsort_ok g ->
  has_shape (length rows) m rows -> rows <> [] -> (n < m)%nat ->
  exists nn inds, neighbors_from_distance_matrix ap g n (Square rows) = Done (nn, inds) /\
    length nn = length rows /\ length inds = length rows /\
    forall i, (i < length rows)%nat ->
      nearest_of m (fun _ => True) (fun j => mx rows i j) n (nth i inds []) (nth i nn []).
Proof.
  intros ap g n m rows Hap Hg Hs Hne Hn. apply neighbors_square; auto.
  destruct rows; [tauto|simpl; lia].
Qed.

(** From a condensed matrix of [m] items: the n nearest other items. The place of the distance
    between items i and j is spelled out. *)
Theorem C37_one_collection : forall ap g n m v (dist : nat -> nat -> R), argpartition_ok ap -> argsort_ok g ->
  (2 * length v = m * (m - 1))%nat -> (n + 1 < m)%nat -> Forall (fun d => 0 <= d) v ->
  (forall i j, (i < j < m)%nat -> dist i j = nth (before m i j) v 0 /\ dist j i = nth (before m i j) v 0) ->
  exists nn inds, neighbors_from_distance_matrix ap g n (Condensed v) = Done (nn, inds) /\
    length nn = m /\ length inds = m /\
    forall i, (i < m)%nat ->
      nearest_of m (fun j => j <> i) (fun j => dist i j) n (nth i inds []) (nth i nn []).
Proof.
  intros ap g n m v dist Hap Hg Hl Hn Hp Hd.
  destruct (neighbors_condensed ap g n m v Hap Hg) as (nn & is & E & L1 & L2 & N); auto.
  - lia.
  - pose proof (pairs_count m). lia.
  - exists nn, is. split; [auto|split; [auto|split; [auto|]]]. intros i Hi.
    destruct (N i Hi) as [Nc Nd Nn Nv Ns Nr].
    assert (Ed : forall j, (j < m)%nat -> j <> i -> squareform 0 m v i j = dist i j).
    { intros j Hj Hji. unfold squareform. rewrite (proj2 (Nat.eqb_neq i j)) by auto.
      destruct (Nat.ltb_spec i j).
      - rewrite <- before_cidx by lia. symmetry. apply Hd. lia.
      - rewrite <- before_cidx by lia. symmetry. apply (Hd j i). lia. }
    constructor; auto.
    + rewrite Nd. apply map_ext_in. intros j Hj. rewrite Forall_forall in Nv. apply Nv in Hj as [Hj Hji]. auto.
    + intros j Hj Hji Hnj. rewrite <- Ed by auto. apply Nr; auto.
Qed.

(** From the AMDs with scikit-learn: all n nearest other rows of one collection, or rows of a
    second one. *)
Theorem C37_items_one : forall kn opts dist f junk n XA, (forall n XB XA, kn opts n XB XA = Done (f n XB XA)) ->
  kneighbors_ok dist f -> (1 <= n < length XA)%nat -> has_shape (length XA) n junk ->
  exists ds inds, nearest_items kn junk n XA None opts = Done (ds, inds) /\
    length ds = length XA /\ length inds = length XA /\
    forall i, (i < length XA)%nat ->
      nearest_of (length XA) (fun j => j <> i) (fun j => dist (nth i XA []) (nth j XA [])) n (nth i inds []) (nth i ds []).
Proof. intros. eapply nearest_items_one; eauto. Qed.

Theorem C37_items_two : forall kn opts dist f junk n XA XB, (forall n XB XA, kn opts n XB XA = Done (f n XB XA)) ->
  kneighbors_ok dist f -> (1 <= n <= length XB)%nat ->
  exists ds inds, nearest_items kn junk n XA (Some XB) opts = Done (ds, inds) /\
    length ds = length XA /\ length inds = length XA /\
    forall i, (i < length XA)%nat ->
      nearest_of (length XB) (fun _ => True) (fun j => dist (nth i XA []) (nth j XB [])) n (nth i inds []) (nth i ds []).
Proof. intros. eapply nearest_items_two; eauto. Qed.

(** ** C38 *)

(** Asking _neighbors_from_distance_matrix for all other items raises ValueError, whatever
    the matrix. *)
Theorem C38_two_collections_raises : forall ap g m (rows : list (list R)), has_shape (length rows) m rows -> rows <> [] ->
  neighbors_from_distance_matrix ap g m (Square rows) = Raise ValueError.
Proof.
  intros ap g m rows [_ Hs] Hne. destruct rows as [|r rows]; [tauto|]. inversion Hs; subst.
  unfold neighbors_from_distance_matrix. cbn [omap]. unfold np_argpartition at 1. rewrite Nat.ltb_irrefl. reflexivity.
Qed.

Theorem C38_one_collection_raises : forall ap g m (v : list R), (1 <= m)%nat -> (2 * length v = m * (m - 1))%nat ->
  neighbors_from_distance_matrix ap g (m - 1) (Condensed v) = Raise ValueError.
Proof.
  intros ap g m v Hm Hl. unfold neighbors_from_distance_matrix, squareform_matrix.
  assert (E : length v = length (pairs m)) by (pose proof (pairs_count m); lia).
  rewrite E, square_dim_pairs by auto. cbn [obind].
  destruct m as [|m]; [lia|]. cbn [seq map enumerate List.length combine omap].
  unfold enumerate. cbn [List.length seq combine omap].
  unfold np_argpartition at 1. cbn [snd].
  replace (S m - 1 + 1 <? _)%nat with false; [reflexivity|]. symmetry. apply Nat.ltb_ge.
  cbn [List.length]. rewrite map_length, seq_length. lia.
Qed.

(** ** The assumptions about library functions can be met *)
Definition order_of (row : list R) : list nat :=
  isort (fun i j => Rleb (nth i row 0) (nth j row 0)) (seq 0 (length row)).

Lemma order_of_perm : forall row, Permutation (order_of row) (seq 0 (length row)).
Proof. intros. apply Permutation_sym, isort_perm. Qed.

Lemma order_of_sorted : forall row, StronglySorted (fun i j => nth i row 0 <= nth j row 0) (order_of row).
Proof.
  intros row. unfold order_of.
  pose proof (isort_sorted (fun i j => Rleb (nth i row 0) (nth j row 0))) as S.
  specialize (S ltac:(intros; rewrite !Rleb_true; lra) ltac:(intros x y z; rewrite !Rleb_true; lra)
    (seq 0 (length row))).
  induction S as [|a l S IH F]; constructor; auto.
  eapply Forall_impl; [|exact F]. intros b Hb. apply Rleb_true in Hb. auto.
Qed.

Lemma sorted_nth : forall A (le : A -> A -> Prop) l d a b, StronglySorted le l -> (a < b < length l)%nat ->
  le (nth a l d) (nth b l d).
Proof.
  induction l as [|x l IH]; intros d a b S H; simpl in H; [lia|]. inversion S; subst.
  destruct b as [|b]; [lia|]. destruct a as [|a]; simpl.
  - rewrite Forall_forall in H3. apply H3, nth_In. lia.
  - apply IH; auto. lia.
Qed.

Example C37_argsort : argsort_ok order_of.
Proof.
  intros row. split; [apply order_of_perm|]. pose proof (order_of_sorted row) as S.
  induction S as [|a l S IH F]; simpl; constructor; auto. rewrite Forall_map. auto.
Qed.

Example C37_argpartition : argpartition_ok (fun row _ => order_of row).
Proof.
  intros row kth Hk. split; [apply order_of_perm|].
  assert (L : length (order_of row) = length row) by (rewrite (Permutation_length (order_of_perm row)), seq_length; auto).
  pose proof (order_of_sorted row) as S.
  split; [intros a Ha|intros b Hb]; apply (sorted_nth _ _ _ 0%nat _ _ S); lia.
Qed.

Definition brute_force (dist : list R -> list R -> R) (n : nat) (XB XA : list (list R)) : list (list (R * nat)) :=
  map (fun u => map (fun j => (dist u (nth j XB []), j)) (firstn n (order_of (map (dist u) XB)))) XA.

Example C37_kneighbors : forall dist, kneighbors_ok dist (brute_force dist).
Proof.
  intros dist n XB XA Hn. unfold brute_force. split; [apply map_length|]. intros i Hi.
  set (g := fun u => map (fun j => (dist u (nth j XB []), j)) (firstn n (order_of (map (dist u) XB)))).
  rewrite (nth_indep (map g XA) [] (g [])) by (rewrite map_length; auto). rewrite map_nth.
  set (u := nth i XA []). unfold g. rewrite !map_map. simpl. rewrite map_id.
  set (row := map (dist u) XB).
  assert (Lr : length row = length XB) by apply map_length.
  assert (Er : forall j, (j < length XB)%nat -> nth j row 0 = dist u (nth j XB [])).
  { intros j Hj. unfold row. rewrite (nth_indep _ 0 (dist u [])) by (rewrite map_length; auto). apply map_nth. }
  pose proof (order_of_perm row) as Hp. rewrite Lr in Hp.
  assert (L : length (order_of row) = length XB) by (rewrite (Permutation_length Hp), seq_length; auto).
  assert (Hin : forall j, In j (order_of row) -> (j < length XB)%nat).
  { intros j Hj. apply (Permutation_in _ Hp), in_seq in Hj. lia. }
  constructor.
  - rewrite firstn_length. lia.
  - reflexivity.
  - apply NoDup_firstn'. apply (Permutation_NoDup (Permutation_sym Hp)), seq_NoDup.
  - apply Forall_forall. intros j Hj. apply in_firstn in Hj. auto.
  - pose proof (sorted_firstn _ _ n _ (order_of_sorted row)) as S.
    assert (Hin' : forall j, In j (firstn n (order_of row)) -> (j < length XB)%nat) by (intros j Hj; apply in_firstn in Hj; auto).
    induction S as [|a l S IH F]; simpl; constructor.
    + apply IH. intros; apply Hin'; right; auto.
    + rewrite Forall_map. rewrite Forall_forall in F |- *. intros b Hb. rewrite <- !Er; [apply F; auto| |]; apply Hin'; [right|left]; auto.
  - intros j Hj _ Hnj. apply Forall_forall. intros d Hd. apply in_map_iff in Hd as (a & <- & Ha).
    rewrite <- !Er; auto; [|apply Hin; eapply in_firstn; eauto].
    apply (sorted_prefix_le _ _ n (order_of row) a j (order_of_sorted row)); auto.
    assert (Hj' : In j (order_of row)) by (apply (Permutation_in _ (Permutation_sym Hp)), in_seq; lia).
    rewrite <- (firstn_skipn n (order_of row)) in Hj'. apply in_app_or in Hj'. tauto.
Qed.

(** Three items, two of them equal: a condensed matrix with a zero. *)
Example C37_case : let v := [0; 2; 2] in
  (2 * length v = 3 * 2)%nat /\ (1 + 1 < 3)%nat /\ Forall (fun d => 0 <= d) v /\
  (forall i j, (i < j < 3)%nat ->
     let dist := fun i j => if (i =? j)%nat then 0 else if (i + j =? 1)%nat then 0 else 2 in
     dist i j = nth (before 3 i j) v 0 /\ dist j i = nth (before 3 i j) v 0).
Proof.
  intros v. split; [reflexivity|split; [lia|split]].
  - unfold v. apply Forall_cons; [lra|apply Forall_cons; [lra|apply Forall_cons; [lra|apply Forall_nil]]].
  - intros i j Hij. destruct i as [|[|i]], j as [|[|[|j]]]; try lia; simpl; auto.
Qed.

(** With n_neighbors = 0 two equal AMDs can make _nearest_items write outside its empty rows;
    the entry for item 0 here reports item 1 first. *)
Example C37_no_neighbors : exists kn : kwargs -> nat -> list (list R) -> list (list R) -> outcome (list (list (R * nat))),
  kn [] 1%nat [[1]; [1]] [[1]; [1]] = Done [[(0, 1%nat)]; [(0, 0%nat)]] /\
  nearest_items kn [[]; []] 0 [[1]; [1]] None [] = Raise IndexError.
Proof.
  exists (fun _ _ _ _ => Done [[(0, 1%nat)]; [(0, 0%nat)]]). split; reflexivity.
Qed.

Print Assumptions C34_cdist.
Print Assumptions C34_pdist.
Print Assumptions C34_metric.
Print Assumptions C34_pdist_list_raises.
Print Assumptions C34_pdist_list_refuted.
Print Assumptions C34_lengths_refuted.
Print Assumptions C35_cdist.
Print Assumptions C35_pdist.
Print Assumptions C35_empty.
Print Assumptions C37_two_collections.
Print Assumptions C37_one_collection.
Print Assumptions C37_items_one.
Print Assumptions C37_items_two.
Print Assumptions C38_two_collections_raises.
Print Assumptions C38_one_collection_raises.
