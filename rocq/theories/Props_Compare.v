(** C36 to C39: amd.compare and the command line. *)
From Coq Require Import List ZArith Arith Bool Lia Lra Reals Permutation Sorting.Sorted String Ascii.
From Verif Require Import Num Base Outcome Condensed NNModel CalcModel CalcProofs SpecEmd EmdTop CompareModel SpecCompare
  CompareProofs CompareNear Props_Matrix CompareTop.
Import ListNotations.
Open Scope string_scope.
Open Scope R_scope.
Open Scope list_scope.
Notation length := List.length.

Notation crystal := (@crystal R).
Notation frame := (@frame R).

(** Names of crystals in order. *)
Definition names_of (A : list crystal) : list label := map cr_name A.

(** A table of distances with the given labels. *)
Definition is_table (rows cols : list label) (M : list (list R)) (df : frame) : Prop :=
  fr_index df = rows /\ fr_columns df = map Crystal cols /\ fr_rows df = map (map Dist) M.

(** A table of neighbours: headings ID 1, DIST 1, ID 2, ... and for every row the names and
    distances of the neighbours. *)
Fixpoint neighbour_cells (cols : list label) (inds : list nat) (ds : list R) : list (cell (T := R)) :=
  match inds, ds with
  | j :: inds', d :: ds' => Name (nth j cols None) :: Dist d :: neighbour_cells cols inds' ds'
  | _, _ => []
  end.
Definition is_neighbour_table (rows cols : list label) (n : nat) (inds : list (list nat)) (ds : list (list R)) (df : frame) : Prop :=
  fr_index df = rows /\
  fr_columns df = flat_map (fun i => [Text ("ID " ++ str_nat i); Text ("DIST " ++ str_nat i)]) (seq 1 n) /\
  length (fr_rows df) = length inds /\
  forall i, (i < length inds)%nat -> nth i (fr_rows df) [] = neighbour_cells cols (nth i inds []) (nth i ds []).

Lemma dataframe_ok : forall rows cols n (nn : list (list R)) inds, nn <> [] -> length inds = length nn ->
  (forall i, (i < length nn)%nat -> length (nth i nn []) = n /\ length (nth i inds []) = n /\
     Forall (fun j => (j < length cols)%nat) (nth i inds [])) ->
  exists df, nearest_neighbors_dataframe nn inds rows cols = Done df /\ is_neighbour_table rows cols n inds nn df.
Proof.
  intros rows cols n nn inds Hne Hl Hrow. unfold nearest_neighbors_dataframe.
  assert (E1 : forall is ds, length is = length ds -> Forall (fun j => (j < length cols)%nat) is ->
    omap (fun dj : R * nat => obind (get_at cols (snd dj)) (fun nm => Done [Name nm; Dist (fst dj)])) (combine ds is) =
    Done (map (fun dj => [Name (nth (snd dj) cols None); Dist (fst dj)]) (combine ds is))).
  { intros is ds L F. apply omap_ok. intros [d j] Hin. apply in_combine_r in Hin. rewrite Forall_forall in F.
    cbn [fst snd]. rewrite (get_at_nth label cols j None) by auto. reflexivity. }
  assert (E2 : forall is ds, length is = length ds ->
    List.concat (map (fun dj : R * nat => [Name (nth (snd dj) cols None); Dist (fst dj)]) (combine ds is)) = neighbour_cells cols is ds).
  { induction is as [|j is IH]; intros [|d ds] L; simpl in *; try discriminate; auto. f_equal. f_equal. auto. }
  rewrite (omap_ok _ _ _ (fun di => neighbour_cells cols (snd di) (fst di))).
  2:{ intros [ds is] Hin. cbn [fst snd].
      apply In_nth with (d := ([], [])) in Hin as (i & Hi & Ei). rewrite combine_length in Hi.
      rewrite combine_nth in Ei by auto. injection Ei as <- <-.
      destruct (Hrow i ltac:(lia)) as (L1 & L2 & F).
      rewrite E1 by (auto; congruence). cbn [obind]. rewrite E2 by congruence. reflexivity. }
  cbn [obind]. eexists. split; [reflexivity|]. unfold is_neighbour_table. cbn [fr_index fr_columns fr_rows].
  split; [auto|]. split; [|split].
  - replace (length (hd [] nn)) with n.
    + rewrite <- seq_shift, flat_map_concat_map, flat_map_concat_map, map_map. f_equal. apply map_ext. intros i.
      replace (i + 1)%nat with (S i) by lia. auto.
    + destruct nn as [|r nn]; [tauto|]. destruct (Hrow 0%nat) as [L _]; [simpl; lia|]. auto.
  - rewrite map_length, combine_length. lia.
  - intros i Hi.
    set (F := fun di : list R * list nat => neighbour_cells cols (snd di) (fst di)).
    rewrite (nth_indep _ [] (F ([], []))) by (rewrite map_length, combine_length; lia).
    rewrite map_nth, combine_nth by auto. reflexivity.
Qed.

Section Compare.
  Context (om : string -> option (list R -> list R -> R)) (P : Type) (emd : string -> P -> P -> outcome R)
    (ap : list R -> nat -> list nat) (ags : list R -> list nat)
    (kn : kw -> nat -> list (list R) -> list (list R) -> outcome (list (list (R * nat))))
    (ext : calls (T := R) P).

  Notation compare := (CompareModel.compare om P emd ap ags kn ext).

  Lemma kw_metric_amd : forall given, kw_get "metric" (override amd_pdist_defaults given) = opt given "metric" (VStr "chebyshev").
  Proof. reflexivity. Qed.
  Lemma kw_metric_pdd : forall given v, kw_get "metric" (override (set_key "verbose" v pdd_pdist_defaults) given) = opt given "metric" (VStr "chebyshev").
  Proof. reflexivity. Qed.
  Lemma kw_jobs_pdd : forall given v, kw_get "n_jobs" (override (set_key "verbose" v pdd_pdist_defaults) given) = opt given "n_jobs" VNone.
  Proof. reflexivity. Qed.
  Lemma kw_tol : forall given, kw_get "collapse_tol" (override pdd_defaults given) = opt given "collapse_tol" (VNum (1 / 10000)).
  Proof. reflexivity. Qed.
  Lemma kw_lexsort : forall given, kw_get "lexsort" (override pdd_defaults given) = opt given "lexsort" (VBool true).
  Proof. reflexivity. Qed.
  Lemma kw_collapse : forall given, kw_get "collapse" (override pdd_defaults given) = opt given "collapse" (VBool true).
  Proof. reflexivity. Qed.
  Lemma kw_nearest : forall given, override nearest_items_defaults given = nearest_options given.
  Proof. reflexivity. Qed.

  (** The AMDs of crystals. *)
  Definition have_amds (k : nat) (A : list crystal) (a : list (list R)) : Prop :=
    Forall2 (fun c v => amd_of P ext (cr_set c) k = Done v /\ length v = k) A a.

  Lemma amd_rows_done : forall k A a, have_amds k A a -> amd_rows P ext k A = Done a.
  Proof.
    intros k A a F. unfold amd_rows. induction F as [|c v A a [E L] F IH]; auto.
    cbn [omap]. rewrite E. cbn [obind]. rewrite L, Nat.eqb_refl. cbn [obind]. rewrite IH. reflexivity.
  Qed.

  (** The PDDs of crystals, with the options for collapsing which were given. *)
  Definition have_pdds (k : nat) (given : kw) (A : list crystal) (p : list P) : Prop :=
    exists tol, as_num (opt given "collapse_tol" (VNum (1 / 10000))) = Done tol /\
      Forall2 (fun c q => pdd_of P ext (cr_set c) k (truthy (opt given "lexsort" (VBool true)))
                            (truthy (opt given "collapse" (VBool true))) tol = Done q) A p.

  Lemma pdd_list_done : forall k given A p, have_pdds k given A p -> pdd_list P ext k (override pdd_defaults given) A = Done p.
  Proof.
    intros k given A p (tol & Et & F). unfold pdd_list. rewrite kw_tol, kw_lexsort, kw_collapse, Et. cbn [obind].
    induction F as [|c v A a E F IH]; auto.
    cbn [omap]. rewrite E. cbn [obind]. rewrite IH. reflexivity.
  Qed.

  Lemma Forall2_len : forall A B (Q : A -> B -> Prop) l1 l2, Forall2 Q l1 l2 -> length l1 = length l2.
  Proof. induction 1; simpl; auto. Qed.

  Ltac open_compare Hw Hv HR Hne :=
    unfold CompareModel.compare; cbv zeta; rewrite Hw;
    change (negb (String.eqb "AMD" "AMD" || String.eqb "AMD" "PDD")) with false;
    change (negb (String.eqb "PDD" "AMD" || String.eqb "PDD" "PDD")) with false; cbv iota;
    change (fun l => nonempty l) with (@nonempty R);
    rewrite (reads_unwrap P ext _ _ _ _ _ Hv HR Hne); cbn [obind];
    change (String.eqb "AMD" "AMD") with true;
    change (String.eqb "PDD" "AMD") with false; cbv iota.

  (** ** C36 *)

  (** compare(A) by AMD. [low_memory] may be anything. *)
  Theorem C36_amd_one : forall ch x A by_ k csd verbose given a,
    In by_ amd_words -> lookup "verbose" given = None -> reads P ext csd verbose given x A -> A <> [] ->
    (1 <= k)%nat -> opt given "metric" (VStr "chebyshev") = VStr "chebyshev" ->
    have_amds k A a -> (2 * length (ch_vector ch) = length A * (length A - 1))%nat ->
    exists df M, compare ch x None by_ k None csd verbose given = Done df /\
      is_table (names_of A) (names_of A) M df /\ has_shape (length A) (length A) M /\
      (forall i j, (i < length A)%nat -> (j < length A)%nat -> is_chebyshev k (nth i a []) (nth j a []) (mx M i j)) /\
      (forall i j, (i < length A)%nat -> (j < length A)%nat -> mx M i j = mx M j i) /\
      (forall i, (i < length A)%nat -> mx M i i = 0).
  Proof.
    intros ch x A by_ k csd verbose given a Hby Hv HR Hne Hk Hm Ha Hj. apply upper_amd in Hby.
    open_compare Hby Hv HR Hne.
    rewrite (amd_rows_done _ _ _ Ha). cbn [obind]. rewrite kw_metric_amd, Hm. cbn [as_str obind].
    set (arr := {| cl_kind := Ndarray; cl_cols := k; cl_rows := a |}).
    pose proof (Forall2_len _ _ _ _ _ Ha) as La.
    assert (Hr : Forall (fun r => length r = k) a).
    { clear - Ha. induction Ha as [|c v A a [_ L] F IH]; constructor; auto. }
    assert (HA : amds_of k arr) by (split; [auto|split; [auto|left; auto]]).
    assert (E : forall b, AMD_pdist om (ch_vector ch) arr "chebyshev" b =
      Done (condensed (fun i j => cheb (nth i a []) (nth j a [])) (length a))).
    { intros [].
      - apply (pdist_low om (ch_vector ch) arr k); auto. simpl. pose proof (pairs_count (length a)). lia.
      - unfold AMD_pdist, scipy_pdist. rewrite (two_d_ok k arr HA). reflexivity. }
    rewrite E. cbn [obind].
    assert (Hm1 : (1 <= length a)%nat) by (rewrite <- La; destruct A; [tauto|simpl; lia]).
    rewrite squareform_matrix_condensed by auto. cbn [obind].
    eexists. eexists. split; [reflexivity|]. split; [split; [reflexivity|split; reflexivity]|].
    rewrite La. set (m := length a) in *.
    destruct (table_entries m m (fun i j => if (i =? j)%nat then 0 else if (i <? j)%nat then cheb (nth i a []) (nth j a [])
      else cheb (nth j a []) (nth i a []))) as [T1 T2].
    change (@n0 R NumR) with 0.
    assert (Hn : forall i, (i < m)%nat -> length (nth i a []) = k) by (intros i Hi; apply (Forall_nth' _ _ a i [] Hr Hi)).
    assert (H0 : forall u, length u = k -> is_chebyshev k u u 0).
    { intros u Hu. split; [|left; auto]. intros t Ht. rewrite Rminus_diag_eq by auto. rewrite Rabs_R0. lra. }
    split; [exact T1|]. split; [|split].
    - intros i j Hi Hj'. rewrite T2 by auto. destruct (Nat.eqb_spec i j) as [->|Hij]; [apply H0; auto|].
      destruct (i <? j)%nat; [|rewrite cheb_sym]; apply cheb_spec; auto.
    - intros i j Hi Hj'. rewrite !T2 by auto. rewrite (Nat.eqb_sym j i). destruct (Nat.eqb_spec i j); auto.
      destruct (Nat.ltb_spec i j), (Nat.ltb_spec j i); auto; lia.
    - intros i Hi. rewrite T2 by auto. rewrite Nat.eqb_refl. auto.
  Qed.

  (** compare(A, B) by AMD. *)
  Theorem C36_amd_two : forall ch x y A B by_ k csd verbose given a b,
    In by_ amd_words -> lookup "verbose" given = None -> reads P ext csd verbose given x A -> A <> [] ->
    reads P ext csd verbose given y B -> B <> [] ->
    (1 <= k)%nat -> opt given "metric" (VStr "chebyshev") = VStr "chebyshev" ->
    have_amds k A a -> have_amds k B b -> has_shape (length A) (length B) (ch_matrix ch) ->
    exists df M, compare ch x (Some y) by_ k None csd verbose given = Done df /\
      is_table (names_of A) (names_of B) M df /\ has_shape (length A) (length B) M /\
      (forall i j, (i < length A)%nat -> (j < length B)%nat -> is_chebyshev k (nth i a []) (nth j b []) (mx M i j)).
  Proof.
    intros ch x y A B by_ k csd verbose given a b Hby Hv HR Hne HR2 Hne2 Hk Hm Ha Hb Hj. apply upper_amd in Hby.
    open_compare Hby Hv HR Hne. rewrite (reads_unwrap P ext _ _ _ _ _ Hv HR2 Hne2). cbn [obind].
    rewrite (amd_rows_done _ _ _ Ha). cbn [obind]. rewrite (amd_rows_done _ _ _ Hb). cbn [obind].
    rewrite kw_metric_amd, Hm. cbn [as_str obind].
    assert (HA : forall A a, have_amds k A a -> amds_of k {| cl_kind := Ndarray; cl_cols := k; cl_rows := a |}).
    { clear. intros A a F. split; [auto|split; [|left; auto]]. simpl. induction F as [|c v A a [_ L] F IH]; constructor; auto. }
    pose proof (Forall2_len _ _ _ _ _ Ha) as La. pose proof (Forall2_len _ _ _ _ _ Hb) as Lb. rewrite La, Lb in *.
    destruct (C34_cdist om (ch_matrix ch) (ch_matrix ch) _ _ k Hk (HA _ _ Ha) (HA _ _ Hb)) as (dm & E1 & E2 & S & V); auto.
    replace (AMD_cdist _ _ _ _ _ _) with (Done dm) by (destruct (truthy _); auto).
    cbn [obind]. eexists. exists dm. split; [reflexivity|]. split; [split; [reflexivity|split; reflexivity]|].
    split; auto.
  Qed.

  (** compare(A) by PDD: the entry for i < j, in both places, is the EMD of the two PDDs, computed
      with the given metric, whatever [n_jobs]. *)
  Theorem C36_pdd_one : forall ch x A by_ k csd verbose given metric jobs p e,
    In by_ pdd_words -> lookup "verbose" given = None -> reads P ext csd verbose given x A -> A <> [] ->
    opt given "metric" (VStr "chebyshev") = VStr metric -> as_jobs (opt given "n_jobs" VNone) = Done jobs ->
    have_pdds k given A p ->
    (forall i j u v, (i < j)%nat -> nth_error p i = Some u -> nth_error p j = Some v -> emd metric u v = Done (e i j)) ->
    (2 * length (ch_vector ch) = length A * (length A - 1))%nat -> Permutation (ch_sched ch) (seq 0 (length (ch_vector ch))) ->
    exists df M, compare ch x None by_ k None csd verbose given = Done df /\
      is_table (names_of A) (names_of A) M df /\ has_shape (length A) (length A) M /\
      (forall i j, (i < j < length A)%nat -> mx M i j = e i j /\ mx M j i = e i j) /\
      (forall i, (i < length A)%nat -> mx M i i = 0).
  Proof.
    intros ch x A by_ k csd verbose given metric jobs p e Hby Hv HR Hne Hm Hjobs Hp He Hj Hs. apply upper_pdd in Hby.
    open_compare Hby Hv HR Hne.
    rewrite (pdd_list_done _ _ _ _ Hp). cbn [obind]. rewrite kw_metric_pdd, Hm. cbn [as_str obind].
    rewrite kw_jobs_pdd, Hjobs. cbn [obind].
    destruct Hp as (tol & _ & F). pose proof (Forall2_len _ _ _ _ _ F) as La. rewrite La in *.
    assert (Hpne : p <> []) by (intros ->; destruct A; [tauto|discriminate]).
    destruct (C35_pdist P emd metric p e Hpne He) as (v & M & V1 & V2 & V3 & V4 & V5 & V6 & V7).
    rewrite V7 by auto. cbn [obind]. rewrite V3. cbn [obind].
    eexists. exists M. split; [reflexivity|]. split; [split; [reflexivity|split; reflexivity]|].
    split; [auto|split; auto].
  Qed.

  Theorem C36_pdd_two : forall ch x y A B by_ k csd verbose given metric jobs p q e,
    In by_ pdd_words -> lookup "verbose" given = None -> reads P ext csd verbose given x A -> A <> [] ->
    reads P ext csd verbose given y B -> B <> [] ->
    opt given "metric" (VStr "chebyshev") = VStr metric -> as_jobs (opt given "n_jobs" VNone) = Done jobs ->
    have_pdds k given A p -> have_pdds k given B q ->
    (forall i j u v, nth_error p i = Some u -> nth_error q j = Some v -> emd metric u v = Done (e i j)) ->
    has_shape (length A) (length B) (ch_matrix ch) -> Permutation (ch_sched ch) (seq 0 (length A * length B)) ->
    exists df M, compare ch x (Some y) by_ k None csd verbose given = Done df /\
      is_table (names_of A) (names_of B) M df /\ has_shape (length A) (length B) M /\
      (forall i j, (i < length A)%nat -> (j < length B)%nat -> mx M i j = e i j).
  Proof.
    intros ch x y A B by_ k csd verbose given metric jobs p q e Hby Hv HR Hne HR2 Hne2 Hm Hjobs Hp Hq He Hj Hs. apply upper_pdd in Hby.
    open_compare Hby Hv HR Hne. rewrite (reads_unwrap P ext _ _ _ _ _ Hv HR2 Hne2). cbn [obind].
    rewrite (pdd_list_done _ _ _ _ Hp). cbn [obind]. rewrite kw_metric_pdd, Hm. cbn [as_str obind].
    rewrite kw_jobs_pdd, Hjobs. cbn [obind]. rewrite (pdd_list_done _ _ _ _ Hq). cbn [obind].
    destruct Hp as (tol & _ & F). pose proof (Forall2_len _ _ _ _ _ F) as La.
    destruct Hq as (tol' & _ & F'). pose proof (Forall2_len _ _ _ _ _ F') as Lb. rewrite La, Lb in *.
    assert (Hpne : p <> []) by (intros ->; destruct A; [tauto|discriminate]).
    destruct (C35_cdist P emd metric p q e Hpne He) as (dm & V1 & V2 & V3).
    rewrite V3 by auto. cbn [obind]. eexists. exists dm. split; [reflexivity|]. split; [split; [reflexivity|split; reflexivity]|].
    split; auto.
  Qed.

  (** ValueError for any other word, for a collection without crystals and for something that
      is neither a PeriodicSet nor a path. *)
  Theorem C36_by_rejected : forall ch x y by_ k n csd verbose given,
    ~ In by_ amd_words -> ~ In by_ pdd_words -> compare ch x y by_ k n csd verbose given = Raise ValueError.
  Proof.
    intros ch x y by_ k n csd verbose given H1 H2. unfold CompareModel.compare. cbv zeta.
    replace (String.eqb (upper by_) "AMD") with false.
    - replace (String.eqb (upper by_) "PDD") with false; [reflexivity|].
      symmetry. apply String.eqb_neq. intros E. apply H2, upper_pdd, E.
    - symmetry. apply String.eqb_neq. intros E. apply H1, upper_amd, E.
  Qed.

  Lemma unwrap_empty : forall csd verbose given x, lookup "verbose" given = None -> reads P ext csd verbose given x [] ->
    obind (if csd then unwrap_refcode_list P ext (as_list x) (override (set_key "verbose" (VBool verbose) csd_defaults) given)
           else unwrap_pset_list P ext (as_list x) (override (set_key "verbose" (VBool verbose) cif_defaults) given))
      (@nonempty R) = Raise ValueError.
  Proof.
    intros csd verbose given x Hv HR. rewrite cif_kw, csd_kw by auto. unfold reads in HR. change (as_list x) with (elements x). destruct csd.
    - destruct HR as (codes & -> & E). rewrite unwrap_codes, E. reflexivity.
    - destruct HR as (parts & F & E). unfold unwrap_pset_list. rewrite (unwrap_psets P ext _ _ _ [] F), <- E. reflexivity.
  Qed.

  Theorem C36_empty_rejected : forall ch x y by_ k n csd verbose given,
    In by_ (amd_words ++ pdd_words) -> lookup "verbose" given = None -> 
    (reads P ext csd verbose given x [] -> compare ch x y by_ k n csd verbose given = Raise ValueError) /\
    (forall A y', reads P ext csd verbose given x A -> A <> [] -> reads P ext csd verbose given y' [] ->
       compare ch x (Some y') by_ k n csd verbose given = Raise ValueError).
  Proof.
    intros ch x y by_ k n csd verbose given Hby Hv.
    assert (Hw : upper by_ = "AMD" \/ upper by_ = "PDD").
    { apply in_app_or in Hby as [Hby|Hby]; [left; apply upper_amd|right; apply upper_pdd]; auto. }
    assert (Hn : negb (String.eqb (upper by_) "AMD" || String.eqb (upper by_) "PDD") = false)
      by (destruct Hw as [-> | ->]; reflexivity).
    unfold CompareModel.compare. cbv zeta. rewrite Hn. change (fun l => nonempty l) with (@nonempty R).
    split.
    - intros HR. rewrite unwrap_empty by auto. reflexivity.
    - intros A y' HR Hne HR2. rewrite (reads_unwrap P ext _ _ _ _ _ Hv HR Hne). cbn [obind].
      rewrite unwrap_empty by auto. reflexivity.
  Qed.

  Theorem C36_other_rejected : forall ch l y by_ k n verbose given,
    In IsOther l -> (forall s, exists c, read_cif P ext s (cif_options verbose given) = Done c) ->
    In by_ (amd_words ++ pdd_words) -> lookup "verbose" given = None -> 
    compare ch (Many l) y by_ k n false verbose given = Raise ValueError.
  Proof.
    intros ch l y by_ k n verbose given Hin Hread Hby Hv.
    assert (Hw : upper by_ = "AMD" \/ upper by_ = "PDD").
    { apply in_app_or in Hby as [Hby|Hby]; [left; apply upper_amd|right; apply upper_pdd]; auto. }
    assert (Hn : negb (String.eqb (upper by_) "AMD" || String.eqb (upper by_) "PDD") = false)
      by (destruct Hw as [-> | ->]; reflexivity).
    unfold CompareModel.compare. cbv zeta. rewrite Hn. cbv iota. rewrite cif_kw by auto. unfold unwrap_pset_list.
    cbn [as_list].
    match goal with |- context [ofold ?F l []] => assert (E : forall acc, ofold F l acc = Raise ValueError) end.
    { induction l as [|it l IH]; [destruct Hin|]. intros acc. destruct Hin as [-> | Hin]; [reflexivity|].
      destruct it as [c|s|]; [| |reflexivity].
      - cbn [ofold obind]. apply IH. auto.
      - destruct (Hread s) as [c Ec]. cbn [ofold]. rewrite Ec. cbn [obind]. apply IH. auto. }
    rewrite E. reflexivity.
  Qed.
  (** ** C37 for compare *)

  Lemma rows_as_neighbours : forall m cols n (ok : nat -> nat -> Prop) (dist : nat -> nat -> R) nn inds rows,
    length cols = m -> nn <> [] -> length inds = length nn ->
    (forall i, (i < length nn)%nat -> nearest_of m (ok i) (dist i) n (nth i inds []) (nth i nn [])) ->
    exists df, nearest_neighbors_dataframe nn inds rows cols = Done df /\ is_neighbour_table rows cols n inds nn df.
  Proof.
    intros m cols n ok dist nn inds rows Hc Hne Hl HN. apply dataframe_ok; auto.
    intros i Hi. destruct (HN i Hi) as [N1 N2 _ N4 _ _]. split; [rewrite N2, map_length; auto|]. split; auto.
    rewrite Hc. eapply Forall_impl; [|exact N4]. intros j [Hj _]. exact Hj.
  Qed.

  (** compare(A, n_neighbors=n) by AMD: the n nearest other crystals of each, at Chebyshev
      distance of the AMDs; n may be as large as the number of other crystals. *)
  Theorem C37_compare_amd_one : forall ch x A by_ k n csd verbose given a f,
    In by_ amd_words -> lookup "verbose" given = None -> reads P ext csd verbose given x A -> A <> [] ->
    have_amds k A a ->
    (forall n XB XA, kn (nearest_options given) n XB XA = Done (f n XB XA)) -> kneighbors_ok cheb f ->
    (1 <= n < length A)%nat -> has_shape (length A) n (ch_pairs ch) ->
    exists df inds ds dist, compare ch x None by_ k (Some n) csd verbose given = Done df /\
      is_neighbour_table (names_of A) (names_of A) n inds ds df /\ length inds = length A /\
      (forall i j, (i < length A)%nat -> (j < length A)%nat -> is_chebyshev k (nth i a []) (nth j a []) (dist i j)) /\
      (forall i, (i < length A)%nat -> nearest_of (length A) (fun j => j <> i) (dist i) n (nth i inds []) (nth i ds [])).
  Proof.
    intros ch x A by_ k n csd verbose given a f Hby Hv HR Hne Ha Hkn Hf Hn Hj. apply upper_amd in Hby.
    open_compare Hby Hv HR Hne.
    rewrite (amd_rows_done _ _ _ Ha). cbn [obind]. rewrite kw_nearest.
    pose proof (Forall2_len _ _ _ _ _ Ha) as La. rewrite La in *.
    destruct (C37_items_one kn _ cheb f (ch_pairs ch) n a Hkn Hf Hn Hj) as (ds & inds & E & L1 & L2 & N).
    rewrite E. cbn [obind].
    destruct (rows_as_neighbours (length a) (names_of A) n (fun i j => j <> i) (fun i j => cheb (nth i a []) (nth j a [])) ds inds (names_of A))
      as (df & Ed & T); auto.
    - unfold names_of. rewrite map_length. auto.
    - intros ->. simpl in L1. lia.
    - congruence.
    - intros i Hi. apply N. lia.
    - exists df, inds, ds, (fun i j => cheb (nth i a []) (nth j a [])). split; [exact Ed|]. split; [auto|]. split; [congruence|].
      split; [|intros i Hi; apply N; lia]. intros i j Hi Hj'.
      assert (Hr : Forall (fun r => length r = k) a).
      { clear - Ha. induction Ha as [|c v A a [_ L] F IH]; constructor; auto. }
      apply cheb_spec; apply (Forall_nth' _ _ a _ [] Hr); auto.
  Qed.

  (** compare(A, B, n_neighbors=n) by AMD. *)
  Theorem C37_compare_amd_two : forall ch x y A B by_ k n csd verbose given a b f,
    In by_ amd_words -> lookup "verbose" given = None -> reads P ext csd verbose given x A -> A <> [] ->
    reads P ext csd verbose given y B -> B <> [] -> have_amds k A a -> have_amds k B b ->
    (forall n XB XA, kn (nearest_options given) n XB XA = Done (f n XB XA)) -> kneighbors_ok cheb f ->
    (1 <= n <= length B)%nat ->
    exists df inds ds dist, compare ch x (Some y) by_ k (Some n) csd verbose given = Done df /\
      is_neighbour_table (names_of A) (names_of B) n inds ds df /\ length inds = length A /\
      (forall i j, (i < length A)%nat -> (j < length B)%nat -> is_chebyshev k (nth i a []) (nth j b []) (dist i j)) /\
      (forall i, (i < length A)%nat -> nearest_of (length B) (fun _ => True) (dist i) n (nth i inds []) (nth i ds [])).
  Proof.
    intros ch x y A B by_ k n csd verbose given a b f Hby Hv HR Hne HR2 Hne2 Ha Hb Hkn Hf Hn. apply upper_amd in Hby.
    open_compare Hby Hv HR Hne. rewrite (reads_unwrap P ext _ _ _ _ _ Hv HR2 Hne2). cbn [obind].
    rewrite (amd_rows_done _ _ _ Ha). cbn [obind]. rewrite (amd_rows_done _ _ _ Hb). cbn [obind]. rewrite kw_nearest.
    pose proof (Forall2_len _ _ _ _ _ Ha) as La. pose proof (Forall2_len _ _ _ _ _ Hb) as Lb. rewrite La, Lb in *.
    destruct (C37_items_two kn _ cheb f (ch_pairs ch) n a b Hkn Hf Hn) as (ds & inds & E & L1 & L2 & N).
    rewrite E. cbn [obind].
    destruct (rows_as_neighbours (length b) (names_of B) n (fun i j => True) (fun i j => cheb (nth i a []) (nth j b [])) ds inds (names_of A))
      as (df & Ed & T); auto.
    - unfold names_of. rewrite map_length. auto.
    - intros ->. simpl in L1. destruct A; [tauto|]. simpl in La. lia.
    - congruence.
    - intros i Hi. apply N. lia.
    - exists df, inds, ds, (fun i j => cheb (nth i a []) (nth j b [])). split; [exact Ed|]. split; [auto|]. split; [congruence|].
      split; [|intros i Hi; apply N; lia]. intros i j Hi Hj'.
      assert (Hr : forall A a, have_amds k A a -> Forall (fun r => length r = k) a).
      { clear. intros A a Ha. induction Ha as [|c v A a [_ L] F IH]; constructor; auto. }
      apply cheb_spec; [apply (Forall_nth' _ _ a _ [] (Hr _ _ Ha)); auto|apply (Forall_nth' _ _ b _ [] (Hr _ _ Hb)); auto].
  Qed.

  (** compare(A, n_neighbors=n) by PDD, for n less than the number of other crystals. *)
  Theorem C37_compare_pdd_one : forall ch x A by_ k n csd verbose given metric jobs p e,
    In by_ pdd_words -> lookup "verbose" given = None -> reads P ext csd verbose given x A -> A <> [] ->
    opt given "metric" (VStr "chebyshev") = VStr metric -> as_jobs (opt given "n_jobs" VNone) = Done jobs ->
    have_pdds k given A p ->
    (forall i j u v, (i < j)%nat -> nth_error p i = Some u -> nth_error p j = Some v -> emd metric u v = Done (e i j)) ->
    (forall i j, (i < j < length A)%nat -> 0 <= e i j) ->
    (2 * length (ch_vector ch) = length A * (length A - 1))%nat -> Permutation (ch_sched ch) (seq 0 (length (ch_vector ch))) ->
    argpartition_ok ap -> argsort_ok ags -> (n + 1 < length A)%nat ->
    exists df inds ds dist, compare ch x None by_ k (Some n) csd verbose given = Done df /\
      is_neighbour_table (names_of A) (names_of A) n inds ds df /\ length inds = length A /\
      (forall i j, (i < j < length A)%nat -> dist i j = e i j /\ dist j i = e i j) /\
      (forall i, (i < length A)%nat -> nearest_of (length A) (fun j => j <> i) (dist i) n (nth i inds []) (nth i ds [])).
  Proof.
    intros ch x A by_ k n csd verbose given metric jobs p e Hby Hv HR Hne Hm Hjobs Hp He Hpos Hj Hs Hap Hags Hn. apply upper_pdd in Hby.
    open_compare Hby Hv HR Hne.
    rewrite (pdd_list_done _ _ _ _ Hp). cbn [obind]. rewrite kw_metric_pdd, Hm. cbn [as_str obind].
    rewrite kw_jobs_pdd, Hjobs. cbn [obind].
    destruct Hp as (tol & _ & F). pose proof (Forall2_len _ _ _ _ _ F) as La. rewrite La in *.
    assert (Hpne : p <> []) by (intros ->; destruct A; [tauto|discriminate]).
    destruct (C35_pdist P emd metric p e Hpne He) as (v & M & V1 & V2 & V3 & V4 & V5 & V6 & V7).
    rewrite V7 by auto. cbn [obind].
    set (m := length p) in *.
    destruct (C37_one_collection ap ags n m v (mx M) Hap Hags V1 Hn) as (nn & inds & E & L1 & L2 & N).
    - apply Forall_forall. intros d Hd. apply In_nth with (d := 0) in Hd as (t & Ht & <-).
      pose proof (V7 None (ch_vector ch) (ch_sched ch) Hj Hs) as Ev.
      rewrite (pdist_condensed P emd metric p e Hpne He None (ch_vector ch) (ch_sched ch) Hj Hs) in Ev. injection Ev as <-.
      rewrite condensed_length in Ht. unfold condensed.
      rewrite (nth_indep _ 0 ((fun ij : nat * nat => e (fst ij) (snd ij)) (0, 0)%nat)) by (rewrite map_length; auto).
      rewrite (map_nth (fun ij : nat * nat => e (fst ij) (snd ij))).
      pose proof (nth_In (pairs (length p)) (0, 0)%nat Ht) as Hin. destruct (nth t (pairs (length p)) (0, 0)%nat) as [i j].
      apply pairs_In in Hin. apply Hpos. exact Hin.
    - intros i j Hij. destruct (V6 i j Hij) as [-> ->]. rewrite V2 by auto. auto.
    - rewrite E. cbn [obind].
      destruct (rows_as_neighbours m (names_of A) n (fun i j => j <> i) (mx M) nn inds (names_of A)) as (df & Ed & T); auto.
      + unfold names_of. rewrite map_length. auto.
      + intros ->. simpl in L1. lia.
      + congruence.
      + intros i Hi. apply N. lia.
      + exists df, inds, nn, (mx M). split; [exact Ed|]. split; [auto|split; [auto|split; auto]].
  Qed.

  Theorem C37_compare_pdd_two : forall ch x y A B by_ k n csd verbose given metric jobs p q e,
    In by_ pdd_words -> lookup "verbose" given = None -> reads P ext csd verbose given x A -> A <> [] ->
    reads P ext csd verbose given y B -> B <> [] ->
    opt given "metric" (VStr "chebyshev") = VStr metric -> as_jobs (opt given "n_jobs" VNone) = Done jobs ->
    have_pdds k given A p -> have_pdds k given B q ->
    (forall i j u v, nth_error p i = Some u -> nth_error q j = Some v -> emd metric u v = Done (e i j)) ->
    has_shape (length A) (length B) (ch_matrix ch) -> Permutation (ch_sched ch) (seq 0 (length A * length B)) ->
    argpartition_ok ap -> argsort_ok ags -> (n < length B)%nat ->
    exists df inds ds dist, compare ch x (Some y) by_ k (Some n) csd verbose given = Done df /\
      is_neighbour_table (names_of A) (names_of B) n inds ds df /\ length inds = length A /\
      (forall i j, (i < length A)%nat -> (j < length B)%nat -> dist i j = e i j) /\
      (forall i, (i < length A)%nat -> nearest_of (length B) (fun _ => True) (dist i) n (nth i inds []) (nth i ds [])).
  Proof.
    intros ch x y A B by_ k n csd verbose given metric jobs p q e Hby Hv HR Hne HR2 Hne2 Hm Hjobs Hp Hq He Hj Hs Hap Hags Hn. apply upper_pdd in Hby.
    open_compare Hby Hv HR Hne. rewrite (reads_unwrap P ext _ _ _ _ _ Hv HR2 Hne2). cbn [obind].
    rewrite (pdd_list_done _ _ _ _ Hp). cbn [obind]. rewrite kw_metric_pdd, Hm. cbn [as_str obind].
    rewrite kw_jobs_pdd, Hjobs. cbn [obind]. rewrite (pdd_list_done _ _ _ _ Hq). cbn [obind].
    destruct Hp as (tol & _ & F). pose proof (Forall2_len _ _ _ _ _ F) as La.
    destruct Hq as (tol' & _ & F'). pose proof (Forall2_len _ _ _ _ _ F') as Lb. rewrite La, Lb in *.
    assert (Hpne : p <> []) by (intros ->; destruct A; [tauto|discriminate]).
    destruct (C35_cdist P emd metric p q e Hpne He) as (dm & [V1 V1'] & V2 & V3).
    rewrite V3 by auto. cbn [obind].
    destruct (C37_two_collections ap ags n (length q) dm Hap Hags) as (nn & inds & E & L1 & L2 & N); auto.
    - split; auto.
    - intros ->. destruct p; [tauto|discriminate].
    - rewrite E. cbn [obind]. rewrite V1 in *.
      destruct (rows_as_neighbours (length q) (names_of B) n (fun i j => True) (mx dm) nn inds (names_of A)) as (df & Ed & T); auto.
      + unfold names_of. rewrite map_length. auto.
      + intros ->. destruct p; [tauto|discriminate].
      + congruence.
      + intros i Hi. apply N. lia.
      + exists df, inds, nn, (mx dm). split; [exact Ed|]. split; [auto|split; [auto|split; auto]].
  Qed.

  (** ** C38 for compare: all other crystals by PDD *)
  Theorem C38_compare_pdd_raises : forall ch x A by_ k csd verbose given metric jobs p e,
    In by_ pdd_words -> lookup "verbose" given = None -> reads P ext csd verbose given x A -> A <> [] ->
    opt given "metric" (VStr "chebyshev") = VStr metric -> as_jobs (opt given "n_jobs" VNone) = Done jobs ->
    have_pdds k given A p ->
    (forall i j u v, (i < j)%nat -> nth_error p i = Some u -> nth_error p j = Some v -> emd metric u v = Done (e i j)) ->
    (2 * length (ch_vector ch) = length A * (length A - 1))%nat -> Permutation (ch_sched ch) (seq 0 (length (ch_vector ch))) ->
    compare ch x None by_ k (Some (length A - 1)%nat) csd verbose given = Raise ValueError.
  Proof.
    intros ch x A by_ k csd verbose given metric jobs p e Hby Hv HR Hne Hm Hjobs Hp He Hj Hs. apply upper_pdd in Hby.
    open_compare Hby Hv HR Hne.
    rewrite (pdd_list_done _ _ _ _ Hp). cbn [obind]. rewrite kw_metric_pdd, Hm. cbn [as_str obind].
    rewrite kw_jobs_pdd, Hjobs. cbn [obind].
    destruct Hp as (tol & _ & F). pose proof (Forall2_len _ _ _ _ _ F) as La. rewrite La in *.
    assert (Hpne : p <> []) by (intros ->; destruct A; [tauto|discriminate]).
    destruct (C35_pdist P emd metric p e Hpne He) as (v & M & V1 & V2 & V3 & V4 & V5 & V6 & V7).
    rewrite V7 by auto. cbn [obind].
    rewrite C38_one_collection_raises; auto. destruct p; [tauto|simpl; lia].
  Qed.
End Compare.

(** ** Concrete calls *)
Definition point_set (x : R) : pset R := {| ps_motif := [[x]]; ps_cell := [[1]]; ps_asym := None; ps_mult := None |}.
Definition case_ext : calls (T := R) R :=
  {| read_cif := fun s _ => if String.eqb s "two.cif"
                            then Done [{| cr_name := Some "a"; cr_set := point_set 0 |}; {| cr_name := Some "b"; cr_set := point_set (1 / 2) |}]
                            else Done [];
     read_csd := fun _ _ => Done [];
     amd_of := fun ps k => Done (repeat (hd 0 (hd [] (ps_motif ps))) k);
     pdd_of := fun ps _ _ _ _ => Done (hd 0 (hd [] (ps_motif ps))) |}.
Definition case_emd (_ : string) (p q : R) : outcome R := Done (Rabs (p - q)).
Definition case_kn (opts : kw) := fun n XB XA => Done (brute_force cheb n XB XA).
Definition case_ch : chance := {| ch_matrix := [[7]]; ch_vector := [7]; ch_pairs := [[(7, 7%nat)]; [(7, 7%nat)]]; ch_sched := [0%nat] |}.
Notation case_compare := (compare (fun _ => None) R case_emd (fun row _ => order_of row) order_of case_kn case_ext case_ch).

Example C36_case : reads R case_ext false true [] (One (IsStr "two.cif"))
    [{| cr_name := Some "a"; cr_set := point_set 0 |}; {| cr_name := Some "b"; cr_set := point_set (1 / 2) |}] /\
  In "Amd" amd_words /\
  have_amds R case_ext 3 [{| cr_name := Some "a"; cr_set := point_set 0 |}; {| cr_name := Some "b"; cr_set := point_set (1 / 2) |}]
    [repeat 0 3; repeat (1 / 2) 3].
Proof.
  split; [|split].
  - eexists. split.
    + constructor; [reflexivity|constructor].
    + reflexivity.
  - simpl. tauto.
  - constructor; [split; reflexivity|constructor; [split; reflexivity|constructor]].
Qed.

(** By PDD the only other crystal cannot be asked for; by AMD it can. *)
Theorem C38_all_others_refuted : exists x A, reads R case_ext false false [] x A /\ length A = 2%nat /\
  case_compare x None "PDD" 3 (Some 1%nat) false false [] = Raise ValueError /\
  exists df, case_compare x None "AMD" 3 (Some 1%nat) false false [] = Done df.
Proof.
  set (A := [{| cr_name := Some "a"; cr_set := point_set 0 |}; {| cr_name := Some "b"; cr_set := point_set (1 / 2) |}]).
  exists (One (IsStr "two.cif")), A.
  assert (HR : reads R case_ext false false [] (One (IsStr "two.cif")) A).
  { eexists. split; [constructor; [reflexivity|constructor]|reflexivity]. }
  split; [exact HR|]. split; [reflexivity|]. split.
  - apply (C38_compare_pdd_raises _ R case_emd _ _ _ case_ext case_ch (One (IsStr "two.cif")) A "PDD" 3 false false [] "chebyshev" None
      [0; 1 / 2] (fun _ _ => Rabs (0 - 1 / 2))); auto.
    + simpl; tauto.
    + discriminate.
    + eexists. split; [reflexivity|]. constructor; [reflexivity|constructor; [reflexivity|constructor]].
    + intros i j u v Hij Hu Hw. destruct i as [|[|i]]; simpl in Hu; [|destruct j as [|[|j]]; simpl in Hw; try lia; destruct j; discriminate|destruct i; discriminate].
      destruct j as [|[|j]]; simpl in Hw; [lia| |destruct j; discriminate].
      injection Hu as <-. injection Hw as <-. reflexivity.
  - edestruct (C37_compare_amd_one (fun _ => None) R case_emd (fun row _ => order_of row) order_of case_kn case_ext case_ch
      (One (IsStr "two.cif")) A "AMD" 3 1 false false [] [repeat 0 3; repeat (1 / 2) 3] (brute_force cheb)) as (df & _ & _ & _ & E & _); auto.
    + simpl; tauto.
    + discriminate.
    + constructor; [split; reflexivity|constructor; [split; reflexivity|constructor]].
    + apply C37_kneighbors.
    + split; [reflexivity|]. simpl. auto.
    + exists df. exact E.
Qed.

(** ** C39 *)
Lemma substring_all : forall s, substring 0 (String.length s) s = s.
Proof. induction s as [|c s IH]; simpl; auto. f_equal. auto. Qed.
Lemma substring_after : forall a b : string, substring (String.length a) (String.length b) (a ++ b)%string = b.
Proof. induction a as [|c a IH]; intros b; simpl; auto. apply substring_all. Qed.
Lemma string_length_app : forall a b : string, String.length (a ++ b)%string = (String.length a + String.length b)%nat.
Proof. induction a as [|c a IH]; intros b; simpl; auto. Qed.
Lemma split_string : forall n s, (n <= String.length s)%nat ->
  s = (substring 0 n s ++ substring n (String.length s - n) s)%string.
Proof.
  induction n as [|n IH]; intros [|c s] Hn; simpl in *; auto; try lia.
  - f_equal. symmetry. apply substring_all.
  - f_equal. apply IH. lia.
Qed.

Lemma ends_with_ok : forall suffix s, ends_with suffix s = true <-> exists stem, s = (stem ++ suffix)%string.
Proof.
  intros suffix s. unfold ends_with. rewrite andb_true_iff, Nat.leb_le, String.eqb_eq. split.
  - intros [L E]. set (n := (String.length s - String.length suffix)%nat) in *.
    exists (substring 0 n s). rewrite <- E.
    replace (String.length suffix) with (String.length s - n)%nat by (unfold n; lia).
    apply split_string. unfold n. lia.
  - intros (stem & ->). rewrite string_length_app. split; [lia|].
    replace (String.length stem + String.length suffix - String.length suffix)%nat with (String.length stem) by lia.
    apply substring_after.
Qed.

(** The file named [p] by the user, or by default, is completed with the extension unless it
    already has it. *)
Definition completed (p fmt path : string) : Prop :=
  ((exists stem, p = stem ++ ("." ++ fmt)) /\ path = p \/ (~ exists stem, p = stem ++ ("." ++ fmt)) /\ path = p ++ ("." ++ fmt))%string.

Section Cli.
  Context (om : string -> option (list R -> list R -> R)) (P : Type) (emd : string -> P -> P -> outcome R)
    (ap : list R -> nat -> list nat) (ags : list R -> list nat)
    (kn : kw -> nat -> list (list R) -> list (list R) -> outcome (list (list (R * nat))))
    (ext : calls (T := R) P).

  Definition with_nearest (n : option nat) (o : options (T := R)) : options (T := R) :=
    {| o_paths := o_paths o; o_outpath := o_outpath o; o_format := o_format o; o_by := o_by o; o_k := o_k o;
       o_nearest := n; o_suppress_warnings := o_suppress_warnings o; o_reader := o_reader o;
       o_remove_hydrogens := o_remove_hydrogens o; o_disorder := o_disorder o;
       o_heaviest_component := o_heaviest_component o; o_molecular_centres := o_molecular_centres o;
       o_csd_refcodes := o_csd_refcodes o; o_refcode_families := o_refcode_families o; o_collapse_tol := o_collapse_tol o;
       o_metric := o_metric o; o_n_jobs := o_n_jobs o; o_backend := o_backend o; o_verbose := o_verbose o;
       o_low_memory := o_low_memory o |}.

  (** The option --nearest changes nothing: the same file with the same contents is written. *)
  Theorem C39_nearest_ignored : forall ch known o n,
    cli_main om P emd ap ags kn ext ch known (with_nearest n o) = cli_main om P emd ap ags kn ext ch known o.
  Proof. intros. reflexivity. Qed.

  (** Apart from --nearest the command line does what compare does with the same options: one
      or two paths, and the file name. *)
  Theorem C39_table_written : forall ch known o p rest df,
    o_paths o = p :: rest -> (length rest <= 1)%nat -> known (o_format o) = true ->
    compare om P emd ap ags kn ext ch (One (IsStr p)) (match rest with q :: _ => Some (One (IsStr q)) | [] => None end)
      (o_by o) (o_k o) None (o_csd_refcodes o) (o_verbose o)
      [("reader", VStr (o_reader o)); ("remove_hydrogens", VBool (o_remove_hydrogens o)); ("disorder", VStr (o_disorder o));
       ("heaviest_component", VBool (o_heaviest_component o)); ("molecular_centres", VBool (o_molecular_centres o));
       ("refcode_families", VBool (o_refcode_families o)); ("collapse_tol", VNum (o_collapse_tol o)); ("metric", VStr (o_metric o));
       ("n_jobs", VInt (o_n_jobs o)); ("low_memory", VBool (o_low_memory o)); ("show_warnings", VBool (negb (o_suppress_warnings o)))] = Done df ->
    exists path, cli_main om P emd ap ags kn ext ch known o = Done (path, o_format o, df) /\
      completed (match o_outpath o with
                 | Some q => q
                 | None => o_by o ++ "_k=" ++ str_nat (o_k o) ++ "_dist_matrix"
                 end)%string (o_format o) path.
  Proof.
    intros ch known o p rest df Hp Hl Hk E. unfold cli_main. rewrite Hp. cbn [obind].
    destruct rest as [|q [|r rest]]; [| |simpl in Hl; lia]; cbn [obind];
      match goal with |- exists path, obind ?X _ = _ /\ _ => change X with (Done df) || (replace X with (Done df) by exact (eq_sym E)) end;
      cbn [obind]; rewrite Hk; (eexists; split; [reflexivity|]);
      match goal with |- completed ?q ?fmt _ => set (q0 := q); change (completed q0 fmt (if ends_with ("." ++ fmt)%string q0 then q0 else (q0 ++ ("." ++ fmt))%string)) end;
      unfold completed; pose proof (ends_with_ok ("." ++ o_format o)%string q0) as W; destruct (ends_with ("." ++ o_format o)%string q0);
      [left; split; [apply W; auto|auto]|right; split; [intros Q; apply W in Q; discriminate|auto]|left; split; [apply W; auto|auto]|right; split; [intros Q; apply W in Q; discriminate|auto]].
  Qed.

  (** More than two paths are rejected. *)
  Theorem C39_three_paths : forall ch known o p q r rest, o_paths o = p :: q :: r :: rest ->
    cli_main om P emd ap ags kn ext ch known o = Raise ValueError.
  Proof. intros ch known o p q r rest Hp. unfold cli_main. rewrite Hp. reflexivity. Qed.
End Cli.

Definition case_options : options (T := R) :=
  {| o_paths := ["two.cif"]; o_outpath := None; o_format := "csv"; o_by := "AMD"; o_k := 3; o_nearest := Some 1%nat;
     o_suppress_warnings := false; o_reader := "gemmi"; o_remove_hydrogens := false; o_disorder := "skip";
     o_heaviest_component := false; o_molecular_centres := false; o_csd_refcodes := false; o_refcode_families := false;
     o_collapse_tol := 1 / 10000; o_metric := "chebyshev"; o_n_jobs := 1; o_backend := "multiprocessing";
     o_verbose := false; o_low_memory := false |}.

(** amd --nearest 1 two.cif writes the full matrix, not the table of neighbours which compare
    returns for n_neighbors = 1. *)
Theorem C39_nearest_refuted : exists o n path fmt df df',
  o_nearest o = Some n /\
  cli_main (fun _ => None) R case_emd (fun row _ => order_of row) order_of case_kn case_ext case_ch (fun _ => true) o = Done (path, fmt, df) /\
  case_compare (One (IsStr "two.cif")) None (o_by o) (o_k o) (Some n) false (o_verbose o) [] = Done df' /\
  o_paths o = ["two.cif"] /\ path = "AMD_k=3_dist_matrix.csv" /\
  fr_columns df = [Crystal (Some "a"); Crystal (Some "b")] /\ fr_columns df' = [Text "ID 1"; Text "DIST 1"].
Proof.
  set (A := [{| cr_name := Some "a"; cr_set := point_set 0 |}; {| cr_name := Some "b"; cr_set := point_set (1 / 2) |}]).
  assert (HR : forall g, reads R case_ext false false g (One (IsStr "two.cif")) A).
  { intros g. eexists. split; [constructor; [reflexivity|constructor]|reflexivity]. }
  assert (Ha : have_amds R case_ext 3 A [repeat 0 3; repeat (1 / 2) 3]).
  { constructor; [split; reflexivity|constructor; [split; reflexivity|constructor]]. }
  set (given := cli_kwargs case_options).
  destruct (C36_amd_one (fun _ => None) R case_emd (fun row _ => order_of row) order_of case_kn case_ext case_ch
    (One (IsStr "two.cif")) A "AMD" 3 false false given [repeat 0 3; repeat (1 / 2) 3]) as (df & M & E & T & _); auto.
  { simpl; tauto. } { discriminate. }
  destruct (C37_compare_amd_one (fun _ => None) R case_emd (fun row _ => order_of row) order_of case_kn case_ext case_ch
      (One (IsStr "two.cif")) A "AMD" 3 1 false false [] [repeat 0 3; repeat (1 / 2) 3] (brute_force cheb)) as (df' & inds & ds & dist & E' & T' & _); auto.
  { simpl; tauto. } { discriminate. } { apply C37_kneighbors. } { split; [reflexivity|]. simpl. auto. }
  exists case_options, 1%nat, "AMD_k=3_dist_matrix.csv", "csv", df, df'.
  split; [reflexivity|]. split; [|split; [exact E'|split; [reflexivity|split; [reflexivity|split]]]].
  - unfold cli_main. cbn [case_options o_paths obind o_by o_k o_csd_refcodes o_verbose].
    replace (compare _ _ _ _ _ _ _ _ _ _ _ _ _ _ _ _) with (Done df) by exact (eq_sym E). reflexivity.
  - destruct T as (_ & Tc & _). rewrite Tc. reflexivity.
  - destruct T' as (_ & Tc & _). rewrite Tc. reflexivity.
Qed.

Print Assumptions C36_amd_one.
Print Assumptions C36_amd_two.
Print Assumptions C36_pdd_one.
Print Assumptions C36_pdd_two.
Print Assumptions C36_by_rejected.
Print Assumptions C36_empty_rejected.
Print Assumptions C36_other_rejected.
Print Assumptions C37_compare_amd_one.
Print Assumptions C37_compare_amd_two.
Print Assumptions C37_compare_pdd_one.
Print Assumptions C37_compare_pdd_two.
Print Assumptions C38_compare_pdd_raises.
Print Assumptions C38_all_others_refuted.
Print Assumptions C39_nearest_ignored.
Print Assumptions C39_table_written.
Print Assumptions C39_three_paths.
Print Assumptions C39_nearest_refuted.
