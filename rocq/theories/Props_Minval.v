(** C57 and C64: nearest_neighbors_minval and PDD_reconstructable. *)
From Coq Require Import List ZArith Arith Bool Lia Reals Lra Permutation Sorted.
From Verif Require Import Num Base Spec SpecGeom SpecCalc SpecCell SpecData SpecMinval Outcome LatticeModel CacheModel CacheProofs NNModel VecR NNProofs
  NNSpecProofs NNComplete CalcModel CalcProofs UtilsModel MinvalModel MinvalProofs MinvalProofs2 Props_Utils Props_Data.
Import ListNotations.
Open Scope R_scope.

Section Minval.
  Variables (motif cell : list (list R)) (dims : nat) (v : R) (kdtree : list (list R) -> list (list R) -> list (list nat)).
  Hypothesis Hps : pset_ok dims motif cell.
  Hypothesis Hkd : kd_contract kdtree.
  Let P := pt dims motif cell.
  Let m := length motif.
  Let L0 := concat (layers dims 3).

  Lemma max_cdist_ok : exists c, maxl (concat (map (fun p => map (fun q => sqrt (sqd p q)) motif) motif)) = Done c /\ motif_diam motif c /\
    exists p q, In p motif /\ In q motif /\ c = dist p q.
  Proof.
    set (l := concat (map (fun p => map (fun q => sqrt (sqd p q)) motif) motif)). destruct (maxl_spec l) as (c & E & HI & HM).
    - unfold l. destruct Hps as [_ H _ _ _]. destruct motif; cbn; congruence.
    - assert (IN : forall x, In x l <-> exists p q, In p motif /\ In q motif /\ x = dist p q).
      { intros x. unfold l. rewrite in_concat. split.
        - intros (r & Hr & Hx). apply in_map_iff in Hr as (p & <- & Hp). apply in_map_iff in Hx as (q & <- & Hq). exists p, q. rewrite sqrt_sqd. auto.
        - intros (p & q & Hp & Hq & ->). exists (map (fun q => sqrt (sqd p q)) motif). split; [apply (in_map (fun p => map (fun q => sqrt (sqd p q)) motif)); auto|]. apply in_map_iff. exists q. rewrite sqrt_sqd. auto. }
      exists c. split; auto. apply IN in HI as HI'. split; [|auto]. destruct HI' as (p & q & Hp & Hq & ->). split; [apply dist_nonneg|]. intros p' q' Hp' Hq'. apply HM, IN. eauto.
  Qed.

  Lemma kept_first : kept_ok dims 3 L0.
  Proof.
    split; [lia| |apply incl_refl|apply incl_refl]. pose proof (visited_NoDup motif cell dims Hps 3) as H. unfold visited in H. fold L0 in H. destruct Hps as [_ Hne _ _ _].
    destruct motif as [|p t]; [congruence|]. cbn [length] in H. clear - H. induction L0 as [|l L IH]; [constructor|]. change (idxs (S (length t)) (l :: L)) with (map (fun y => (l, y)) (seq 0 (S (length t))) ++ idxs (S (length t)) L) in H.
    apply NoDup_app_iff in H as (_ & H2 & H3). constructor; auto. intros HI. apply (H3 (l, 0%nat)).
    - apply in_map, in_seq. lia.
    - apply idxs_In. split; auto. lia.
  Qed.

  Lemma minval_start : exists c, motif_diam motif c /\ (exists p q, In p motif /\ In q motif /\ c = dist p q) /\ forall fuel, nearest_neighbors_minval kdtree motif cell v fuel =
    minval_loop kdtree motif cell v fuel 3 c (cloud_of motif cell dims L0) (all_rows motif cell dims L0) (kdtree (cloud_of motif cell dims L0) motif)
      (map (map (fun _ => 0)) (all_rows motif cell dims L0)).
  Proof.
    destruct max_cdist_ok as (c & E & HC & HCe). exists c. split; auto. split; auto. intros fuel. unfold nearest_neighbors_minval, vec in *. assert (EC : length cell = dims) by (destruct Hps; auto). rewrite EC.
    assert (Hd : (1 <= dims)%nat) by (destruct Hps; auto). destruct (layer_spec dims 0 Hd) as (-> & _), (layer_spec dims 1 Hd) as (-> & _), (layer_spec dims 2 Hd) as (-> & _). cbn [obind]. cbv zeta.
    rewrite !cloud_eq. rewrite <- !map_app, <- !idxs_app.
    replace (layer dims 0 ++ layer dims 1 ++ layer dims 2) with L0 by (unfold L0, layers; cbn [seq map concat]; rewrite app_nil_r; auto).
    change (map (pt dims motif cell) (idxs (length motif) L0)) with (cloud_of motif cell dims L0). rewrite (query_eq motif cell dims kdtree Hkd). unfold vec in *. rewrite E. reflexivity.
  Qed.

  Lemma kept_index : forall n L a, kept_ok dims n L -> In a (idxs m L) -> pindex dims motif a.
  Proof. intros n L [l i] HK Ha. apply idxs_In in Ha as [Hl Hi]. split; auto. apply (kept_len motif cell dims Hps n L); auto. Qed.
  Lemma cloud_points : forall n L, kept_ok dims n L -> cloud_of motif cell dims L = map (ppoint dims motif cell) (idxs m L).
  Proof. intros n L HK. apply map_ext_in. intros a Ha. apply pt_ppoint; auto. eapply kept_index; eauto. Qed.
  Lemma kept_cloud : forall n L, kept_ok dims n L -> is_cloud dims motif cell (cloud_of motif cell dims L).
  Proof.
    intros n L HK. exists (idxs m L). split; [eapply cloud_points; eauto|]. split; [apply idxs_NoDup, HK|]. split; [apply Forall_forall; intros a; eapply kept_index; eauto|].
    intros i Hi. apply (idxs_mod motif cell motif 1 dims Hps (le_n _) (incl_refl _)); auto. destruct Hps; auto.
  Qed.
  Lemma kept_shells : forall n L, kept_ok dims n L -> first_shells dims motif cell (cloud_of motif cell dims L).
  Proof.
    intros n L HK [l i] [Hl Hi] Hz. cbn [fst snd] in *. rewrite (cloud_points n L HK). apply in_map. apply idxs_In. split; auto. apply HK. apply (layers_concat_In motif cell dims Hps 2). auto.
  Qed.

  Lemma row_spec : forall n L p, kept_ok dims n L -> In p motif -> exists ds, row_of motif cell dims L p = 0 :: ds /\ sorted_distances (cloud_of motif cell dims L) p (0 :: ds).
  Proof.
    intros n L p HK Hp. assert (SD : sorted_distances (cloud_of motif cell dims L) p (row_of motif cell dims L p)).
    { split; [|apply row_sorted]. rewrite (map_ext _ (dist p)) by (intros; symmetry; apply dist_edist). apply row_perm. }
    apply (In_nth _ _ []) in Hp as (i & Hi & Ei). assert (In 0 (row_of motif cell dims L p)).
    { apply row_In. exists (repeat 0%Z dims, i). split; [apply idxs_In; split; auto; apply HK, (L0_head motif cell dims Hps)|].
      rewrite <- sqrt_sqd. assert (E : pt dims motif cell (repeat 0%Z dims, i) = p).
      { unfold pt. cbn [fst snd]. rewrite Ei. replace dims with (length p) at 1 by (rewrite <- Ei; apply (motif_len motif cell dims Hps), nth_In; auto).
        destruct Hps as [_ _ _ H4 H5]. assert (HP : length p = dims) by (rewrite <- Ei; apply (motif_len motif cell dims Hps), nth_In; auto). rewrite HP, latvec_zero by auto. apply vadd_zero_r. auto. }
      rewrite E, sqd_refl, sqrt_0. auto. }
    destruct (row_of motif cell dims L p) as [|a ds] eqn:E; [destruct H|]. assert (a = 0).
    { destruct SD as [SD1 SD2]. apply StronglySorted_inv in SD2 as [_ SD2]. rewrite Forall_forall in SD2. assert (0 <= a).
      { assert (HA : In a (row_of motif cell dims L p)) by (rewrite E; left; auto). apply row_In in HA as (x & _ & ->). apply dist_nonneg. }
      destruct H as [->|H]; auto. specialize (SD2 0 H). lra. }
    subst a. eauto.
  Qed.

  Lemma nth_rows : forall L i, (i < m)%nat -> nth i (all_rows motif cell dims L) [] = row_of motif cell dims L (nth i motif []).
  Proof. intros L i Hi. unfold all_rows. rewrite (nth_indep _ [] (row_of motif cell dims L [])) by (rewrite map_length; auto). apply map_nth. Qed.

  Lemma result_reaches : forall n L k, 0 < v -> kept_ok dims n L -> first_column v (all_rows motif cell dims L) = Done k ->
    reaches motif (cloud_of motif cell dims L) v k (map (fun r => firstn k (skipn 1 r)) (all_rows motif cell dims L)).
  Proof.
    intros n L k Hv HK EK. apply (column_iff motif cell dims v kdtree Hps) in EK as (K1 & K2 & K3). fold m in K1.
    set (f := fun r : list R => firstn k (skipn 1 r)).
    assert (NR : forall i, (i < m)%nat -> nth i (map f (all_rows motif cell dims L)) [] = f (row_of motif cell dims L (nth i motif []))).
    { intros i Hi. rewrite (nth_indep _ [] (f [])) by (unfold all_rows; rewrite !map_length; auto). rewrite (map_nth f), nth_rows by auto. auto. }
    assert (K0 : (1 <= k)%nat).
    { destruct k as [|k]; [|lia]. exfalso. assert (In (nth 0 motif []) motif) by (apply nth_In; apply (m1 motif cell dims Hps)). specialize (K2 _ H). destruct (row_spec n L _ HK H) as (ds & E & _). rewrite E in K2. cbn in K2. lra. }
    assert (ENT : forall i j, (i < m)%nat -> (j < k)%nat -> nth j (f (row_of motif cell dims L (nth i motif []))) 0 = nth (S j) (row_of motif cell dims L (nth i motif [])) 0).
    { intros i j Hi Hj. destruct (row_spec n L (nth i motif []) HK (nth_In _ _ Hi)) as (ds & -> & _). unfold f. cbn [skipn nth]. symmetry. apply (firstn_nth _ _ _ k); auto. rewrite firstn_firstn, Nat.min_id. auto. }
    split.
    - unfold all_rows. rewrite !map_length. auto.
    - unfold cloud_of. rewrite map_length, idxs_length. fold m. lia.
    - intros i Hi. destruct (row_spec n L (nth i motif []) HK (nth_In _ _ Hi)) as (ds & E & SD). exists ds. split; auto. rewrite NR by auto. unfold f. rewrite E. reflexivity.
    - intros i Hi. rewrite NR, ENT by (auto; lia). replace (S (k - 1)) with k by lia. apply K2, nth_In. auto.
    - intros j Hj. destruct (K3 (S j) ltac:(lia)) as (p & Hp & Hlt). apply (In_nth _ _ []) in Hp as (i & Hi & Ei). exists i. split; auto. rewrite NR, ENT by (auto; lia). rewrite Ei. auto.
  Qed.

  Lemma result_inds : forall n L, kept_ok dims n L -> let cloud := cloud_of motif cell dims L in length (kdtree cloud motif) = m /\
    forall i, (i < m)%nat -> exists ds, sorted_distances cloud (nth i motif []) ds /\ indexes cloud (nth i motif []) ds (nth i (kdtree cloud motif) []).
  Proof.
    intros n L HK cloud. destruct (Hkd cloud motif) as [H1 H2]. split; auto. intros i Hi. destruct (H2 i Hi) as [HP HS]. set (js := nth i (kdtree cloud motif) []) in *.
    exists (map (fun j => edist (nth i motif []) (nth j cloud [])) js). split.
    - split; auto. rewrite <- (map_nth_seq0 _ cloud []) at 1. rewrite map_map. apply Permutation_map. auto.
    - destruct (perm_seq_lt _ _ HP) as (F & ND & _). split; auto.
  Qed.
End Minval.

(** ** Outcome *)

(** If nearest_neighbors_minval returns then the rows are as specified by [reaches] for the cloud it returns; it fails only
    with IndexError, after generating a cloud which does not reach the value from some motif point. *)
Theorem C57_minval : forall kdtree dims motif cell v fuel, kd_contract kdtree -> pset_ok dims motif cell -> 0 < v ->
  nearest_neighbors_minval kdtree motif cell v fuel = OutOfFuel \/
  (nearest_neighbors_minval kdtree motif cell v fuel = Raise IndexError /\
   exists cloud, is_cloud dims motif cell cloud /\ first_shells dims motif cell cloud /\ out_of_reach motif cloud v) \/
  exists rows cloud inds k, nearest_neighbors_minval kdtree motif cell v fuel = Done (rows, cloud, inds) /\
    is_cloud dims motif cell cloud /\ first_shells dims motif cell cloud /\ reaches motif cloud v k rows /\
    length inds = length motif /\ forall i, (i < length motif)%nat -> exists ds,
      sorted_distances cloud (nth i motif []) ds /\ indexes cloud (nth i motif []) ds (nth i inds []).
Proof.
  intros kdtree dims motif cell v fuel Hkd Hps Hv. destruct (minval_start motif cell dims v kdtree Hps Hkd) as (c & HC & _ & E). rewrite E.
  destruct (loop_outcome motif cell dims v kdtree Hps Hkd fuel 3 c _ (map (map (fun _ => 0)) (all_rows motif cell dims (concat (layers dims 3)))) (kept_first motif cell dims Hps)) as [E'|[(E' & n & L & HK & p & Hp & Hlt)|(n & L & k & HK & EK & E')]]; rewrite E'; auto.
  - right. left. split; auto. exists (cloud_of motif cell dims L). split; [eapply kept_cloud; eauto|]. split; [eapply kept_shells; eauto|]. exists p. split; auto.
    intros q Hq. apply in_map_iff in Hq as (a & <- & Ha). rewrite <- dist_edist. eapply Rle_lt_trans; [apply (far_max motif cell dims L p a Ha)|auto].
  - right. right. destruct (result_inds motif cell dims kdtree Hkd n L HK) as [I1 I2]. eexists _, _, _, k. split; [reflexivity|]. split; [eapply kept_cloud; eauto|]. split; [eapply kept_shells; eauto|]. split; [eapply result_reaches; eauto|]. auto.
Qed.

(** In a non-singular cell the search ends. *)
Theorem C57_terminates : forall kdtree dims motif cell v, kd_contract kdtree -> pset_ok dims motif cell -> nonsingular dims cell ->
  exists fuel0 r, r <> OutOfFuel /\ forall fuel, (fuel0 <= fuel)%nat -> nearest_neighbors_minval kdtree motif cell v fuel = r.
Proof.
  intros kdtree dims motif cell v Hkd Hps Hns. destruct (minval_start motif cell dims v kdtree Hps Hkd) as (c & HC & _ & E).
  destruct (loop_terminates motif cell dims v kdtree Hps Hkd Hns c 3 _ (map (map (fun _ => 0)) (all_rows motif cell dims (concat (layers dims 3)))) HC (kept_first motif cell dims Hps)) as (f0 & r & Hr & H).
  exists f0, r. split; auto. intros fuel Hf. rewrite E. apply H. auto.
Qed.

(** ** PDD_reconstructable *)

Lemma lex_sorted : forall (d : list (list R)) kk, Forall (fun r => length r = kk) d ->
  let out := map (fun i => nth i d []) (lex_ordering d) in Permutation d out /\ StronglySorted lex_le out.
Proof.
  intros d kk Hd out. split; [apply perm_seq_map, isort_perm|].
  destruct (assemble_spec (repeat 0 (length d)) d kk (repeat_length _ _) Hd true false 0) as (g0 & g & E & _ & _ & _ & HS). specialize (HS eq_refl).
  unfold collapse_rows in E. cbn [andb] in E. unfold assemble in E. apply (f_equal fst) in E. cbn [fst] in E. rewrite <- E, map_map in HS. exact HS.
Qed.

Lemma cell_dims : forall cell : list (list R), length cell = 2%nat \/ length cell = 3%nat -> existsb (Nat.eqb (length cell)) [2; 3]%nat = true.
Proof. intros cell [->| ->]; reflexivity. Qed.

Lemma cell_vector_pos : forall dims cell i, length cell = dims -> Forall (fun r => length r = dims) cell -> nonsingular dims cell -> (i < dims)%nat -> 0 < rdot (nth i cell []) (nth i cell []).
Proof.
  intros dims cell i Hc Hf (dual & _ & _ & HD) Hi. specialize (HD i i Hi Hi). rewrite Nat.eqb_refl in HD.
  assert (G : forall u w, rdot u w <> 0 -> 0 < rdot u u).
  { assert (NN : forall u, 0 <= rdot u u) by (induction u as [|a u IH]; cbn; nra).
    induction u as [|a u IH]; intros [|b w] H; cbn in *; try congruence; try lra. destruct (Req_dec a 0) as [->|Ha].
    - assert (rdot u w <> 0) by lra. specialize (IH w H0). lra.
    - specialize (NN u). nra. }
  apply (G _ (nth i dual [])). lra.
Qed.

(** The square of the diameter is at least the sum of the squared lengths of the cell vectors. *)
Lemma diameter_bound : forall dims cell d, (dims = 2 \/ dims = 3)%nat -> square_matrix dims cell -> diameter cell = Done d ->
  0 <= d /\ rsum (map (fun r => rdot r r) cell) <= d * d.
Proof.
  intros dims cell d [-> | ->] HS E.
  - destruct (square2 cell HS) as (x0 & x1 & y0 & y1 & ->). unfold diameter, greatest in E. cbn [map rows_add rows_sub map2 fold_left] in E. injection E as <-.
    split; [apply sqrt_pos|]. unfold total, squares. cbn [map fold_left rdot rsum fold_right].
    match goal with |- _ <= sqrt (Rmax ?x ?y) * _ => set (a := x); set (b := y) end. pose proof (Rmax_l a b). pose proof (Rmax_r a b).
    assert (0 <= a) by (unfold a; rewrite Rplus_0_l; apply Rplus_le_le_0_compat; apply Rle_0_sqr). rewrite sqrt_sqrt by lra. apply Rle_trans with ((a + b) / 2); [apply Req_le; unfold a, b; field|lra].
  - destruct (square3 cell HS) as (x0 & x1 & x2 & y0 & y1 & y2 & z0 & z1 & z2 & ->). unfold diameter, greatest in E. cbn [map rows_add rows_sub map2 fold_left] in E. injection E as <-.
    split; [apply sqrt_pos|]. unfold total, squares. cbn [map fold_left rdot rsum fold_right].
    match goal with |- _ <= sqrt (Rmax (Rmax (Rmax ?x ?y) ?z) ?w) * _ => set (a := x); set (b := y); set (c := z); set (e := w) end.
    pose proof (Rmax_l a b). pose proof (Rmax_r a b). pose proof (Rmax_l (Rmax a b) c). pose proof (Rmax_r (Rmax a b) c). pose proof (Rmax_l (Rmax (Rmax a b) c) e). pose proof (Rmax_r (Rmax (Rmax a b) c) e).
    assert (0 <= a) by (unfold a; rewrite Rplus_0_l; repeat apply Rplus_le_le_0_compat; apply Rle_0_sqr). rewrite sqrt_sqrt by lra. apply Rle_trans with ((a + b + c + e) / 4); [|lra]. apply Req_le. unfold a, b, c, e. field.
Qed.

Lemma diameter_pos : forall dims motif cell, (dims = 2 \/ dims = 3)%nat -> pset_ok dims motif cell -> nonsingular dims cell ->
  exists d, diameter cell = Done d /\ is_diameter dims cell d /\ 0 < d.
Proof.
  intros dims motif cell HD [_ _ _ H4 H5] Hns. assert (HS : square_matrix dims cell) by (split; auto).
  assert (EX : exists d, diameter cell = Done d /\ is_diameter dims cell d) by (destruct HD; subst dims; [apply C51_diameter_2D|apply C51_diameter_3D]; auto).
  destruct EX as (d & E & I). exists d. split; auto. split; auto. destruct (diameter_bound dims cell d HD HS E) as [D0 D1].
  assert (P0 : 0 < rdot (nth 0 cell []) (nth 0 cell [])) by (apply (cell_vector_pos dims); auto; lia).
  destruct cell as [|c0 cell]; [cbn in H4; lia|]. cbn [nth] in P0. cbn [map rsum fold_right] in D1. assert (0 <= rsum (map (fun r => rdot r r) cell)).
  { clear. induction cell as [|r t IH]; cbn; [lra|]. assert (NN : forall u, 0 <= rdot u u) by (induction u as [|a u IHu]; cbn; nra). specialize (NN r). unfold rsum in IH. lra. }
  unfold rsum in H. nra.
Qed.

(** In dimension 2 and 3, for every non-singular cell the function ends, either with rows as specified, or with IndexError,
    having generated a cloud which does not reach twice the diameter from some motif point. *)
Theorem C57_reconstructable : forall kdtree dims motif cell lexsort, kd_contract kdtree -> (dims = 2 \/ dims = 3)%nat ->
  pset_ok dims motif cell -> nonsingular dims cell ->
  exists d cloud fuel0, is_diameter dims cell d /\ 0 < d /\ is_cloud dims motif cell cloud /\ first_shells dims motif cell cloud /\
  ((out_of_reach motif cloud (2 * d) /\
    forall fuel, (fuel0 <= fuel)%nat -> PDD_reconstructable kdtree fuel motif cell lexsort = Raise IndexError) \/
   exists rows out k, reaches motif cloud (2 * d) k rows /\ Permutation rows out /\
     (lexsort = true -> StronglySorted lex_le out) /\ (lexsort = false -> out = rows) /\
     forall fuel, (fuel0 <= fuel)%nat -> PDD_reconstructable kdtree fuel motif cell lexsort = Done out).
Proof.
  intros kdtree dims motif cell lexsort Hkd HD Hps Hns. destruct (diameter_pos dims motif cell HD Hps Hns) as (d & E & I & Dp).
  assert (EC : length cell = dims) by (destruct Hps; auto). assert (HB : existsb (Nat.eqb (length cell)) [2; 3]%nat = true) by (apply cell_dims; rewrite EC; auto).
  destruct (C57_terminates kdtree dims motif cell (d * 2) Hkd Hps Hns) as (f0 & r & Hr & HF).
  assert (EQ : forall fuel, (f0 <= fuel)%nat -> PDD_reconstructable kdtree fuel motif cell lexsort =
     obind r (fun '(pdd, _, _) => Done (if lexsort then map (fun i => nth i pdd []) (lex_ordering pdd) else pdd))).
  { intros fuel Hf. unfold PDD_reconstructable. cbv zeta. unfold vec in *. rewrite HB. cbn [negb]. rewrite E. cbn [obind]. rewrite HF by auto. reflexivity. }
  destruct (C57_minval kdtree dims motif cell (d * 2) f0 Hkd Hps ltac:(lra)) as [X|[(X & cloud & C1 & C2 & C3)|(rows & cloud & inds & k & X & C1 & C2 & C3 & _)]]; rewrite HF in X by auto; subst r; [congruence| |]; rewrite Rmult_comm in C3.
  - exists d, cloud, f0. split; [auto|]. split; [auto|]. split; [auto|]. split; [auto|]. left. auto.
  - exists d, cloud, f0. split; auto. split; auto. split; auto. split; auto. right. cbn [obind] in EQ.
    assert (LEN : Forall (fun r => length r = k) rows).
    { destruct C3 as [R1 R2 R3 _ _]. apply Forall_forall. intros r Hin. apply (In_nth _ _ []) in Hin as (i & Hi & <-). destruct (R3 i ltac:(lia)) as (ds & [SD _] & ->).
      apply Permutation_length in SD. rewrite map_length in SD. cbn [length] in SD. rewrite firstn_length. lia. }
    destruct (lex_sorted rows k LEN) as [LP LS]. exists rows. destruct lexsort.
    + exists (map (fun i => nth i rows []) (lex_ordering rows)), k. split; auto. split; auto. split; auto. split; [discriminate|auto].
    + exists rows, k. split; auto. split; auto. split; [discriminate|auto].
Qed.

Theorem C57_dimensions : forall kdtree fuel motif cell lexsort, length cell <> 2%nat -> length cell <> 3%nat ->
  PDD_reconstructable kdtree fuel motif cell lexsort = Raise ValueError.
Proof.
  intros kdtree fuel motif cell lexsort H2 H3. unfold PDD_reconstructable. cbn [existsb]. unfold vec in *. apply Nat.eqb_neq in H2, H3. rewrite H2, H3. reflexivity.
Qed.

(** ** One motif point *)
Section One.
  Variables (p : list R) (cell : list (list R)) (dims : nat) (v : R) (kdtree : list (list R) -> list (list R) -> list (list nat)).
  Hypothesis Hps : pset_ok dims [p] cell.
  Hypothesis Hkd : kd_contract kdtree.
  Lemma one_dist : forall l, dist p (pt dims [p] cell (l, 0%nat)) = norm (latvec dims cell l).
  Proof.
    intros l. unfold pt. cbn [fst snd nth]. assert (LP : length p = dims) by (destruct Hps as [_ _ H _ _]; inversion H; auto). assert (LL : length (latvec dims cell l) = dims) by (apply latvec_length; destruct Hps; auto).
    rewrite dist_edist. unfold edist, norm. f_equal. rewrite <- rdot_dot. clear - LP LL. revert LL. generalize (latvec dims cell l) as w. revert LP. generalize dims as n. induction p as [|a q IH]; intros n LP [|b w] LW; cbn in *; try lia; auto.
    destruct n as [|n]; [lia|]. specialize (IH n ltac:(lia) w ltac:(lia)). unfold vadd in IH. cbn in IH. rewrite IH. ring.
  Qed.
  Lemma one_far : forall L B, L <> [] -> (forall l, In l L -> norm (latvec dims cell l) <= B) -> far [p] cell dims L p <= B.
  Proof.
    intros L B HL HB. destruct (far_In [p] cell dims Hps L p HL) as ([l i] & Ha & ->). apply idxs_In in Ha as [Hl Hi]. cbn in Hi. replace i with 0%nat by lia. rewrite one_dist. auto.
  Qed.
  Lemma one_loop : forall fuel n L prev, kept_ok dims n L -> far [p] cell dims L p < v ->
    minval_loop kdtree [p] cell v fuel n 0 (cloud_of [p] cell dims L) (all_rows [p] cell dims L) (kdtree (cloud_of [p] cell dims L) [p]) prev = OutOfFuel \/
    minval_loop kdtree [p] cell v fuel n 0 (cloud_of [p] cell dims L) (all_rows [p] cell dims L) (kdtree (cloud_of [p] cell dims L) [p]) prev = Raise IndexError.
  Proof.
    induction fuel as [|fuel IH]; intros n L prev HK HF; [left; reflexivity|]. assert (HL := kept_ne [p] cell dims Hps n L HK).
    destruct (farthest_exists [p] cell dims Hps L) as (d & HD & _).
    assert (ED : d = far [p] cell dims L p). { destruct HD as [(q & [<-|[]] & H) _]. auto. }
    destruct (loop_step [p] cell dims v kdtree Hps Hkd fuel n 0 L prev d HL HD) as [(HU & E)|[(_ & _ & E)|(_ & _ & E)]]; rewrite E.
    - exfalso. destruct HU as [HU _]. specialize (HU p (or_introl eq_refl)). lra.
    - right. destruct (final_cases [p] cell dims v kdtree Hps n (all_rows [p] cell dims L) L HK (or_introl eq_refl)) as [[E' _]|(k & EK & E')]; [exact E'|]. exfalso.
      apply (column_iff [p] cell dims v kdtree Hps) in EK as (K1 & K2 & _). specialize (K2 p (or_introl eq_refl)).
      assert (HI : In (nth k (row_of [p] cell dims L p) 0) (row_of [p] cell dims L p)) by (apply nth_In; rewrite row_length; lia).
      apply row_In in HI as (a & Ha & Ea). rewrite Ea in K2. pose proof (far_max [p] cell dims L p a Ha). lra.
    - apply IH; [apply (kept_step [p] cell dims Hps); auto|]. eapply Rle_lt_trans; [|exact HF]. apply one_far.
      + destruct L; [congruence|discriminate].
      + intros l Hl. apply in_app_iff in Hl as [Hl|Hl].
        * rewrite <- one_dist. apply far_max. apply idxs_In. split; auto.
        * apply filter_In in Hl as [_ Hl]. apply Rleb_true in Hl. rewrite <- ED. fold (norm (latvec dims cell l)) in Hl. lra.
  Qed.
End One.

(** Lattice vectors with integer coordinates of length up to 2 are shorter than twice the diameter. *)
Lemma short_lattice : forall dims motif cell d l, (dims = 2 \/ dims = 3)%nat -> pset_ok dims motif cell -> nonsingular dims cell -> diameter cell = Done d ->
  length l = dims -> (zsq l <= 4)%Z -> norm (latvec dims cell l) < 2 * d.
Proof.
  intros dims motif cell d l HD [_ _ _ H4 H5] Hns E HL HZ. assert (HS : square_matrix dims cell) by (split; auto).
  destruct (diameter_bound dims cell d HD HS E) as [D0 D1].
  assert (POS : forall i, (i < dims)%nat -> 0 < rdot (nth i cell []) (nth i cell [])) by (intros; apply (cell_vector_pos dims); auto).
  assert (SQ : dot (latvec dims cell l) (latvec dims cell l) < 4 * rsum (map (fun r => rdot r r) cell)).
  { clear E H4 H5 Hns D0 D1. destruct HD as [-> | ->].
    - destruct (square2 cell HS) as (x0 & x1 & y0 & y1 & ->). destruct l as [|a [|b [|? ?]]]; try discriminate. unfold zsq in HZ. cbn [fold_right] in HZ.
      pose proof (POS 0%nat ltac:(lia)) as P0. pose proof (POS 1%nat ltac:(lia)) as P1. cbn [nth rdot] in P0, P1.
      unfold latvec, dot. cbn -[IZR]. set (A := IZR a). set (B := IZR b).
      destruct (Z_le_gt_dec (a * a + b * b) 3) as [H3|H3].
      + assert (AB : A * A + B * B <= 3) by (unfold A, B; rewrite <- !mult_IZR, <- plus_IZR; apply IZR_le; lia).
        assert (CS : forall u w, (A * u + B * w) * (A * u + B * w) <= (A * A + B * B) * (u * u + w * w)) by (intros u w; assert (0 <= (A * w - B * u) * (A * w - B * u)) by apply Rle_0_sqr; lra).
        pose proof (CS x0 y0) as C0. pose proof (CS x1 y1) as C1. clearbody A B. apply Rle_lt_trans with ((A * A + B * B) * (x0 * x0 + y0 * y0) + (A * A + B * B) * (x1 * x1 + y1 * y1)); [lra|]. nra.
      + assert (CASES : (a * a = 4 /\ b = 0 \/ a = 0 /\ b * b = 4)%Z).
        { assert (-2 <= a <= 2)%Z by nia. assert (-2 <= b <= 2)%Z by nia. assert (a = -2 \/ a = -1 \/ a = 0 \/ a = 1 \/ a = 2)%Z as CA by lia.
          assert (b = -2 \/ b = -1 \/ b = 0 \/ b = 1 \/ b = 2)%Z as CB by lia. destruct CA as [->|[->|[->|[->| ->]]]]; destruct CB as [->|[->|[->|[->| ->]]]]; lia. }
        destruct CASES as [[CA ->]|[-> CB]].
        * assert (A * A = 4) by (unfold A; rewrite <- mult_IZR, CA; auto). unfold B. nra.
        * assert (B * B = 4) by (unfold B; rewrite <- mult_IZR, CB; auto). unfold A. nra.
    - destruct (square3 cell HS) as (x0 & x1 & x2 & y0 & y1 & y2 & z0 & z1 & z2 & ->). destruct l as [|a [|b [|c [|? ?]]]]; try discriminate. unfold zsq in HZ. cbn [fold_right] in HZ.
      pose proof (POS 0%nat ltac:(lia)) as P0. pose proof (POS 1%nat ltac:(lia)) as P1. pose proof (POS 2%nat ltac:(lia)) as P2. cbn [nth rdot] in P0, P1, P2.
      unfold latvec, dot. cbn -[IZR]. set (A := IZR a). set (B := IZR b). set (C := IZR c).
      destruct (Z_le_gt_dec (a * a + (b * b + c * c)) 3) as [H3|H3].
      + assert (AB : A * A + B * B + C * C <= 3) by (unfold A, B, C; rewrite <- !mult_IZR, <- !plus_IZR; apply IZR_le; lia).
        assert (CS : forall u w t, (A * u + (B * w + (C * t + 0))) * (A * u + (B * w + (C * t + 0))) <= 3 * (u * u + w * w + t * t)).
        { intros u w t. assert (0 <= (A * w - B * u) * (A * w - B * u)) by apply Rle_0_sqr. assert (0 <= (A * t - C * u) * (A * t - C * u)) by apply Rle_0_sqr. assert (0 <= (B * t - C * w) * (B * t - C * w)) by apply Rle_0_sqr.
          apply Rle_trans with ((A * A + B * B + C * C) * (u * u + w * w + t * t)); [nra|]. apply Rmult_le_compat_r; [nra|auto]. }
        pose proof (CS x0 y0 z0) as C0. pose proof (CS x1 y1 z1) as C1. pose proof (CS x2 y2 z2) as C2. lra.
      + assert (CASES : (a * a = 4 /\ b = 0 /\ c = 0 \/ a = 0 /\ b * b = 4 /\ c = 0 \/ a = 0 /\ b = 0 /\ c * c = 4)%Z).
        { assert (-2 <= a <= 2)%Z by nia. assert (-2 <= b <= 2)%Z by nia. assert (-2 <= c <= 2)%Z by nia. assert (a = -2 \/ a = -1 \/ a = 0 \/ a = 1 \/ a = 2)%Z as CA by lia.
          assert (b = -2 \/ b = -1 \/ b = 0 \/ b = 1 \/ b = 2)%Z as CB by lia. assert (c = -2 \/ c = -1 \/ c = 0 \/ c = 1 \/ c = 2)%Z as CC by lia.
          destruct CA as [->|[->|[->|[->| ->]]]]; destruct CB as [->|[->|[->|[->| ->]]]]; destruct CC as [->|[->|[->|[->| ->]]]]; lia. }
        destruct CASES as [(CA & -> & ->)|[(-> & CB & ->)|(-> & -> & CC)]].
        * assert (A * A = 4) by (unfold A; rewrite <- mult_IZR, CA; auto). unfold B, C. nra.
        * assert (B * B = 4) by (unfold B; rewrite <- mult_IZR, CB; auto). unfold A, C. nra.
        * assert (C * C = 4) by (unfold C; rewrite <- mult_IZR, CC; auto). unfold A, B. nra. }
  pose proof (norm_nonneg (latvec dims cell l)) as N0. pose proof (norm_sq (latvec dims cell l)) as N1. nra.
Qed.

(** Finding: with one motif point PDD_reconstructable raises IndexError, whatever the cell. *)
Theorem C64_one_point_raises : forall kdtree dims p cell lexsort, kd_contract kdtree -> (dims = 2 \/ dims = 3)%nat ->
  pset_ok dims [p] cell -> nonsingular dims cell ->
  exists fuel0, forall fuel, (fuel0 <= fuel)%nat -> PDD_reconstructable kdtree fuel [p] cell lexsort = Raise IndexError.
Proof.
  intros kdtree dims p cell lexsort Hkd HD Hps Hns. destruct (diameter_pos dims [p] cell HD Hps Hns) as (d & E & I & Dp).
  assert (EC : length cell = dims) by (destruct Hps; auto). assert (HB : existsb (Nat.eqb (length cell)) [2; 3]%nat = true) by (apply cell_dims; rewrite EC; auto).
  destruct (C57_terminates kdtree dims [p] cell (d * 2) Hkd Hps Hns) as (f0 & r & Hr & HF).
  exists f0. intros fuel Hf. unfold PDD_reconstructable. cbv zeta. unfold vec in *. rewrite HB. cbn [negb]. rewrite E. cbn [obind]. rewrite HF by auto.
  destruct (minval_start [p] cell dims (d * 2) kdtree Hps Hkd) as (c & HC & (q1 & q2 & [<-|[]] & [<-|[]] & Ec) & EQ). rewrite <- sqrt_sqd, sqd_refl, sqrt_0 in Ec. subst c.
  assert (FAR : far [p] cell dims (concat (layers dims 3)) p < d * 2).
  { set (K := concat (layers dims 3)). destruct (far_In [p] cell dims Hps K p (kept_ne [p] cell dims Hps 3 K (kept_first [p] cell dims Hps))) as ([l i] & Ha & ->). apply idxs_In in Ha as [Hl Hi]. cbn in Hi. replace i with 0%nat by lia.
    rewrite (one_dist p cell dims Hps). apply (layers_concat_In [p] cell dims Hps 2) in Hl as [HL HZ]. rewrite Rmult_comm. apply (short_lattice dims [p]); auto. }
  destruct (one_loop p cell dims (d * 2) kdtree Hps Hkd f0 3 _ (map (map (fun _ => 0)) (all_rows [p] cell dims (concat (layers dims 3)))) (kept_first [p] cell dims Hps) FAR) as [X|X];
    rewrite <- EQ, HF in X by auto; [exfalso; apply Hr; exact X|rewrite X; reflexivity].
Qed.

(** ** When no distance is missing *)

(** If the cell vectors dominate, the motif lies in the cell, and the first shells reach the value from some motif point,
    then the cloud has every point which is closer than the value to a motif point. *)
Theorem C64_complete_partial : forall kdtree dims motif cell v fuel rows cloud inds, kd_contract kdtree -> pset_ok dims motif cell -> (dims <= 4)%nat ->
  spread dims cell motif -> 0 < v ->
  (exists p a, In p motif /\ pindex dims motif a /\ (zsq (fst a) <= 4)%Z /\ v <= edist p (ppoint dims motif cell a)) ->
  nearest_neighbors_minval kdtree motif cell v fuel = Done (rows, cloud, inds) ->
  has_all_below dims motif cell cloud v.
Proof.
  intros kdtree dims motif cell v fuel rows cloud inds Hkd Hps H4 Hin Hv (p & [l i] & Hp & [Hl Hi] & Hz & Hle) E. cbn [fst snd] in *.
  destruct (minval_start motif cell dims v kdtree Hps Hkd) as (c & HC & _ & EQ). rewrite EQ in E. set (K := concat (layers dims 3)) in *.
  assert (HK := kept_first motif cell dims Hps). fold K in HK.
  destruct (fun a b e => loop_complete motif cell dims v kdtree Hps Hkd H4 Hin Hv fuel 3 c K (map (map (fun _ => 0)) (all_rows motif cell dims K)) (rows, cloud, inds) HC HK a b e E) as (n & L & k & HKL & EK & ER & HE).
  - intros l' Hl' HN. destruct (HN Hl').
  - exists p. split; auto. eapply Rle_trans; [exact Hle|]. rewrite <- pt_ppoint, <- dist_edist by (auto; split; auto). apply far_max. apply idxs_In. split; auto.
    apply (layers_concat_In motif cell dims Hps 2). auto.
  - left. intros r Hr j. apply in_map_iff in Hr as (r' & <- & _). destruct (Nat.lt_ge_cases j (length r')) as [Hj|Hj].
    + apply (map_nth (fun _ : R => 0) r' 0 j).
    + apply nth_overflow. rewrite map_length. auto.
  - unfold result in ER. injection ER as _ -> _. exists (idxs (length motif) L). split; [eapply cloud_points; eauto|].
    intros [l' i'] p' [Hl' Hi'] Hp' Hlt. cbn [fst snd] in *. apply idxs_In. split; auto. destruct (in_dec (list_eq_dec Z.eq_dec) l' L) as [|HN]; auto. exfalso.
    specialize (HE l' Hl' HN p' i' Hp' Hi'). rewrite dist_edist, pt_ppoint in HE by (auto; split; auto). lra.
Qed.

(** ** Missing distances *)
Section Missing.
  Variable kdtree : list (list R) -> list (list R) -> list (list nat).
  Hypothesis Hkd : kd_contract kdtree.
  Let mot : list (list R) := [[0; 0]; [1; 0]].
  Let cel : list (list R) := [[5; 0]; [0; 7]].
  Let v : R := sqrt (IZR 296).

  Lemma mis_ok : pset_ok 2 mot cel.
  Proof. split; unfold mot, cel; auto; discriminate. Qed.

  Definition zdist (i : nat) (a : list Z * nat) : Z :=
    let x := (5 * nth 0 (fst a) 0 + Z.of_nat (snd a) - Z.of_nat i)%Z in let y := (7 * nth 1 (fst a) 0)%Z in (x * x + y * y)%Z.
  Lemma zdist_ok : forall i l j, (i < 2)%nat -> (j < 2)%nat -> length l = 2%nat -> dist (nth i mot []) (pt 2 mot cel (l, j)) = sqrt (IZR (zdist i (l, j))).
  Proof.
    intros i l j Hi Hj Hl. destruct l as [|x [|y [|? ?]]]; try discriminate. rewrite dist_edist. unfold edist. f_equal. unfold zdist. cbn [fst snd nth].
    rewrite plus_IZR, !mult_IZR, minus_IZR, plus_IZR, !mult_IZR. unfold pt, latvec, mot, cel.
    destruct i as [|[|i]]; [| |lia]; (destruct j as [|[|j]]; [| |lia]); cbn -[IZR]; ring.
  Qed.
  Definition zmax (i : nat) (L : list (list Z)) (M : Z) : bool :=
    forallb (fun a => (zdist i a <=? M)%Z) (idxs 2 L) && existsb (fun a => (zdist i a =? M)%Z) (idxs 2 L).
  Lemma zmax_far : forall n L i M, kept_ok 2 n L -> (i < 2)%nat -> zmax i L M = true -> far mot cel 2 L (nth i mot []) = sqrt (IZR M).
  Proof.
    intros n L i M HK Hi H. apply andb_true_iff in H as [H1 H2]. rewrite forallb_forall in H1. apply existsb_exists in H2 as ([l j] & Ha & E). apply Z.eqb_eq in E.
    assert (LEN : forall l, In l L -> length l = 2%nat) by (intros; apply (kept_len mot cel 2 mis_ok n L); auto). apply Rle_antisym.
    - destruct (far_In mot cel 2 mis_ok L (nth i mot []) (kept_ne mot cel 2 mis_ok n L HK)) as ([l' j'] & Hb & ->). specialize (H1 _ Hb). apply idxs_In in Hb as [Hb1 Hb2].
      rewrite zdist_ok by auto. apply sqrt_le_1_alt, IZR_le, Z.leb_le. auto.
    - rewrite <- E, <- zdist_ok; [apply far_max; auto|auto| |]; apply idxs_In in Ha as [Ha1 Ha2]; auto.
  Qed.
  Definition zclose (M : Z) (l : list Z) : bool :=
    let q := (25 * (nth 0 l 0 * nth 0 l 0) + 49 * (nth 1 l 0 * nth 1 l 0))%Z in ((q - 1 - M <=? 0) || ((q - 1 - M) * (q - 1 - M) <=? 4 * M))%Z.
  Lemma zclose_ok : forall M l, (0 <= M)%Z -> length l = 2%nat -> Rleb (norm (latvec 2 cel l) - 1) (sqrt (IZR M)) = zclose M l.
  Proof.
    intros M l HM Hl. destruct l as [|x [|y [|? ?]]]; try discriminate. unfold zclose. cbn [nth]. set (q := (25 * (x * x) + 49 * (y * y))%Z).
    assert (EN : norm (latvec 2 cel [x; y]) = sqrt (IZR q)).
    { unfold norm. f_equal. rewrite <- rdot_dot. unfold q, latvec, cel. rewrite plus_IZR, !mult_IZR. cbn -[IZR]. ring. }
    rewrite EN. assert (Hq : (0 <= q)%Z) by (unfold q; nia). assert (Q0 : 0 <= IZR q) by (apply IZR_le; auto). assert (M0 : 0 <= IZR M) by (apply IZR_le; auto).
    pose proof (sqrt_pos (IZR q)) as SQ. pose proof (sqrt_pos (IZR M)) as SM. pose proof (sqrt_sqrt _ Q0) as EQ. pose proof (sqrt_sqrt _ M0) as EM.
    set (a := sqrt (IZR q)) in *. set (b := sqrt (IZR M)) in *.
    assert (EW : IZR (q - 1 - M) = a * a - 1 - b * b) by (rewrite !minus_IZR, EQ, EM; auto).
    set (w := (q - 1 - M)%Z) in *. destruct (Z.leb_spec w 0) as [H0|H0]; cbn [orb].
    - apply Rleb_true. apply IZR_le in H0. nra.
    - destruct (Z.leb_spec (w * w) (4 * M)) as [H1|H1].
      + apply Rleb_true. apply IZR_le in H1. apply IZR_lt in H0. rewrite !mult_IZR in H1. rewrite EW in H0, H1. rewrite <- EM in H1.
        assert (a * a - 1 - b * b <= 2 * b) by nra. nra.
      + apply Rleb_false. apply IZR_lt in H1. apply IZR_lt in H0. rewrite !mult_IZR in H1. rewrite EW in H0, H1. rewrite <- EM in H1.
        assert (2 * b < a * a - 1 - b * b) by nra. nra.
  Qed.
  Lemma zclose_filter : forall M n, (0 <= M)%Z -> close cel 2 1 (sqrt (IZR M)) (layer 2 n) = filter (zclose M) (layer 2 n).
  Proof.
    intros M n HM. unfold close. apply filter_ext_in. intros l Hl. apply zclose_ok; auto. destruct (layer_spec 2 n ltac:(lia)) as (_ & _ & HI). apply HI in Hl as (H & _). auto.
  Qed.
  Lemma mis_farthest : forall n L M, kept_ok 2 n L -> zmax 0 L M = true -> zmax 1 L M = true -> farthest mot cel 2 L (sqrt (IZR M)).
  Proof.
    intros n L M HK H0 H1. split.
    - exists (nth 0 mot []). split; [left; auto|]. eapply zmax_far; eauto.
    - intros p [<-|[<-|[]]]; apply Req_le; [apply (zmax_far n L 0)|apply (zmax_far n L 1)]; auto.
  Qed.
  Let loop f n L prev := minval_loop kdtree mot cel v f n 1 (cloud_of mot cel 2 L) (all_rows mot cel 2 L) (kdtree (cloud_of mot cel 2 L) mot) prev.

  Lemma loop_eq : forall f n L prev, loop f n L prev = minval_loop kdtree mot cel v f n 1 (cloud_of mot cel 2 L) (all_rows mot cel 2 L) (kdtree (cloud_of mot cel 2 L) mot) prev.
  Proof. reflexivity. Qed.
  Lemma mis_low : forall fuel n L prev M, kept_ok 2 n L -> (0 <= M < 296)%Z -> zmax 0 L M = true -> zmax 1 L M = true -> filter (zclose M) (layer 2 n) <> [] ->
    loop (S fuel) n L prev = loop fuel (S n) (L ++ filter (zclose M) (layer 2 n)) (all_rows mot cel 2 L).
  Proof.
    intros fuel n L prev M HK HM H0 H1 HN. rewrite <- zclose_filter in * by lia.
    destruct (loop_step mot cel 2 v kdtree mis_ok Hkd fuel n 1 L prev _ (kept_ne mot cel 2 mis_ok n L HK) (mis_farthest n L M HK H0 H1)) as [(HU & _)|[(_ & E & _)|(_ & _ & E)]]; [|contradiction|exact E].
    exfalso. destruct HU as [HU _]. specialize (HU (nth 0 mot []) (or_introl eq_refl)). rewrite (zmax_far n L 0 M) in HU by auto. revert HU. apply Rlt_not_le, sqrt_lt_1_alt. split; [apply IZR_le|apply IZR_lt]; lia.
  Qed.

  Lemma mis_high : forall n n' L Lp M M', kept_ok 2 n L -> kept_ok 2 n' Lp -> (0 <= M' < 296)%Z -> (296 <= M)%Z -> zmax 0 Lp M' = true -> zmax 0 L M = true -> zmax 1 L M = true ->
    filter (zclose M) (layer 2 n) = [] -> exists k, forall fuel, loop (S fuel) n L (all_rows mot cel 2 Lp) = Done (result mot cel 2 kdtree L k).
  Proof.
    intros n n' L Lp M M' HK HK' HM' HM H' H0 H1 HN. rewrite <- zclose_filter in * by lia.
    destruct (final_cases mot cel 2 v kdtree mis_ok n (all_rows mot cel 2 L) L HK (or_introl eq_refl)) as [(_ & p & Hp & Hlt)|(k & _ & E')].
    { exfalso. assert (F : far mot cel 2 L p = sqrt (IZR M)) by (destruct Hp as [<-|[<-|[]]]; [apply (zmax_far n L 0)|apply (zmax_far n L 1)]; auto).
      rewrite F in Hlt. revert Hlt. apply Rle_not_lt. apply sqrt_le_1_alt, IZR_le. auto. }
    exists k. intros fuel.
    destruct (loop_step mot cel 2 v kdtree mis_ok Hkd fuel n 1 L (all_rows mot cel 2 Lp) _ (kept_ne mot cel 2 mis_ok n L HK) (mis_farthest n L M HK H0 H1)) as [(HU & _)|[(_ & _ & E)|(_ & E & _)]]; [| |contradiction].
    - exfalso. destruct (unchanged_column mot cel 2 v kdtree mis_ok _ _ HU) as (j & _ & EK & _). apply (column_iff mot cel 2 v kdtree mis_ok) in EK as (J1 & J2 & _).
      specialize (J2 (nth 0 mot []) (or_introl eq_refl)).
      assert (HI : In (nth j (row_of mot cel 2 Lp (nth 0 mot [])) 0) (row_of mot cel 2 Lp (nth 0 mot []))) by (apply nth_In; rewrite row_length; auto).
      apply row_In in HI as (a & Ha & Ea). rewrite Ea in J2. pose proof (far_max mot cel 2 Lp (nth 0 mot []) a Ha) as F. rewrite (zmax_far n' Lp 0 M') in F by auto.
      apply (Rle_not_lt _ _ (Rle_trans _ _ _ J2 F)). apply sqrt_lt_1_alt. split; [apply IZR_le|apply IZR_lt]; lia.
    - unfold loop. rewrite E. exact E'.
  Qed.

  Let K0 := concat (layers 2 3).
  Let K1 := K0 ++ filter (zclose 197) (layer 2 3).
  Let K2 := K1 ++ filter (zclose 256) (layer 2 4).
  Lemma mis_run : exists k, forall fuel, nearest_neighbors_minval kdtree mot cel v (S (S (S fuel))) = Done (result mot cel 2 kdtree K2 k).
  Proof.
    destruct (minval_start mot cel 2 v kdtree mis_ok Hkd) as (c & HC & (p & q & Hp & Hq & Ec) & EQ).
    assert (c = 1).
    { assert (D : forall i j, (i < 2)%nat -> (j < 2)%nat -> dist (nth i mot []) (nth j mot []) = if Nat.eqb i j then 0 else 1).
      { intros i j Hi Hj. rewrite dist_edist. unfold edist. destruct i as [|[|i]]; [| |lia]; (destruct j as [|[|j]]; [| |lia]); cbn -[IZR].
        - match goal with |- sqrt ?x = _ => replace x with 0 by lra end. apply sqrt_0.
        - match goal with |- sqrt ?x = _ => replace x with 1 by lra end. apply sqrt_1.
        - match goal with |- sqrt ?x = _ => replace x with 1 by lra end. apply sqrt_1.
        - match goal with |- sqrt ?x = _ => replace x with 0 by lra end. apply sqrt_0. }
      assert (1 <= c). { pose proof (D 0%nat 1%nat ltac:(lia) ltac:(lia)) as D1. cbn [Nat.eqb] in D1. rewrite <- D1. apply HC; [left|right; left]; reflexivity. }
      assert (c <= 1); [|lra]. rewrite Ec. apply (In_nth _ _ []) in Hp as (i & Hi & <-). apply (In_nth _ _ []) in Hq as (j & Hj & <-). cbn in Hi, Hj. rewrite D by auto. destruct (Nat.eqb i j); lra. }
    clear Ec. subst c.
    assert (A0 : kept_ok 2 3 K0) by apply (kept_first mot cel 2 mis_ok).
    assert (A1 : kept_ok 2 4 K1) by (unfold K1; rewrite <- zclose_filter by lia; apply (kept_step mot cel 2 mis_ok); auto).
    assert (A2 : kept_ok 2 5 K2) by (unfold K2; rewrite <- zclose_filter by lia; apply (kept_step mot cel 2 mis_ok); auto).
    destruct (mis_high 5 4 K2 K1 305 256) as (k & E); [exact A2|exact A1|lia|lia|vm_compute; reflexivity|vm_compute; reflexivity|vm_compute; reflexivity|vm_compute; reflexivity|].
    exists k. intros fuel. rewrite EQ. fold K0. clear EQ. set (prev := map (map (fun _ => 0)) (all_rows mot cel 2 K0)). rewrite <- loop_eq.
    rewrite (mis_low _ 3 K0 _ 197); [|exact A0|lia|vm_compute; reflexivity|vm_compute; reflexivity|vm_compute; discriminate]. fold K1.
    rewrite (mis_low _ 4 K1 _ 256); [|exact A1|lia|vm_compute; reflexivity|vm_compute; reflexivity|vm_compute; discriminate]. fold K2.
    apply E.
  Qed.
  Lemma mis_none : forall r, In r (all_rows mot cel 2 K2) -> ~ In (sqrt (IZR 277)) r.
  Proof.
    intros r Hr HI. apply in_map_iff in Hr as (p & <- & Hp). apply (proj1 (row_In mot cel 2 K2 p _)) in HI as ([l j] & Ha & E).
    assert (A2 : kept_ok 2 5 K2).
    { unfold K2. rewrite <- zclose_filter by lia. apply (kept_step mot cel 2 mis_ok). unfold K1. rewrite <- zclose_filter by lia. apply (kept_step mot cel 2 mis_ok). apply (kept_first mot cel 2 mis_ok). }
    assert (N : forall i, (i < 2)%nat -> p = nth i mot [] -> zdist i (l, j) = 277%Z).
    { intros i Hi ->. assert (Ha' := Ha). apply idxs_In in Ha' as [Hl Hj]. rewrite zdist_ok in E by (auto; apply (kept_len mot cel 2 mis_ok 5 K2); auto).
      apply sqrt_inj in E; [apply eq_IZR; auto|apply IZR_le; lia|apply IZR_le; unfold zdist; apply Z.add_nonneg_nonneg; apply Z.square_nonneg]. }
    assert (C : forallb (fun a => negb (zdist 0 a =? 277)%Z && negb (zdist 1 a =? 277)%Z) (idxs 2 K2) = true) by (vm_compute; reflexivity).
    rewrite forallb_forall in C. specialize (C _ Ha). apply andb_true_iff in C as [C0 C1]. apply negb_true_iff, Z.eqb_neq in C0. apply negb_true_iff, Z.eqb_neq in C1.
    destruct Hp as [<-|[<-|[]]]; [apply C0, N|apply C1, N]; auto.
  Qed.
End Missing.

(** Finding: lattice vectors once left out are never tried again, although the search goes on. For a rectangular cell with
    sides 5 and 7 and the motif (0, 0), (1, 0), the point (10, 14) has distance sqrt 277 from (1, 0), less than twice the
    diameter; the distance is in no row. *)
Theorem C64_distances_missing_refuted : exists dims motif cell d p a, (dims = 2)%nat /\ pset_ok dims motif cell /\ nonsingular dims cell /\ half_dominant dims cell /\
  Forall (in_cell dims cell) motif /\ is_diameter dims cell d /\
  In p motif /\ pindex dims motif a /\ edist p (ppoint dims motif cell a) < 2 * d /\
  forall kdtree lexsort, kd_contract kdtree -> exists out, (forall fuel, (3 <= fuel)%nat -> PDD_reconstructable kdtree fuel motif cell lexsort = Done out) /\
    forall row, In row out -> ~ In (edist p (ppoint dims motif cell a)) row.
Proof.
  exists 2%nat, [[0; 0]; [1; 0]], [[5; 0]; [0; 7]], (sqrt 74), [1; 0], ([2; 2]%Z, 0%nat).
  assert (ED : diameter [[5; 0]; [0; 7]] = Done (sqrt 74)).
  { unfold diameter, greatest. cbn [map rows_add rows_sub map2 fold_left]. unfold total, squares. cbn [map fold_left]. f_equal. f_equal. rewrite Rmax_left by lra. ring. }
  assert (EE : edist [1; 0] (ppoint 2 [[0; 0]; [1; 0]] [[5; 0]; [0; 7]] ([2; 2]%Z, 0%nat)) = sqrt (IZR 277)).
  { unfold edist, ppoint, lattice_coord, comb_coord, rsum. f_equal. cbn -[IZR]. ring. }
  assert (E2 : sqrt 74 * 2 = sqrt (IZR 296)).
  { replace 2 with (sqrt 4) by (replace 4 with (2 * 2) by ring; apply sqrt_square; lra). rewrite <- sqrt_mult by lra. f_equal. ring. }
  split; auto. split; [apply mis_ok|]. split; [|split; [|split; [|split; [|split; [right; left; auto|split; [split; cbn; auto|split]]]]]].
  - exists [[/ 5; 0]; [0; / 7]]. split; auto. split; auto. intros i j Hi Hj. destruct i as [|[|i]]; [| |lia]; (destruct j as [|[|j]]; [| |lia]); cbn -[IZR]; lra.
  - intros i Hi. destruct i as [|[|i]]; [| |lia]; unfold rsum; cbn -[IZR]; rewrite !Rmult_0_l, !Rmult_0_r, !Rplus_0_r, Rabs_R0; lra.
  - constructor; [|constructor; [|constructor]].
    + exists [0; 0]. split; auto. split; [constructor; [lra|constructor; [lra|constructor]]|]. unfold comb_coord, rsum. cbn -[IZR]. f_equal; [lra|f_equal; lra].
    + exists [/ 5; 0]. split; auto. split; [constructor; [lra|constructor; [lra|constructor]]|]. unfold comb_coord, rsum. cbn -[IZR]. f_equal; [lra|f_equal; lra].
  - destruct (C51_diameter_2D [[5; 0]; [0; 7]]) as (d & E & I); [split; auto|]. rewrite ED in E. injection E as <-. auto.
  - rewrite EE, Rmult_comm, E2. apply sqrt_lt_1_alt. split; [apply IZR_le|apply IZR_lt]; lia.
  - intros kdtree lexsort Hkd.
    assert (ROWS : exists r0, forall fuel, (3 <= fuel)%nat -> nearest_neighbors_minval kdtree [[0; 0]; [1; 0]] [[5; 0]; [0; 7]] (sqrt (IZR 296)) fuel = Done r0 /\ forall row, In row (fst (fst r0)) -> ~ In (sqrt (IZR 277)) row).
    { destruct (mis_run kdtree Hkd) as (k & HR). eexists. intros fuel Hf. destruct fuel as [|[|[|fuel]]]; try lia. split; [apply HR|]. cbn [result fst]. intros row Hrow HI.
      apply in_map_iff in Hrow as (r & <- & Hr). apply (mis_none r Hr). apply firstn_In in HI. destruct r; [destruct HI|right; exact HI]. }
    destruct ROWS as ([[pdd cloud] inds] & HR). cbn [fst] in HR. exists (if lexsort then map (fun i => nth i pdd []) (lex_ordering pdd) else pdd). split.
    + intros fuel Hf. unfold PDD_reconstructable. cbv zeta. cbn [length existsb Nat.eqb orb negb]. rewrite ED. cbn [obind]. rewrite E2. destruct (HR fuel Hf) as [-> _]. reflexivity.
    + intros row Hrow. rewrite EE. apply (proj2 (HR 3%nat (le_n _))). destruct lexsort; auto. apply in_map_iff in Hrow as (i & <- & Hi). apply isort_In, in_seq in Hi. apply nth_In. lia.
Qed.

(** It does return if the first shells reach the value from every motif point. *)
Theorem C64_returns_partial : forall kdtree dims motif cell v, kd_contract kdtree -> pset_ok dims motif cell -> nonsingular dims cell -> 0 < v ->
  (forall p, In p motif -> exists a, pindex dims motif a /\ (zsq (fst a) <= 4)%Z /\ v <= edist p (ppoint dims motif cell a)) ->
  exists rows cloud inds fuel0, forall fuel, (fuel0 <= fuel)%nat -> nearest_neighbors_minval kdtree motif cell v fuel = Done (rows, cloud, inds).
Proof.
  intros kdtree dims motif cell v Hkd Hps Hns Hv HA. destruct (C57_terminates kdtree dims motif cell v Hkd Hps Hns) as (f0 & r & Hr & HF).
  destruct (C57_minval kdtree dims motif cell v f0 Hkd Hps Hv) as [X|[(X & cloud & _ & C2 & p & Hp & C3)|(rows & cloud & inds & k & X & _)]]; rewrite HF in X by auto.
  - contradiction.
  - exfalso. destruct (HA p Hp) as (a & Ha & Hz & Hle). specialize (C3 _ (C2 a Ha Hz)). lra.
  - exists rows, cloud, inds, f0. intros fuel Hf. rewrite HF by auto. auto.
Qed.

(** ** Examples *)

(** Indices sorted by distance meet the contract. *)
Definition kd_sorting (cloud pts : list (list R)) : list (list nat) :=
  map (fun p => isort (fun i j => Rleb (edist p (nth i cloud [])) (edist p (nth j cloud []))) (seq 0 (length cloud))) pts.
Example C57_contract : kd_contract kd_sorting.
Proof.
  intros cloud pts. split; [apply map_length|]. intros i Hi. cbv zeta.
  set (f := fun p => isort (fun i j => Rleb (edist p (nth i cloud [])) (edist p (nth j cloud []))) (seq 0 (length cloud))).
  assert (E : nth i (kd_sorting cloud pts) [] = f (nth i pts [])).
  { unfold kd_sorting. fold f. rewrite (nth_indep _ [] (f [])) by (rewrite map_length; auto). apply map_nth. }
  rewrite E. split; [apply isort_perm|]. unfold f. apply StronglySorted_map.
  set (g := fun a => edist (nth i pts []) (nth a cloud [])). change (StronglySorted (fun a b => g a <= g b) (isort (fun a b => Rleb (g a) (g b)) (seq 0 (length cloud)))).
  assert (HS : StronglySorted (fun a b => Rleb (g a) (g b) = true) (isort (fun a b => Rleb (g a) (g b)) (seq 0 (length cloud)))).
  { apply isort_sorted.
    - intros x y. destruct (Rle_or_lt (g x) (g y)); [left|right]; apply Rleb_true; lra.
    - intros x y z H1 H2. apply Rleb_true in H1. apply Rleb_true in H2. apply Rleb_true. lra. }
  clearbody g. revert HS. generalize (isort (fun a b => Rleb (g a) (g b)) (seq 0 (length cloud))) as l. intros l HS. induction HS as [|a l Ha IH HF]; constructor; auto.
  eapply Forall_impl; [|exact HF]. intros b Hb. apply Rleb_true. exact Hb.
Qed.
Example C57_case : pset_ok 2 [[0; 0]; [1; 0]] [[5; 0]; [0; 7]] /\ pset_ok 2 [[0; 0]] [[5; 0]; [0; 7]] /\
  forall v, v <= 10 -> forall p, In p [[0; 0]; [1; 0]] -> exists a, pindex 2 [[0; 0]; [1; 0]] a /\ (zsq (fst a) <= 4)%Z /\ v <= edist p (ppoint 2 [[0; 0]; [1; 0]] [[5; 0]; [0; 7]] a).
Proof.
  split; [apply mis_ok|]. split; [split; auto; discriminate|]. intros v Hv p Hp. destruct Hp as [<-|[<-|[]]].
  - exists ([0; 2]%Z, 0%nat). split; [split; cbn; lia|]. split; [cbn; lia|]. apply Rle_trans with 10; auto. apply Rle_trans with (sqrt (14 * 14)); [rewrite sqrt_square by lra; lra|]. apply sqrt_le_1_alt.
    unfold ppoint, lattice_coord, comb_coord, rsum. cbn -[IZR]. lra.
  - exists ([0; 2]%Z, 0%nat). split; [split; cbn; lia|]. split; [cbn; lia|]. apply Rle_trans with 10; auto. apply Rle_trans with (sqrt (14 * 14)); [rewrite sqrt_square by lra; lra|]. apply sqrt_le_1_alt.
    unfold ppoint, lattice_coord, comb_coord, rsum. cbn -[IZR]. lra.
Qed.

Print Assumptions C57_minval.
Print Assumptions C57_terminates.
Print Assumptions C57_reconstructable.
Print Assumptions C57_dimensions.
Print Assumptions C64_one_point_raises.
Print Assumptions C64_complete_partial.
Print Assumptions C64_distances_missing_refuted.
Print Assumptions C64_returns_partial.
