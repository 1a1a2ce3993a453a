(** The expansion of an asymmetric unit: what the loops compute. *)
From Coq Require Import List ZArith Reals Arith Bool Lia Lra Sorted Permutation.
From Verif Require Import Num Base Outcome NNModel VecR SpecGeom NNSpecProofs CalcModel CalcProofs CompareModel
  SitesModel SpecSites SitesProofs.
Import ListNotations.
Open Scope R_scope.
Open Scope list_scope.
Notation length := List.length.

Lemma np_dot_rdot : forall u v : list R, np_dot u v = rdot u v.
Proof. intros u v. unfold np_dot. rewrite ndot_dot, rdot_dot. reflexivity. Qed.

Lemma enumerate_seq : forall A (l : list A) d, enumerate l = map (fun i => (i, nth i l d)) (seq 0 (length l)).
Proof.
  intros A l d. unfold enumerate. rewrite <- (map_nth_seq l d) at 2. generalize (seq 0 (length l)).
  induction l0 as [|i t IH]; simpl; congruence.
Qed.

Lemma nth_map' : forall A B (f : A -> B) l i d d', (i < length l)%nat -> nth i (map f l) d' = f (nth i l d).
Proof. intros. rewrite (nth_indep _ d' (f d)) by (rewrite map_length; auto). apply map_nth. Qed.

(** ** Runs of equal values *)
Definition blocks (c : nat -> nat) (vs : list nat) : list nat := flat_map (fun v => repeat v (c v)) vs.
Definition total (l : list nat) : nat := fold_right plus 0%nat l.
Definition start (c : nat -> nat) (vs : list nat) (a : nat) : nat := total (map c (firstn a vs)).

Lemma blocks_length : forall c vs, length (blocks c vs) = total (map c vs).
Proof. intros c. unfold blocks. induction vs; simpl; auto. rewrite app_length, repeat_length. congruence. Qed.

Lemma nth_repeat_lt : forall A (a d : A) n i, (i < n)%nat -> nth i (repeat a n) d = a.
Proof. intros A a d. induction n; intros [|i] Hi; simpl; auto; try lia. apply IHn. lia. Qed.

Lemma blocks_nth : forall c vs a r, (a < length vs)%nat -> (r < c (nth a vs 0))%nat ->
  nth (start c vs a + r) (blocks c vs) 0%nat = nth a vs 0%nat.
Proof.
  intros c. unfold blocks. induction vs as [|v vs IH]; intros a r Ha Hr; [simpl in Ha; lia|].
  destruct a as [|a]; cbn [flat_map nth] in *.
  - unfold start. simpl. rewrite app_nth1 by (rewrite repeat_length; auto). apply nth_repeat_lt; auto.
  - unfold start. simpl. rewrite app_nth2; rewrite repeat_length; [|lia].
    replace (c v + total (map c (firstn a vs)) + r - c v)%nat with (start c vs a + r)%nat by (unfold start; lia).
    apply IH; simpl in Ha; try lia; auto.
Qed.

Lemma blocks_cover : forall c vs k, (k < length (blocks c vs))%nat ->
  exists a r, (a < length vs)%nat /\ (r < c (nth a vs 0%nat))%nat /\ k = (start c vs a + r)%nat.
Proof.
  intros c. induction vs as [|v vs IH]; intros k Hk; rewrite blocks_length in Hk; simpl in Hk; [lia|].
  destruct (Nat.lt_ge_cases k (c v)) as [L|L].
  - exists 0%nat, k. simpl. unfold start. simpl. repeat split; auto; lia.
  - destruct (IH (k - c v)%nat) as (a & r & Ha & Hr & E); [rewrite blocks_length; lia|].
    exists (S a), r. simpl. unfold start in *. simpl. repeat split; auto; lia.
Qed.

Lemma start_S : forall c vs a, (a < length vs)%nat -> start c vs (S a) = (start c vs a + c (nth a vs 0))%nat.
Proof.
  intros c. unfold start. induction vs as [|v vs IH]; intros a Ha; [simpl in Ha; lia|].
  destruct a as [|a]; simpl in *; [lia|]. rewrite IH by lia. lia.
Qed.
Lemma start_mono : forall c vs a b, (a <= b)%nat -> (start c vs a <= start c vs b)%nat.
Proof.
  intros c. unfold start. induction vs as [|v vs IH]; intros [|a] [|b] Hab; simpl; try lia. specialize (IH a b). lia.
Qed.
Lemma start_bound : forall c vs a r, (a < length vs)%nat -> (r < c (nth a vs 0))%nat -> (start c vs a + r < length (blocks c vs))%nat.
Proof.
  intros c vs a r Ha Hr. rewrite blocks_length.
  pose proof (start_mono c vs (S a) (length vs) ltac:(lia)) as M. rewrite start_S in M by auto.
  unfold start at 2 in M. rewrite firstn_all in M. lia.
Qed.

Lemma total_firstn : forall l a, (a < length l)%nat -> total (firstn (S a) l) = (total (firstn a l) + nth a l 0)%nat.
Proof.
  induction l as [|x l IH]; intros [|a] Ha; simpl in Ha; try lia; [simpl; lia|].
  change (total (firstn (S (S a)) (x :: l))) with (x + total (firstn (S a) l))%nat. rewrite IH by lia. simpl. lia.
Qed.

Lemma cumsum_nth : forall l s a, (a < length l)%nat -> nth a (cumsum_from s l) 0%nat = (s + total (firstn (S a) l))%nat.
Proof.
  induction l as [|x l IH]; intros s a Ha; [simpl in Ha; lia|]. destruct a as [|a]; simpl; [lia|].
  rewrite IH by (simpl in Ha; lia). simpl. lia.
Qed.
Lemma cumsum_length : forall l s, length (cumsum_from s l) = length l.
Proof. induction l; intros; simpl; auto. Qed.
Lemma removelast_length' : forall A (l : list A), length (removelast l) = (length l - 1)%nat.
Proof. intros A l. induction l as [|a [|b l] IH]; auto. simpl in *. rewrite IH. lia. Qed.
Lemma removelast_nth : forall A (l : list A) d i, (S i < length l)%nat -> nth i (removelast l) d = nth i l d.
Proof.
  intros A l d. induction l as [|a [|b l] IH]; intros i Hi; simpl in Hi; try lia.
  destruct i as [|i]; auto. change (nth i (removelast (b :: l)) d = nth i (b :: l) d). apply IH. simpl. lia.
Qed.

Lemma asym_inds_length : forall l, length (asym_inds l) = length l.
Proof.
  intros [|x l]; auto. unfold asym_inds. cbn [length]. rewrite removelast_length'. unfold cumsum. rewrite cumsum_length. simpl. lia.
Qed.
Lemma asym_inds_nth : forall l a, (a < length l)%nat -> nth a (asym_inds l) 0%nat = total (firstn a l).
Proof.
  intros [|x l] a Ha; [simpl in Ha; lia|]. destruct a as [|a]; auto. unfold asym_inds. cbn [nth].
  rewrite removelast_nth by (unfold cumsum; rewrite cumsum_length; auto).
  unfold cumsum. rewrite cumsum_nth by lia. auto.
Qed.

Lemma runs_blocks : forall c vs, NoDup vs -> (forall v, In v vs -> (1 <= c v)%nat) ->
  runs (blocks c vs) (asym_inds (map c vs)) (map c vs).
Proof.
  intros c vs N P.
  assert (S0 : forall a, (a < length vs)%nat -> nth a (asym_inds (map c vs)) 0%nat = start c vs a).
  { intros a Ha. rewrite asym_inds_nth by (rewrite map_length; auto). unfold start. rewrite firstn_map. auto. }
  assert (M0 : forall a, (a < length vs)%nat -> nth a (map c vs) 0%nat = c (nth a vs 0%nat)).
  { intros a Ha. apply (nth_map' _ _ c vs a 0%nat 0%nat Ha). }
  assert (L : length (asym_inds (map c vs)) = length vs) by (rewrite asym_inds_length, map_length; auto).
  constructor.
  - rewrite L, map_length. auto.
  - intros a Ha. rewrite L in Ha. rewrite S0, M0 by auto.
    assert (Q : (1 <= c (nth a vs 0%nat))%nat) by (apply P, nth_In; auto).
    split; [|split; auto].
    + rewrite <- (Nat.add_0_r (start c vs a)). apply start_bound; auto; lia.
    + intros k Hk. rewrite <- (Nat.add_0_r (start c vs a)) at 1. rewrite blocks_nth by (auto; lia).
      destruct (blocks_cover c vs k Hk) as (b & r & Hb & Hr & ->). rewrite blocks_nth by auto. split.
      * intros E. apply (proj1 (NoDup_nth vs 0%nat) N) in E; auto. subst b. lia.
      * intros G. assert (a = b); [|subst; auto].
        destruct (Nat.lt_trichotomy a b) as [X|[X|X]]; auto.
        -- pose proof (start_mono c vs (S a) b ltac:(lia)) as M. rewrite start_S in M by auto. lia.
        -- pose proof (start_mono c vs (S b) a ltac:(lia)) as M. rewrite start_S in M by auto. lia.
  - intros a b Hab. rewrite L in Hab. rewrite !S0, M0 by lia.
    pose proof (start_mono c vs (S a) b ltac:(lia)) as M. rewrite start_S in M by lia. auto.
  - intros k Hk. destruct (blocks_cover c vs k Hk) as (b & r & Hb & Hr & ->). exists b. rewrite L. split; auto.
    rewrite S0, M0 by auto. lia.
  - rewrite blocks_length. auto.
Qed.

(** Empty blocks do not matter. *)
Lemma blocks_filter : forall c vs, blocks c vs = blocks c (filter (fun v => (0 <? c v)%nat) vs).
Proof.
  intros c. unfold blocks. induction vs as [|v vs IH]; auto. simpl. rewrite IH.
  destruct (0 <? c v)%nat eqn:E; auto. apply Nat.ltb_ge in E. replace (c v) with 0%nat by lia. auto.
Qed.
Lemma blocks_count : forall c vs v, NoDup vs -> In v vs -> count_occ Nat.eq_dec (blocks c vs) v = c v.
Proof.
  assert (R : forall n v w, count_occ Nat.eq_dec (repeat v n) w = if Nat.eq_dec v w then n else 0%nat).
  { induction n; intros; simpl; destruct (Nat.eq_dec v w); auto; rewrite IHn; destruct (Nat.eq_dec v w); auto; contradiction. }
  intros c. unfold blocks. induction vs as [|u vs IH]; intros v N H; [destruct H|]. inversion N; subst. simpl.
  rewrite count_occ_app, R. destruct (Nat.eq_dec u v) as [->|D].
  - rewrite (proj1 (count_occ_not_In Nat.eq_dec _ v)); [lia|]. intros I. apply in_flat_map in I as (x & Hx & Ix).
    apply repeat_spec in Ix. congruence.
  - destruct H as [->|H]; [contradiction|]. rewrite IH; auto.
Qed.
Lemma blocks_In : forall c vs v, In v (blocks c vs) <-> In v vs /\ (1 <= c v)%nat.
Proof.
  intros c vs v. unfold blocks. rewrite in_flat_map. split.
  - intros (x & Hx & I). pose proof (repeat_spec _ _ _ I). subst x. split; auto. destruct (c v); [destruct I|lia].
  - intros [H1 H2]. exists v. split; auto. destruct (c v); [lia|]. simpl; auto.
Qed.

Lemma filter_seq_beyond : forall f a b, (a <= b)%nat -> (forall v, (a <= v < b)%nat -> f v = false) ->
  filter f (seq 0 b) = filter f (seq 0 a).
Proof.
  intros f a b Hab Hf. replace b with (a + (b - a))%nat by lia. rewrite seq_app, filter_app.
  assert (Z : filter f (seq (0 + a) (b - a)) = []).
  { assert (Y : forall l, (forall v, In v l -> f v = false) -> filter f l = []).
    { induction l as [|x l IH]; intros Hl; auto. simpl. rewrite (Hl x) by (simpl; auto). apply IH. intros; apply Hl; simpl; auto. }
    apply Y. intros v Hv. apply in_seq in Hv. apply Hf. lia. }
  rewrite Z, app_nil_r. auto.
Qed.

Lemma unique_counts_blocks : forall c m,
  let vs := filter (fun v => (0 <? c v)%nat) (seq 0 m) in
  np_unique_counts (blocks c (seq 0 m)) = (vs, map c vs).
Proof.
  intros c m vs. unfold np_unique_counts. set (l := blocks c (seq 0 m)).
  assert (I : forall v, In v l <-> (v < m)%nat /\ (1 <= c v)%nat).
  { intros v. unfold l. rewrite blocks_In, in_seq. intuition lia. }
  assert (EB : forall v, existsb (Nat.eqb v) l = true <-> In v l).
  { intros v. rewrite existsb_exists. split; [intros (x & Hx & E); apply Nat.eqb_eq in E; subst; auto|].
    intros H. exists v. split; auto. apply Nat.eqb_refl. }
  assert (V : filter (fun v => existsb (Nat.eqb v) l) (seq 0 (S (list_max l))) = vs).
  { set (b := Nat.max (S (list_max l)) m).
    rewrite <- (filter_seq_beyond _ (S (list_max l)) b).
    - transitivity (filter (fun v => (0 <? c v)%nat && (v <? m)%nat)%bool (seq 0 m)).
      2:{ apply filter_ext_in. intros v Hv. apply in_seq in Hv. rewrite (proj2 (Nat.ltb_lt v m)) by lia. apply andb_true_r. }
      rewrite <- (filter_seq_beyond (fun v => (0 <? c v)%nat && (v <? m)%nat)%bool m b).
      + apply filter_ext. intros v. destruct (existsb (Nat.eqb v) l) eqn:E.
        * apply EB, I in E. symmetry. apply andb_true_iff. split; [apply Nat.ltb_lt|apply Nat.ltb_lt]; lia.
        * symmetry. apply not_true_iff_false. intros C. apply andb_true_iff in C as [C1 C2].
          apply Nat.ltb_lt in C1, C2. assert (In v l) by (apply I; lia). apply EB in H. congruence.
      + unfold b. lia.
      + intros v Hv. apply andb_false_iff. right. apply Nat.ltb_ge. lia.
    - unfold b. lia.
    - intros v Hv. apply not_true_iff_false. intros C. apply EB in C.
      pose proof (proj1 (list_max_le l (list_max l)) (Nat.le_refl _)) as F. rewrite Forall_forall in F. apply F in C. lia. }
  rewrite V. f_equal. apply map_ext_in. intros v Hv. unfold vs in Hv. apply filter_In in Hv as [Hv _].
  apply blocks_count; auto. apply seq_NoDup.
Qed.

(** ** The images *)
Section Expand.
  Variables (dims : nat) (tol : R) (asym : list (list R)) (ops : list operation).
  Hypothesis tol_small : tol < 1.
  Hypothesis ops_ok : Forall (operation_ok dims) ops.
  Hypothesis asym_len : Forall (fun p => length p = dims) asym.

  Let E := expand_sites mod1 asym ops.
  Definition img (i w : nat) : list R := nth w (nth i E []) [].

  Lemma E_length : length E = length asym.
  Proof. apply map_length. Qed.
  Lemma E_nth : forall i, (i < length asym)%nat ->
    nth i E [] = map (fun g => map mod1 (apply_op g (nth i asym []))) ops.
  Proof. intros i Hi. unfold E, expand_sites. rewrite (nth_map' _ _ _ _ i [] []) by auto. auto. Qed.

  Lemma apply_affine : forall g p, operation_ok dims g -> length p = dims -> apply_op (T := R) g p = affine g p.
  Proof.
    intros [rows t] p (L1 & L2 & L3) Hp. cbn [fst snd] in *. unfold apply_op, affine. cbn [fst snd]. rewrite Hp.
    assert (G : forall k (rows : list (list R)) t, length rows = k -> length t = k ->
      vadd (map (fun row => np_dot row p) rows) t = map (fun j => rdot (nth j rows []) p + nth j t 0) (seq 0 k)).
    { induction k as [|k IH]; intros [|r rs] [|b tt] Hr Ht; try discriminate; auto.
      cbn [seq map]. unfold vadd. cbn [map map2 nth]. rewrite np_dot_rdot. f_equal.
      rewrite <- seq_shift, map_map. apply (IH rs tt); simpl in *; lia. }
    apply G; auto.
  Qed.

  Lemma affine_length : forall g p, length (affine g p) = length p.
  Proof. intros. unfold affine. rewrite map_length, seq_length. auto. Qed.

  Lemma mod1_same : forall p, same_mod1 (map mod1 p) p /\ in_unit (map mod1 p).
  Proof.
    intros p. split.
    - split; [apply map_length|]. intros j Hj. rewrite map_length in Hj. rewrite (nth_map' _ _ _ _ _ 0) by auto. apply mod1_diff.
    - apply Forall_forall. intros a Ha. apply in_map_iff in Ha as (b & <- & _). apply mod1_range.
  Qed.

  Lemma op_nth : forall w, (w < length ops)%nat -> operation_ok dims (nth w ops ([], [])).
  Proof. intros w Hw. rewrite Forall_forall in ops_ok. apply ops_ok, nth_In. auto. Qed.
  Lemma asym_nth : forall i, (i < length asym)%nat -> length (nth i asym []) = dims.
  Proof. intros i Hi. rewrite Forall_forall in asym_len. apply asym_len, nth_In. auto. Qed.

  Lemma img_ok : forall i w, (i < length asym)%nat -> (w < length ops)%nat ->
    length (img i w) = dims /\ in_unit (img i w) /\ same_mod1 (img i w) (affine (nth w ops ([], [])) (nth i asym [])).
  Proof.
    intros i w Hi Hw. unfold img. rewrite E_nth by auto. rewrite (nth_map' _ _ _ ops w ([], []) []) by auto.
    rewrite apply_affine by auto using op_nth, asym_nth.
    destruct (mod1_same (affine (nth w ops ([], [])) (nth i asym []))) as [S U].
    split; [|split; auto]. rewrite map_length, affine_length. apply asym_nth; auto.
  Qed.

  Lemma row_length : forall i, (i < length asym)%nat -> length (nth i E []) = length ops.
  Proof. intros i Hi. rewrite E_nth by auto. apply map_length. Qed.
  Lemma row_ok : forall i, (i < length asym)%nat -> sites_ok dims (nth i E []).
  Proof.
    intros i Hi. apply Forall_forall. intros p Hp. apply (In_nth _ _ []) in Hp as (w & Hw & <-).
    rewrite row_length in Hw by auto. destruct (img_ok i w Hi Hw) as (A & B & _). split; auto.
  Qed.

  (** The operations that give a new image of site [i]. *)
  Definition fresh (i : nat) : list nat := chosen (unique_sites tol (nth i E [])).

  Lemma unique_len : forall sites : list (list R), length (unique_sites tol sites) = length sites.
  Proof. intros. apply unique_from_length. Qed.

  Lemma fresh_In : forall i w, (i < length asym)%nat ->
    In w (fresh i) <-> (w < length ops)%nat /\ forall w', (w' < w)%nat -> ~ close_mod1 tol (img i w') (img i w).
  Proof.
    intros i w Hi. unfold fresh. rewrite chosen_In, unique_len, row_length by auto. split.
    - intros [Hw U]. split; auto. rewrite (unique_nth dims) in U; auto using row_ok. rewrite row_length; auto.
    - intros [Hw U]. split; auto. rewrite (unique_nth dims); auto using row_ok. rewrite row_length; auto.
  Qed.
  Lemma fresh_sorted : forall i, StronglySorted lt (fresh i).
  Proof. intros. apply chosen_sorted. Qed.
  Lemma fresh_images : forall i, unique_images tol (nth i E []) = map (img i) (fresh i).
  Proof. intros i. unfold unique_images. rewrite (select_chosen _ []) by apply unique_len. auto. Qed.

  (** Points, origins and operations when the images [K j] of site [j] are listed. *)
  Definition points (K : nat -> list nat) (m : nat) : list (list R) := flat_map (fun j => map (img j) (K j)) (seq 0 m).
  Definition origins (K : nat -> list nat) (m : nat) : list nat := blocks (fun j => length (K j)) (seq 0 m).
  Definition pairs (K : nat -> list nat) (m : nat) : list (nat * nat) := flat_map (fun j => map (pair j) (K j)) (seq 0 m).

  Lemma points_ext : forall K K' m, (forall j, (j < m)%nat -> K j = K' j) -> points K m = points K' m /\ origins K m = origins K' m.
  Proof.
    intros K K' m HK. unfold points, origins, blocks. split; rewrite !flat_map_concat_map; f_equal; apply map_ext_in; intros j Hj;
      apply in_seq in Hj; rewrite HK by lia; auto.
  Qed.
  Lemma points_S : forall K m, points K (S m) = points K m ++ map (img m) (K m) /\
    origins K (S m) = origins K m ++ repeat m (length (K m)).
  Proof.
    intros K m. unfold points, origins, blocks. rewrite seq_S, !flat_map_app. simpl. rewrite !app_nil_r. auto.
  Qed.
  Lemma points_pairs : forall K m, points K m = map (fun jw => img (fst jw) (snd jw)) (pairs K m) /\
    origins K m = map fst (pairs K m).
  Proof.
    intros K m. unfold points, origins, pairs, blocks. induction (seq 0 m) as [|j l [IH1 IH2]]; auto.
    simpl. rewrite !map_app, !map_map. simpl. rewrite IH1, IH2. split; auto. f_equal.
    induction (K j); simpl; congruence.
  Qed.

  Lemma reduce_form : reduce_expanded_sites tol E = (points fresh (length asym), origins fresh (length asym)).
  Proof.
    unfold reduce_expanded_sites. f_equal.
    - rewrite <- (map_nth_seq E []) at 1. rewrite E_length. rewrite flat_map_concat_map, map_map.
      unfold points. rewrite flat_map_concat_map. f_equal. apply map_ext. intros i. apply fresh_images.
    - rewrite (enumerate_seq _ E []), E_length. unfold origins, blocks. rewrite !flat_map_concat_map, map_map. f_equal.
      apply map_ext. intros i. cbn [fst snd]. rewrite fresh_images, map_length. auto.
  Qed.

  Lemma first_eq_none : forall s (motif : list (list R)), 
    match first_eq tol s motif with None => true | _ => false end = negb (existsb (site_eq tol s) motif).
  Proof.
    intros s. induction motif as [|q t IH]; auto. simpl. destruct (site_eq tol s q); auto. rewrite orb_false_l, <- IH.
    destruct (first_eq tol s t); auto.
  Qed.

  (** The images kept by the slower reduction. *)
  Definition keeps (K : nat -> list nat) (j : nat) : Prop :=
    K j = filter (fun v => negb (existsb (site_eq tol (img j v)) (points K j))) (fresh j).

  Lemma filter_map_comm : forall A B (f : A -> B) p (l : list A), filter p (map f l) = map f (filter (fun x => p (f x)) l).
  Proof. intros A B f p l. induction l; simpl; auto. destruct (p (f a)); simpl; congruence. Qed.

  Lemma equiv_fold : forall n i K w, (i + n = length asym)%nat -> (forall j, (j < i)%nat -> keeps K j) ->
    exists K' w', fold_left (equiv_step tol) (map (fun i => (i, nth i E [])) (seq i n)) (points K i, origins K i, w) =
      (points K' (length asym), origins K' (length asym), w') /\ forall j, (j < length asym)%nat -> keeps K' j.
  Proof.
    induction n as [|n IH]; intros i K w Hn HK.
    - simpl. replace i with (length asym) in * by lia. exists K, w. auto.
    - cbn [seq map fold_left]. unfold equiv_step at 2. rewrite fresh_images.
      set (new := filter (fun v => negb (existsb (site_eq tol (img i v)) (points K i))) (fresh i)).
      set (K' := fun j => if Nat.eqb j i then new else K j).
      assert (X : forall j, (j < i)%nat -> K j = K' j).
      { intros j Hj. unfold K'. rewrite (proj2 (Nat.eqb_neq j i)) by lia. auto. }
      destruct (points_ext K K' i X) as [P O]. destruct (points_S K' i) as [P' O'].
      assert (Ki : K' i = new) by (unfold K'; rewrite Nat.eqb_refl; auto).
      rewrite filter_map_comm, map_length.
      rewrite (filter_ext (fun v => match first_eq tol (img i v) (points K i) with None => true | _ => false end)
                          (fun v => negb (existsb (site_eq tol (img i v)) (points K i))) ltac:(intros; apply first_eq_none)).
      fold new. rewrite P, O. unfold vec. rewrite <- Ki, <- P', <- O'. apply IH; [lia|].
      intros j Hj. destruct (Nat.eq_dec j i) as [->|D].
      + unfold keeps. rewrite Ki. unfold new. rewrite P. auto.
      + assert (Hji : (j < i)%nat) by lia. unfold keeps. rewrite <- X by auto. rewrite (HK j Hji) at 1.
        destruct (points_ext K K' j) as [-> _]; auto. intros; apply X; lia.
  Qed.

  Lemma equiv_form : asym <> [] -> exists K w, reduce_expanded_equiv_sites tol E = Done (points K (length asym), origins K (length asym), w) /\
    forall j, (j < length asym)%nat -> keeps K j.
  Proof.
    intros HA. unfold reduce_expanded_equiv_sites. rewrite (enumerate_seq _ E []), E_length.
    destruct (length asym) as [|m] eqn:L; [apply length_zero_iff_nil in L; contradiction|]. cbn [seq map].
    destruct (equiv_fold m 1 fresh [] ltac:(lia)) as (K & w & EK & HK).
    { intros j Hj. assert (j = 0)%nat by lia. subst j. unfold keeps, points. cbn [seq flat_map].
      induction (fresh 0) as [|v l IH]; auto. simpl. f_equal. exact IH. }
    rewrite <- L in *. exists K, w. split; auto. rewrite <- EK. f_equal. f_equal.
    unfold points, origins, blocks. cbn [seq flat_map]. rewrite !app_nil_r, fresh_images, map_length. auto.
  Qed.

  (** The result of the expansion: the images kept for every site. *)
  Lemma expand_form : forall uniquify motif invs w, asym <> [] ->
    expand_asym_unit mod1 tol uniquify asym ops = Done (motif, invs, w) ->
    exists K, motif = points K (length asym) /\ invs = origins K (length asym) /\
      ((forall j, (j < length asym)%nat -> K j = fresh j) /\
       (uniquify = true -> forallb (fun b => b) (unique_sites tol motif) = true) \/
       uniquify = true /\ forall j, (j < length asym)%nat -> keeps K j).
  Proof.
    intros uniquify motif invs w HA. unfold expand_asym_unit. fold E. rewrite reduce_form.
    destruct (uniquify && negb (forallb (fun b => b) (unique_sites tol (points fresh (length asym)))))%bool eqn:B.
    - destruct (equiv_form HA) as (K & w' & EK & HK). rewrite EK. intros Q. injection Q as <- <- <-.
      exists K. apply andb_true_iff in B as [B _]. split; auto.
    - intros Q. injection Q as <- <- <-. exists fresh. split; auto. split; auto. left. split; auto.
      intros ->. simpl in B. apply negb_false_iff in B. auto.
  Qed.

  Lemma expand_Done : forall uniquify, asym <> [] -> exists r, expand_asym_unit mod1 tol uniquify asym ops = Done r.
  Proof.
    intros uniquify HA. unfold expand_asym_unit. fold E. rewrite reduce_form.
    destruct (uniquify && _)%bool; [|eauto]. destruct (equiv_form HA) as (K & w & EK & _). rewrite EK. eauto.
  Qed.

  (** *** From the images kept to the specification *)
  Section Kept.
    Variable K : nat -> list nat.
    Hypothesis HK : forall j, (j < length asym)%nat -> exists p, K j = filter p (fresh j).
    Let m := length asym.
    Let L := pairs K m.

    Lemma kept_sorted : forall j, (j < m)%nat -> StronglySorted lt (K j) /\ incl (K j) (fresh j).
    Proof.
      intros j Hj. destruct (HK j Hj) as [p ->]. split.
      - pose proof (fresh_sorted j) as S. induction S as [|a l S IH F]; simpl; [constructor|].
        destruct (p a); auto. constructor; auto. rewrite Forall_forall in *. intros x Hx. apply filter_In in Hx. apply F. tauto.
      - intros x Hx. apply filter_In in Hx. tauto.
    Qed.

    Definition before (a b : nat * nat) : Prop := (fst a < fst b \/ fst a = fst b /\ snd a < snd b)%nat.
    Lemma pairs_sorted : StronglySorted before L.
    Proof.
      unfold L, pairs. assert (G : forall n s, (s + n <= m)%nat -> StronglySorted before (flat_map (fun j => map (pair j) (K j)) (seq s n))).
      { induction n as [|n IH]; intros s Hs; cbn [seq flat_map]; [constructor|].
        apply StronglySorted_app_iff. split; [|split].
        - destruct (kept_sorted s ltac:(lia)) as [S _]. induction S as [|a l S IHS F]; simpl; constructor; auto.
          rewrite Forall_forall in *. intros x Hx. apply in_map_iff in Hx as (b & <- & Hb). right. simpl. split; [auto|apply F; auto].
        - apply IH. lia.
        - intros a b Ha Hb. apply in_map_iff in Ha as (x & <- & _). apply in_flat_map in Hb as (y & Hy & Hb).
          apply in_map_iff in Hb as (z & <- & _). apply in_seq in Hy. left. simpl. lia. }
      apply G. lia.
    Qed.
    Lemma pairs_In : forall j w, In (j, w) L <-> (j < m)%nat /\ In w (K j).
    Proof.
      intros j w. unfold L, pairs. rewrite in_flat_map. split.
      - intros (x & Hx & H). apply in_map_iff in H as (y & Q & Hy). injection Q as -> ->. apply in_seq in Hx. split; auto. lia.
      - intros [Hj Hw]. exists j. rewrite in_seq. split; [lia|]. apply in_map; auto.
    Qed.
    Lemma pairs_nth : forall k, (k < length L)%nat -> (fst (nth k L (0, 0)%nat) < m)%nat /\ In (snd (nth k L (0, 0)%nat)) (K (fst (nth k L (0, 0)%nat))).
    Proof. intros k Hk. apply pairs_In. rewrite <- surjective_pairing. apply nth_In. auto. Qed.

    Let frac := points K m.
    Let origin := origins K m.
    Definition whichs : list nat := map snd (pairs K m).

    Lemma frac_L : frac = map (fun jw => img (fst jw) (snd jw)) L.
    Proof. apply points_pairs. Qed.
    Lemma origin_L : origin = map fst L.
    Proof. apply points_pairs. Qed.
    Lemma frac_nth : forall k, (k < length L)%nat -> nth k frac [] = img (nth k origin 0%nat) (nth k whichs 0%nat).
    Proof.
      intros k Hk. rewrite frac_L, origin_L. unfold whichs. fold L.
      rewrite !(nth_map' _ _ _ L k (0, 0)%nat) by auto. auto.
    Qed.
    Lemma frac_len : length frac = length L.
    Proof. rewrite frac_L. apply map_length. Qed.
    Lemma kept_nth : forall k, (k < length L)%nat -> (nth k origin 0 < m)%nat /\ In (nth k whichs 0%nat) (fresh (nth k origin 0%nat)).
    Proof.
      intros k Hk. rewrite origin_L. unfold whichs. fold L. rewrite !(nth_map' _ _ _ L k (0, 0)%nat) by auto.
      destruct (pairs_nth k Hk) as [A B]. split; auto. apply kept_sorted; auto.
    Qed.

    Lemma kept_expansion : expansion dims tol ops asym frac origin whichs.
    Proof.
      pose proof frac_len as FL. constructor.
      - rewrite FL, origin_L. apply map_length.
      - rewrite FL. unfold whichs. fold L. apply map_length.
      - apply Forall_forall. intros f Hf. apply (In_nth _ _ []) in Hf as (k & Hk & <-). rewrite FL in Hk. rewrite frac_nth by auto.
        destruct (kept_nth k Hk) as [A B]. apply fresh_In in B; auto. destruct B as [B _].
        destruct (img_ok _ _ A B) as (X & Y & _). auto.
      - intros k Hk. rewrite FL in Hk. destruct (kept_nth k Hk) as [A B]. apply fresh_In in B; auto. split; tauto.
      - intros k Hk. rewrite FL in Hk. rewrite frac_nth by auto. destruct (kept_nth k Hk) as [A B]. apply fresh_In in B; auto.
        apply img_ok; tauto.
      - intros k l Hkl. rewrite FL in Hkl. rewrite origin_L. unfold whichs. fold L.
        rewrite !(nth_map' _ _ _ L _ (0, 0)%nat) by lia. apply (StronglySorted_nth (0, 0)%nat pairs_sorted Hkl).
      - intros k w Hk Hw. rewrite FL in Hk. rewrite frac_nth by auto. destruct (kept_nth k Hk) as [A B]. apply fresh_In in B; auto.
        destruct B as [B B']. intros C. apply (B' w Hw).
        destruct (img_ok _ _ A B) as (L1 & _ & _). destruct (img_ok _ w A ltac:(lia)) as (L2 & _ & S).
        apply close_sym; [congruence|]. eapply close_same; [apply same_sym; exact S| |exact C].
        rewrite affine_length, L1. symmetry. apply asym_nth; auto.
    Qed.

    (** Images of one site are not close to each other. *)
    Lemma kept_apart : forall k l, (k < l < length frac)%nat -> nth k origin 0%nat = nth l origin 0%nat ->
      ~ close_mod1 tol (nth k frac []) (nth l frac []).
    Proof.
      intros k l Hkl HO. rewrite frac_len in Hkl. rewrite !frac_nth by lia.
      pose proof (ex_order _ _ _ _ _ _ _ kept_expansion k l) as X. rewrite frac_len in X. destruct (X Hkl) as [X'|[_ X']]; [lia|].
      destruct (kept_nth l ltac:(lia)) as [A B]. apply fresh_In in B; auto. rewrite HO. apply B. auto.
    Qed.

    Lemma kept_runs : runs origin (asym_inds (snd (np_unique_counts origin))) (snd (np_unique_counts origin)).
    Proof.
      unfold origin, origins. rewrite unique_counts_blocks. cbn [snd]. rewrite blocks_filter. apply runs_blocks.
      - apply NoDup_filter, seq_NoDup.
      - intros v Hv. apply filter_In in Hv as [_ Hv]. apply Nat.ltb_lt in Hv. auto.
    Qed.

    Lemma kept_index : forall j w, (j < m)%nat -> In w (K j) -> exists k, (k < length frac)%nat /\
      nth k origin 0%nat = j /\ nth k whichs 0%nat = w /\ nth k frac [] = img j w.
    Proof.
      intros j w Hj Hw. assert (I : In (j, w) L) by (apply pairs_In; auto). apply (In_nth _ _ (0, 0)%nat) in I as (k & Hk & Q).
      exists k. rewrite frac_len, frac_nth by auto. rewrite origin_L. unfold whichs. fold L.
      rewrite !(nth_map' _ _ _ L k (0, 0)%nat) by auto. rewrite Q. auto.
    Qed.
  End Kept.

  (** *** Pairs of points *)
  Lemma img_close : forall i w j v, (i < length asym)%nat -> (w < length ops)%nat -> (j < length asym)%nat -> (v < length ops)%nat ->
    close_mod1 tol (img i w) (img j v) <->
    close_mod1 tol (affine (nth w ops ([], [])) (nth i asym [])) (affine (nth v ops ([], [])) (nth j asym [])).
  Proof.
    intros i w j v Hi Hw Hj Hv. destruct (img_ok i w Hi Hw) as (L1 & _ & S1). destruct (img_ok j v Hj Hv) as (L2 & _ & S2). split; intros C.
    - eapply close_same_l; [exact S1|]. eapply close_same; [exact S2| |exact C]. congruence.
    - eapply close_same_l; [apply same_sym; exact S1|]. eapply close_same; [apply same_sym; exact S2| |exact C].
      rewrite !affine_length, !asym_nth; auto.
  Qed.
  Lemma img_neq : forall i w j v, (i < length asym)%nat -> (w < length ops)%nat -> (j < length asym)%nat -> (v < length ops)%nat ->
    site_eq tol (img i w) (img j v) = true <-> close_mod1 tol (img i w) (img j v).
  Proof.
    intros i w j v Hi Hw Hj Hv. destruct (img_ok i w Hi Hw) as (L1 & U1 & _). destruct (img_ok j v Hj Hv) as (L2 & U2 & _).
    rewrite site_eq_neq, negb_true_iff. apply site_neq_ok; auto. congruence.
  Qed.

  Lemma points_In : forall K i q, In q (points K i) <-> exists j w, (j < i)%nat /\ In w (K j) /\ q = img j w.
  Proof.
    intros K i q. unfold points. rewrite in_flat_map. split.
    - intros (j & Hj & H). apply in_map_iff in H as (w & <- & Hw). apply in_seq in Hj. exists j, w. split; [lia|auto].
    - intros (j & w & Hj & Hw & ->). exists j. rewrite in_seq. split; [lia|]. apply in_map. auto.
  Qed.

  Lemma keeps_fresh : forall K j, keeps K j -> exists p, K j = filter p (fresh j).
  Proof. intros K j H. eexists. exact H. Qed.

  Lemma form_filter : forall K, ((forall j, (j < length asym)%nat -> K j = fresh j) \/ (forall j, (j < length asym)%nat -> keeps K j)) ->
    forall j, (j < length asym)%nat -> exists p, K j = filter p (fresh j).
  Proof.
    intros K [H|H] j Hj; [|apply keeps_fresh; auto]. exists (fun _ => true). rewrite (H j Hj).
    induction (fresh j) as [|a l IH]; auto. simpl. f_equal. exact IH.
  Qed.

  Lemma all_unique : forall motif, sites_ok dims motif -> forallb (fun b => b) (unique_sites tol motif) = true ->
    forall k l, (k < l < length motif)%nat -> ~ close_mod1 tol (nth k motif []) (nth l motif []).
  Proof.
    intros motif Hm F k l Hkl. apply (unique_nth dims tol motif l); auto; try lia.
    rewrite forallb_forall in F. apply F. apply nth_In. rewrite unique_len. lia.
  Qed.

  Lemma keeps_apart : forall K, (forall j, (j < length asym)%nat -> keeps K j) ->
    forall k l, (k < l < length (points K (length asym)))%nat ->
      ~ close_mod1 tol (nth k (points K (length asym)) []) (nth l (points K (length asym)) []).
  Proof.
    intros K H k l Hkl. pose proof (form_filter K (or_intror H)) as HF.
    pose proof (kept_expansion K HF) as EX.
    destruct (ex_order _ _ _ _ _ _ _ EX k l Hkl) as [O|[O _]]; [|apply kept_apart; auto].
    pose proof (ex_range _ _ _ _ _ _ _ EX k ltac:(lia)) as [Rk1 Rk2].
    pose proof (ex_range _ _ _ _ _ _ _ EX l ltac:(lia)) as [Rl1 Rl2].
    rewrite (frac_len K) in Hkl. rewrite !frac_nth by lia. intros C.
    set (j := nth l (origins K (length asym)) 0%nat) in *. set (v := nth l (whichs K) 0%nat) in *.
    assert (Hv : In v (K j)).
    { unfold v, j. rewrite (origin_L K). unfold whichs. rewrite !(nth_map' _ _ _ (pairs K (length asym)) l (0, 0)%nat) by lia. apply pairs_nth. lia. }
    rewrite (H j Rl1) in Hv. apply filter_In in Hv as [_ Hv]. apply negb_true_iff in Hv.
    apply not_true_iff_false in Hv. apply Hv. apply existsb_exists.
    exists (img (nth k (origins K (length asym)) 0%nat) (nth k (whichs K) 0%nat)). split.
    - apply points_In. eexists. eexists. split; [exact O|]. split; [|reflexivity].
      rewrite (origin_L K). unfold whichs. rewrite !(nth_map' _ _ _ (pairs K (length asym)) k (0, 0)%nat) by lia. apply pairs_nth. lia.
    - apply img_neq; auto. apply close_sym; auto.
      destruct (img_ok _ _ Rk1 Rk2) as (L1 & _). destruct (img_ok j v Rl1 Rl2) as (L2 & _). congruence.
  Qed.

  (** *** Every image is represented *)
  Lemma some_close : forall i w n, (i < length asym)%nat -> (w < length ops)%nat -> (n <= length ops)%nat ->
    (exists w', (w' < n)%nat /\ close_mod1 tol (img i w') (img i w)) \/ (forall w', (w' < n)%nat -> ~ close_mod1 tol (img i w') (img i w)).
  Proof.
    intros i w n Hi Hw. induction n as [|n IH]; intros Hn; [right; intros; lia|].
    destruct IH as [(w' & Hw' & C)|F]; [lia|left; exists w'; split; auto; lia|].
    destruct (site_eq tol (img i n) (img i w)) eqn:Q.
    - left. exists n. split; [lia|]. apply img_neq; auto; lia.
    - right. intros w' Hw' C. destruct (Nat.eq_dec w' n) as [->|D]; [|apply (F w'); auto; lia].
      apply img_neq in C; auto; lia || congruence.
  Qed.

  Lemma fresh_cover : 0 <= tol -> transitive_images tol asym ops -> forall i w, (i < length asym)%nat -> (w < length ops)%nat ->
    exists w', In w' (fresh i) /\ (w' <= w)%nat /\ close_mod1 tol (img i w') (img i w).
  Proof.
    intros T0 HT i w Hi. induction w as [w IH] using lt_wf_ind. intros Hw.
    destruct (some_close i w w Hi Hw ltac:(lia)) as [(v & Hv & C)|F].
    - destruct (IH v Hv ltac:(lia)) as (w' & I & Le & C'). exists w'. split; auto. split; [lia|].
      apply fresh_In in I as [I _]; auto. apply img_close; auto. apply img_close in C; auto; [|lia]. apply img_close in C'; auto; [|lia].
      eapply HT; [| | | | | |exact C'|exact C]; apply nth_In; auto; lia.
    - exists w. split; [apply fresh_In; auto|]. split; auto. apply close_refl; auto.
  Qed.

  Lemma represented : forall K, 0 <= tol -> transitive_images tol asym ops ->
    (forall j, (j < length asym)%nat -> K j = fresh j) \/ (forall j, (j < length asym)%nat -> keeps K j) ->
    forall i w, (i < length asym)%nat -> (w < length ops)%nat ->
    exists j v, (j <= i)%nat /\ In v (K j) /\ close_mod1 tol (img j v) (img i w) /\
      ((forall j, (j < length asym)%nat -> K j = fresh j) -> j = i).
  Proof.
    intros K T0 HT H i w Hi Hw. destruct (fresh_cover T0 HT i w Hi Hw) as (v & I & _ & C).
    assert (Hv : (v < length ops)%nat) by (apply fresh_In in I; tauto).
    destruct (in_dec Nat.eq_dec v (K i)) as [J|J].
    { exists i, v. auto. }
    destruct H as [H|H]; [rewrite H in J by auto; contradiction|].
    assert (B : existsb (site_eq tol (img i v)) (points K i) = true).
    { apply not_false_iff_true. intros B. apply J. rewrite (H i Hi). apply filter_In. split; auto. rewrite B. auto. }
    apply existsb_exists in B as (q & Hq & B). apply points_In in Hq as (j & u & Hj & Hu & ->).
    assert (Hu' : (u < length ops)%nat).
    { destruct (form_filter K (or_intror H) j ltac:(lia)) as [p Q]. rewrite Q in Hu. apply filter_In in Hu as [Hu _].
      apply fresh_In in Hu; [tauto|lia]. }
    apply img_neq in B; auto; [|lia]. exists j, u. split; [lia|]. split; auto. split.
    - apply img_close in B; auto; [|lia]. apply img_close in C; auto. apply img_close; auto; [lia|].
      apply close_sym in B; [|rewrite !affine_length, !asym_nth; auto; lia].
      eapply HT; [| | | | | |exact B|exact C]; apply nth_In; auto; lia.
    - intros F. exfalso. apply J. rewrite F; auto.
  Qed.

  (** *** Disjoint orbits *)
  Lemma disjoint_fresh : forall K, disjoint_orbits tol asym ops -> (forall j, (j < length asym)%nat -> keeps K j) ->
    forall j, (j < length asym)%nat -> K j = fresh j.
  Proof.
    intros K HD H j Hj. rewrite (H j Hj).
    assert (G : forall l, incl l (fresh j) -> filter (fun v => negb (existsb (site_eq tol (img j v)) (points K j))) l = l).
    { induction l as [|v l IH]; intros Hl; auto. cbn [filter].
      assert (Hv : (v < length ops)%nat) by (assert (In v (fresh j)) by (apply Hl; simpl; auto); apply fresh_In in H0; tauto).
      replace (existsb (site_eq tol (img j v)) (points K j)) with false.
      - simpl. f_equal. apply IH. intros x Hx. apply Hl. simpl; auto.
      - symmetry. apply not_true_iff_false. intros B. apply existsb_exists in B as (q & Hq & B).
        apply points_In in Hq as (i & u & Hi & Hu & ->).
        assert (Hu' : (u < length ops)%nat).
        { destruct (form_filter K (or_intror H) i ltac:(lia)) as [p Q]. rewrite Q in Hu. apply filter_In in Hu as [Hu _].
          apply fresh_In in Hu; [tauto|lia]. }
        apply img_neq in B; auto; [|lia]. apply img_close in B; auto; [|lia].
        apply close_sym in B; [|rewrite !affine_length, !asym_nth; auto; lia].
        apply (HD i j (nth u ops ([], [])) (nth v ops ([], []))); auto; apply nth_In; auto. }
    apply G. intros x; auto.
  Qed.

  Lemma fresh_0 : forall i, ops <> [] -> (i < length asym)%nat -> In 0%nat (fresh i).
  Proof. intros i Ho Hi. apply fresh_In; auto. split; [|intros; lia]. destruct ops; [contradiction|simpl; lia]. Qed.

  Lemma all_sites : forall K, ops <> [] -> (forall j, (j < length asym)%nat -> K j = fresh j) ->
    let origin := origins K (length asym) in
    let starts := asym_inds (snd (np_unique_counts origin)) in
    length starts = length asym /\
    forall i, (i < length asym)%nat -> nth (nth i starts 0%nat) origin 0%nat = i /\ nth (nth i starts 0%nat) (whichs K) 0%nat = 0%nat.
  Proof.
    intros K Ho H origin starts.
    assert (N0 : forall j, (j < length asym)%nat -> (0 < length (K j))%nat).
    { intros j Hj. rewrite H by auto. pose proof (fresh_0 j Ho Hj) as I. destruct (fresh j); [destruct I|simpl; lia]. }
    assert (V : filter (fun v => (0 <? length (K v))%nat) (seq 0 (length asym)) = seq 0 (length asym)).
    { assert (G : forall l, (forall v, In v l -> (v < length asym)%nat) -> filter (fun v => (0 <? length (K v))%nat) l = l).
      { induction l as [|v l IH]; intros Hl; auto. simpl. rewrite (proj2 (Nat.ltb_lt 0 (length (K v)))) by (apply N0, Hl; simpl; auto).
        f_equal. apply IH. intros; apply Hl; simpl; auto. }
      apply G. intros v Hv. apply in_seq in Hv. lia. }
    assert (U : snd (np_unique_counts origin) = map (fun v => length (K v)) (seq 0 (length asym))).
    { unfold origin, origins. rewrite unique_counts_blocks. cbn [snd]. rewrite V. auto. }
    assert (LS : length starts = length asym) by (unfold starts; rewrite asym_inds_length, U, map_length, seq_length; auto).
    split; auto. intros i Hi.
    assert (S0 : nth i starts 0%nat = start (fun v => length (K v)) (seq 0 (length asym)) i).
    { unfold starts. rewrite U, asym_inds_nth by (rewrite map_length, seq_length; auto). unfold start. rewrite firstn_map. auto. }
    assert (O : nth (nth i starts 0%nat) origin 0%nat = i).
    { rewrite S0, <- (Nat.add_0_r (start _ _ _)). unfold origin, origins. rewrite blocks_nth; rewrite ?seq_length, ?seq_nth; auto. }
    split; auto.
    pose proof (form_filter K (or_introl H)) as HF.
    pose proof (kept_expansion K HF) as EX. pose proof (kept_runs K) as RU. fold origin in RU. fold starts in RU.
    destruct (ru_start _ _ _ RU i ltac:(lia)) as (B & _ & RR).
    destruct (kept_index K i 0%nat) as (k & Hk & Ok & Wk & _); auto.
    { rewrite H by auto. apply fresh_0; auto. }
    assert (LO : length origin = length (points K (length asym))) by apply (ex_origin _ _ _ _ _ _ _ EX).
    fold origin in Ok. assert (Hk' : (nth i starts 0 <= k)%nat).
    { assert (X := proj1 (RR k ltac:(lia))). rewrite O in X. specialize (X Ok). lia. }
    destruct (Nat.eq_dec k (nth i starts 0%nat)) as [Q|D]; [congruence|].
    destruct (ex_order _ _ _ _ _ _ _ EX (nth i starts 0%nat) k ltac:(lia)) as [X|[_ X]]; fold origin in X; lia.
  Qed.
End Expand.
