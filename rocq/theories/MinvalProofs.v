(** The loop of nearest_neighbors_minval in terms of the lattice vectors kept so far. *)
From Coq Require Import List ZArith Arith Bool Lia Reals Lra Permutation Sorted.
From Verif Require Import Num Base Spec SpecGeom SpecData SpecMinval Outcome LatticeModel CacheModel CacheProofs NNModel VecR NNProofs
  NNSpecProofs NNComplete CalcModel UtilsModel MinvalModel.
Import ListNotations.
Open Scope R_scope.

(** ** Columns *)
Lemma first_column_done : forall v rows k, first_column v rows = Done k <->
  ((k < length (hd [] rows))%nat /\ (forall r, In r rows -> v <= nth k r 0) /\ forall j, (j < k)%nat -> exists r, In r rows /\ nth j r 0 < v).
Proof.
  intros v rows k. unfold first_column. set (f := fun j => forallb (fun r => Rleb v (nth j r 0)) rows).
  assert (F1 : forall j, f j = true <-> forall r, In r rows -> v <= nth j r 0).
  { intros j. unfold f. rewrite forallb_forall. split; intros H r Hr; apply Rleb_true || apply (proj1 (Rleb_true _ _)); auto. }
  assert (F2 : forall j, f j = false -> exists r, In r rows /\ nth j r 0 < v).
  { intros j. unfold f. clear. induction rows as [|r rows IH]; cbn; [discriminate|]. intros H. apply andb_false_iff in H as [H|H].
    - apply Rleb_false in H. eauto.
    - destruct (IH H) as (r' & ? & ?). eauto. }
  assert (G : forall n s, match find f (seq s n) with Some j => (s <= j < s + n)%nat /\ f j = true /\ forall i, (s <= i < j)%nat -> f i = false | None => forall i, (s <= i < s + n)%nat -> f i = false end).
  { induction n as [|n IH]; intros s; cbn; [intros; lia|]. destruct (f s) eqn:E; [split; [lia|]; split; auto; intros; lia|]. specialize (IH (S s)). destruct (find f (seq (S s) n)).
    - destruct IH as (H1 & H2 & H3). split; [lia|]. split; auto. intros i Hi. destruct (Nat.eq_dec i s) as [->|]; auto. apply H3. lia.
    - intros i Hi. destruct (Nat.eq_dec i s) as [->|]; auto. apply IH. lia. }
  specialize (G (length (hd [] rows)) 0%nat). destruct (find f _) as [j|].
  - destruct G as (H1 & H2 & H3). split.
    + intros E. injection E as <-. split; [lia|]. split; [apply F1; auto|]. intros i Hi. apply F2, H3. lia.
    + intros (K1 & K2 & K3). f_equal. destruct (lt_eq_lt_dec j k) as [[?|?]|?]; auto; exfalso.
      * destruct (K3 j) as (r & Hr & Hlt); auto. specialize (proj1 (F1 j) H2 r Hr). lra.
      * apply F1 in K2. rewrite (H3 k) in K2 by lia. discriminate.
  - split; [discriminate|]. intros (K1 & K2 & K3). apply F1 in K2. rewrite G in K2 by lia. discriminate.
Qed.
Lemma first_column_cases : forall v rows, (exists k, first_column v rows = Done k) \/ (first_column v rows = Raise IndexError /\
  forall j, (j < length (hd [] rows))%nat -> exists r, In r rows /\ nth j r 0 < v).
Proof.
  intros v rows. unfold first_column. destruct (find _ _) as [j|] eqn:E; [eauto|]. right. split; auto. intros j Hj.
  pose proof (find_none _ _ E j ltac:(apply in_seq; lia)) as H. cbn in H. clear - H. induction rows as [|r rows IH]; cbn in H; [discriminate|].
  apply andb_false_iff in H as [H|H]; [apply Rleb_false in H; exists r; cbn; auto|]. destruct (IH H) as (r' & ? & ?). exists r'. cbn; auto.
Qed.

Lemma rows_equal_iff : forall A (e : A -> A -> bool), (forall x y, e x y = true <-> x = y) -> forall a b, rows_equal e a b = true <-> a = b.
Proof.
  intros A e He. induction a as [|x a IH]; intros [|y b]; cbn; try (split; discriminate || congruence).
  rewrite andb_true_iff, He, IH. split; [intros [-> ->]; auto|]. intros E. injection E as -> ->. auto.
Qed.
Lemma array_equal_iff : forall a b, array_equal a b = true <-> a = b.
Proof.
  apply rows_equal_iff, rows_equal_iff. intros x y. rewrite andb_true_iff, !Rleb_true. split; [intros []; lra|intros ->; split; lra].
Qed.

Lemma firstn_nth : forall A (l l' : list A) k j d, firstn k l = firstn k l' -> (j < k)%nat -> nth j l d = nth j l' d.
Proof.
  intros A. induction l as [|a l IH]; intros l' k j d E Hj; destruct k as [|k]; try lia; destruct l' as [|a' l']; cbn in E; try discriminate; auto.
  injection E as -> E. destruct j; cbn; auto. apply (IH l' k); auto. lia.
Qed.
Lemma in_map_pair : forall A B (f : A -> B) l l', map f l = map f l' -> forall a, In a l -> exists a', In a' l' /\ f a = f a'.
Proof.
  intros A B f l l' E a Ha. assert (H : In (f a) (map f l')) by (rewrite <- E; apply in_map; auto). apply in_map_iff in H as (a' & ? & ?). eauto.
Qed.

Lemma last_nth : forall A (l : list A) d, last l d = nth (length l - 1) l d.
Proof.
  intros A. induction l as [|a l IH]; intros d; auto. destruct l as [|b l]; auto. change (last (a :: b :: l) d) with (last (b :: l) d). rewrite IH. cbn [length].
  replace (S (S (length l)) - 1)%nat with (S (S (length l) - 1)) by lia. reflexivity.
Qed.

Section Loop.
  Variables (motif cell : list (list R)) (dims : nat) (v : R) (kdtree : list (list R) -> list (list R) -> list (list nat)).
  Hypothesis Hps : pset_ok dims motif cell.
  Hypothesis Hkd : kd_contract kdtree.
  Let P := pt dims motif cell.
  Let m := length motif.
  Definition cloud_of (L : list (list Z)) : list (list R) := map (pt dims motif cell) (idxs (length motif) L).
  Definition row_of (L : list (list Z)) (p : list R) : list R := sortR (map (fun a => dist p (pt dims motif cell a)) (idxs (length motif) L)).
  Definition all_rows (L : list (list Z)) : list (list R) := map (row_of L) motif.
  Definition far (L : list (list Z)) (p : list R) : R := last (row_of L p) 0.

  Lemma cloud_app : forall L M, cloud_of (L ++ M) = cloud_of L ++ cloud_of M.
  Proof. intros. unfold cloud_of. rewrite idxs_app, map_app. auto. Qed.
  Lemma row_perm : forall L p, Permutation (map (dist p) (cloud_of L)) (row_of L p).
  Proof. intros. unfold row_of, cloud_of. rewrite map_map. apply sortR_perm. Qed.
  Lemma row_sorted : forall L p, StronglySorted Rle (row_of L p).
  Proof. intros. apply sortR_sorted. Qed.
  Lemma row_length : forall L p, length (row_of L p) = (length L * m)%nat.
  Proof. intros. unfold row_of. rewrite sortR_length, map_length. apply idxs_length. Qed.
  Lemma row_In : forall L p d, In d (row_of L p) <-> exists a, In a (idxs m L) /\ d = dist p (P a).
  Proof.
    intros L p d. unfold row_of. split.
    - intros H. apply (Permutation_in _ (Permutation_sym (sortR_perm _))) in H. apply in_map_iff in H as (a & <- & Ha). eauto.
    - intros (a & Ha & ->). apply (Permutation_in _ (sortR_perm _)). apply (in_map (fun a => dist p (P a))); auto.
  Qed.
  Lemma m1 : (1 <= m)%nat.
  Proof. destruct Hps as [_ H _ _ _]. unfold m. destruct motif; cbn; [congruence|lia]. Qed.
  Lemma row_ne : forall L p, L <> [] -> row_of L p <> [].
  Proof. intros L p H E. assert (X : length (row_of L p) = 0%nat) by (rewrite E; auto). rewrite row_length in X. pose proof m1. destruct L; [congruence|cbn in X; lia]. Qed.

  Lemma far_In : forall L p, L <> [] -> exists a, In a (idxs m L) /\ far L p = dist p (P a).
  Proof. intros L p H. apply row_In. apply last_In, row_ne; auto. Qed.
  Lemma far_max : forall L p a, In a (idxs m L) -> dist p (P a) <= far L p.
  Proof. intros L p a H. apply sorted_le_last; [apply row_sorted|]. apply row_In. eauto. Qed.
  Lemma far_mono : forall L M p, L <> [] -> incl L M -> far L p <= far M p.
  Proof.
    intros L M p H HI. destruct (far_In L p H) as ([l i] & Ha & ->). apply far_max. apply idxs_In in Ha as []. apply idxs_In. auto.
  Qed.

  Lemma query_eq : forall L, kd_query kdtree motif (cloud_of L) = (all_rows L, kdtree (cloud_of L) motif).
  Proof.
    intros L. unfold kd_query. f_equal. destruct (Hkd (cloud_of L) motif) as [HL HI]. set (inds := kdtree (cloud_of L) motif) in *.
    apply (nth_ext _ _ [] []).
    - rewrite map2_length. unfold all_rows. rewrite map_length, HL. apply Nat.min_id.
    - intros i Hi. rewrite map2_length, HL, Nat.min_id in Hi. rewrite (map2_nth _ _ _ _ _ _ i [] [] []) by lia.
      unfold all_rows. rewrite (nth_indep (map (row_of L) motif) [] (row_of L [])) by (rewrite map_length; auto). rewrite (map_nth (row_of L)).
      destruct (HI i Hi) as [HP HS]. symmetry. set (p := nth i motif []) in *. set (js := nth i inds []) in *.
      replace (map (fun j => sqrt (sqd p (nth j (cloud_of L) []))) js) with (map (fun j => edist p (nth j (cloud_of L) [])) js).
      + apply sortR_unique; auto. unfold cloud_of in *. change (map (fun a => dist p (P a)) (idxs m L)) with (map (fun a => dist p (pt dims motif cell a)) (idxs (length motif) L)).
        rewrite <- (map_map (pt dims motif cell) (dist p)). set (C := map (pt dims motif cell) (idxs (length motif) L)) in *.
        rewrite <- (map_nth_seq0 _ C []) at 1. rewrite map_map. rewrite (map_ext _ (fun j => edist p (nth j C []))) by (intros; apply dist_edist). apply Permutation_map. auto.
      + apply map_ext. intros j. unfold edist. rewrite <- sqd_sq_dist. auto.
  Qed.

  Lemma last_rows : forall L, L <> [] -> last_col (all_rows L) = Done (map (far L) motif).
  Proof.
    intros L HL. rewrite last_col_ok.
    - unfold all_rows. rewrite map_map. auto.
    - apply Forall_forall. intros r Hr. apply in_map_iff in Hr as (p & <- & _). apply row_ne; auto.
  Qed.

  (** [d] is the greatest distance from a motif point to a point of the cloud. *)
  Definition farthest (L : list (list Z)) (d : R) : Prop :=
    (exists p, In p motif /\ far L p = d) /\ forall p, In p motif -> far L p <= d.
  Lemma farthest_exists : forall L, exists d, farthest L d /\ maxl (map (far L) motif) = Done d.
  Proof.
    intros L. destruct (maxl_spec (map (far L) motif)) as (d & E & HI & HM).
    - destruct Hps as [_ H _ _ _]. destruct motif; cbn; congruence.
    - exists d. split; auto. split.
      + apply in_map_iff in HI as (p & E' & Hp). eauto.
      + intros p Hp. apply HM. apply in_map. auto.
  Qed.
  Lemma farthest_unique : forall L d d', farthest L d -> farthest L d' -> d = d'.
  Proof. intros L d d' [(p & Hp & E) H] [(p' & Hp' & E') H']. specialize (H p' Hp'). specialize (H' p Hp). lra. Qed.

  Definition close (c d : R) (layer : list (list Z)) : list (list Z) :=
    filter (fun l => Rleb (norm (latvec dims cell l) - c) d) layer.

  (** The test of the loop: all rows reach [v], and nothing has changed up to the first column where they do. *)
  Definition unchanged (prev : list (list R)) (L : list (list Z)) : Prop :=
    (forall p, In p motif -> v <= far L p) /\
    exists k, first_column v (all_rows L) = Done k /\ map (firstn (S k)) prev = map (firstn (S k)) (all_rows L).

  Lemma reach_column : forall L, L <> [] -> (forall p, In p motif -> v <= far L p) -> exists k, first_column v (all_rows L) = Done k.
  Proof.
    intros L HL H. destruct (first_column_cases v (all_rows L)) as [|[_ HN]]; auto. exfalso.
    assert (HH : forall r, In r (all_rows L) -> length r = (length L * m)%nat) by (intros r Hr; apply in_map_iff in Hr as (p & <- & _); apply row_length).
    pose proof m1. assert (HL1 : (1 <= length L * m)%nat) by (destruct L; [congruence|cbn; lia]).
    assert (Hhd : length (hd [] (all_rows L)) = (length L * m)%nat).
    { destruct Hps as [_ Hne _ _ _]. unfold all_rows in *. destruct motif; [congruence|]. apply HH. cbn; auto. }
    destruct (HN (length L * m - 1)%nat) as (r & Hr & Hlt); [lia|]. specialize (HH r Hr). apply in_map_iff in Hr as (p & <- & Hp). specialize (H p Hp). unfold far in H.
    rewrite last_nth in H. rewrite row_length in H. lra.
  Qed.

  Definition final (prev : list (list R)) (L : list (list Z)) := minval_result v prev (all_rows L) (cloud_of L) (kdtree (cloud_of L) motif).

  Lemma loop_step : forall fuel n c L prev d, L <> [] -> farthest L d ->
    let loop f n L prev := minval_loop kdtree motif cell v f n c (cloud_of L) (all_rows L) (kdtree (cloud_of L) motif) prev in
    (unchanged prev L /\ loop (S fuel) n L prev = final prev L) \/
    (~ unchanged prev L /\ close c d (layer dims n) = [] /\ loop (S fuel) n L prev = final (all_rows L) L) \/
    (~ unchanged prev L /\ close c d (layer dims n) <> [] /\ loop (S fuel) n L prev = loop fuel (S n) (L ++ close c d (layer dims n)) (all_rows L)).
  Proof.
    intros fuel n c L prev d HL HD loop. unfold loop at 1 2 3. cbn [minval_loop]. rewrite last_rows by auto. cbn [obind].
    destruct (layer_spec dims n ltac:(destruct Hps; auto)) as (EG & _).
    assert (REST : (let dists := all_rows L in obind (gen_item (length cell) n) (fun layer =>
        let lattice := map (latvec (length cell) cell) layer in
        obind (maxl (map (far L) motif)) (fun farthest =>
          let close := filter (fun l => Rleb (sqrt (sqnorm l) - c) farthest) lattice in
          match close with
          | [] => minval_result v dists (all_rows L) (cloud_of L) (kdtree (cloud_of L) motif)
          | _ =>
              let cloud := cloud_of L ++ lattice_to_cloud motif close in
              let '(dists_, inds) := kd_query kdtree motif cloud in
              minval_loop kdtree motif cell v fuel (S n) c cloud dists_ inds dists
          end))) = match close c d (layer dims n) with [] => final (all_rows L) L | _ => loop fuel (S n) (L ++ close c d (layer dims n)) (all_rows L) end).
    { cbv zeta. assert (EC : length cell = dims) by (destruct Hps; auto). rewrite EC, EG. cbn [obind].
      destruct (farthest_exists L) as (d' & HD' & ->). cbn [obind]. rewrite (farthest_unique L d' d HD' HD).
      rewrite filter_map_comm. replace (filter _ (layer dims n)) with (close c d (layer dims n)).
      2: { unfold close. apply filter_ext. intros l. rewrite sqnorm_dot. reflexivity. }
      remember (close c d (layer dims n)) as cl eqn:Ecl. destruct cl as [|l0 cl]; [reflexivity|]. cbn [map].
      change (latvec dims cell l0 :: map (latvec dims cell) cl) with (map (latvec dims cell) (l0 :: cl)).
      rewrite cloud_eq. fold (cloud_of (l0 :: cl)). rewrite <- cloud_app, query_eq. reflexivity. }
    assert (ALL : forallb (Rleb v) (map (far L) motif) = true <-> forall p, In p motif -> v <= far L p).
    { rewrite forallb_forall. split.
      - intros H p Hp. apply (proj1 (Rleb_true _ _)), H, in_map. auto.
      - intros H x Hx. apply in_map_iff in Hx as (p & <- & Hp). apply Rleb_true. auto. }
    destruct (forallb (Rleb v) (map (far L) motif)) eqn:EA.
    - assert (HA := proj1 ALL eq_refl). destruct (reach_column L HL HA) as (k & EK). rewrite EK. cbn [obind]. cbv zeta.
      destruct (array_equal (map (firstn (S k)) prev) (map (firstn (S k)) (all_rows L))) eqn:EE; cbn [obind].
      + left. apply array_equal_iff in EE. split; [split; eauto|reflexivity].
      + right. assert (NU : ~ unchanged prev L).
        { intros (_ & k' & EK' & E). rewrite EK in EK'. injection EK' as <-. apply array_equal_iff in E. congruence. }
        destruct (close c d (layer dims n)) eqn:EC; [left|right]; split; auto; split; auto; try discriminate; exact REST.
    - right. assert (NU : ~ unchanged prev L) by (intros (H & _); apply ALL in H; discriminate). cbn [obind].
      destruct (close c d (layer dims n)) eqn:EC; [left|right]; split; auto; split; auto; try discriminate; exact REST.
  Qed.
End Loop.
