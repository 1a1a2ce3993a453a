(** Lemmas about the loops of CompareModel.v: filling arrays, parallel tasks, squareform. *)
From Coq Require Import List ZArith Arith Bool Lia Permutation String.
From Verif Require Import Num Base Outcome Condensed NNModel CalcModel CompareModel SpecCompare.
Import ListNotations.
Open Scope list_scope.
Notation length := List.length.

Lemma ofold_app : forall A S (f : S -> A -> outcome S) l1 l2 s,
  ofold f (l1 ++ l2) s = obind (ofold f l1 s) (ofold f l2).
Proof.
  induction l1 as [|a l1 IH]; intros; simpl; auto.
  destruct (f s a); simpl; auto.
Qed.

Lemma ofold_ext : forall A S (f g : S -> A -> outcome S) l s,
  (forall s a, In a l -> f s a = g s a) -> ofold f l s = ofold g l s.
Proof.
  induction l as [|a l IH]; intros s E; simpl; auto.
  rewrite E by (left; auto). destruct (g s a); simpl; auto. apply IH. intros; apply E; right; auto.
Qed.

Lemma upd_length : forall A (l : list A) i v, length (upd l i v) = length l.
Proof. induction l; intros [|i] v; simpl; auto. Qed.

Lemma upd_app : forall A (pre post : list A) x v, upd (pre ++ x :: post) (length pre) v = pre ++ v :: post.
Proof. induction pre; intros; simpl; auto. f_equal. auto. Qed.

Lemma nth_error_upd : forall A (l : list A) i j v,
  nth_error (upd l i v) j = if (i =? j)%nat then (if (j <? length l)%nat then Some v else None) else nth_error l j.
Proof.
  induction l as [|a l IH]; intros i j v; simpl.
  - destruct (Nat.eqb_spec i j), j; simpl; auto.
  - destruct i as [|i], j as [|j]; simpl; auto. rewrite IH.
    replace (S j <? S (length l))%nat with (j <? length l)%nat; auto.
Qed.

Lemma set_at_app : forall A (pre post : list A) x v,
  set_at (pre ++ x :: post) (length pre) v = Done (pre ++ v :: post).
Proof.
  intros. unfold set_at. rewrite app_length. simpl.
  replace (length pre <? length pre + S (length post))%nat with true
    by (symmetry; apply Nat.ltb_lt; lia).
  rewrite upd_app. auto.
Qed.

Lemma get_at_app : forall A (pre post : list A) x, get_at (pre ++ x :: post) (length pre) = Done x.
Proof.
  intros. unfold get_at. rewrite nth_error_app2 by lia. rewrite Nat.sub_diag. auto.
Qed.

Lemma get_at_nth : forall A (l : list A) i d, (i < length l)%nat -> get_at l i = Done (nth i l d).
Proof.
  intros. unfold get_at. rewrite (nth_error_nth' l d) by auto. auto.
Qed.

(** Filling an array entry by entry. *)
Lemma fill_from : forall A B (f : A -> outcome B) (g : A -> B) l pre junk,
  (forall a, In a l -> f a = Done (g a)) -> length junk = length l ->
  ofold (fun out ia => obind (f (snd ia)) (fun b => set_at out (fst ia) b))
    (combine (seq (length pre) (length l)) l) (pre ++ junk) = Done (pre ++ map g l).
Proof.
  induction l as [|a l IH]; intros pre junk E Hl; simpl.
  - destruct junk; [auto|discriminate].
  - destruct junk as [|x junk]; [discriminate|]. simpl in Hl. rewrite E by (left; auto).
    simpl. rewrite set_at_app. simpl.
    replace (pre ++ g a :: junk) with ((pre ++ [g a]) ++ junk) by (rewrite <- app_assoc; auto).
    replace (S (length pre)) with (length (pre ++ [g a])) by (rewrite app_length; simpl; lia).
    rewrite IH; [rewrite <- app_assoc; auto|intros; apply E; right; auto|lia].
Qed.

Lemma fill : forall A B (f : A -> outcome B) (g : A -> B) l junk,
  (forall a, In a l -> f a = Done (g a)) -> length junk = length l ->
  ofold (fun out ia => obind (f (snd ia)) (fun b => set_at out (fst ia) b)) (enumerate l) junk =
  Done (map g l).
Proof. intros. apply (fill_from _ _ f g l [] junk); auto. Qed.

(** Filling a matrix entry by entry. *)
Lemma fill_row2 : forall B (f : nat * nat -> outcome B) (g : nat -> nat -> B) i m pre post row0 row,
  (forall j, (j < length row0 + m)%nat -> f (i, j) = Done (g i j)) -> length pre = i -> length row = m ->
  ofold (fun dm ij => obind (f ij) (fun d => set_at2 dm (fst ij) (snd ij) d))
    (map (fun j => (i, j)) (seq (length row0) m)) (pre ++ (row0 ++ row) :: post) =
  Done (pre ++ (row0 ++ map (g i) (seq (length row0) m)) :: post).
Proof.
  induction m as [|m IH]; intros pre post row0 row E Hp Hr; simpl.
  - destruct row; [auto|discriminate].
  - destruct row as [|x row]; [discriminate|]. simpl in Hr.
    rewrite E by lia. simpl. unfold set_at2. subst i. rewrite get_at_app. simpl.
    rewrite set_at_app. simpl. rewrite set_at_app. simpl.
    replace (row0 ++ g (length pre) (length row0) :: row)
      with ((row0 ++ [g (length pre) (length row0)]) ++ row) by (rewrite <- app_assoc; auto).
    replace (S (length row0)) with (length (row0 ++ [g (length pre) (length row0)]))
      by (rewrite app_length; simpl; lia).
    rewrite IH; auto; [|rewrite app_length; simpl; intros; apply E; lia].
    rewrite <- app_assoc. auto.
Qed.

Lemma fill2 : forall B (f : nat * nat -> outcome B) (g : nat -> nat -> B) n m pre junk,
  (forall i j, (i < length pre + n)%nat -> (j < m)%nat -> f (i, j) = Done (g i j)) -> has_shape n m junk ->
  ofold (fun dm ij => obind (f ij) (fun d => set_at2 dm (fst ij) (snd ij) d))
    (flat_map (fun i => map (fun j => (i, j)) (seq 0 m)) (seq (length pre) n)) (pre ++ junk) =
  Done (pre ++ map (fun i => map (g i) (seq 0 m)) (seq (length pre) n)).
Proof.
  induction n as [|n IH]; intros m pre junk E [Hl Hs]; simpl.
  - destruct junk; [auto|discriminate].
  - destruct junk as [|row junk]; [discriminate|]. simpl in Hl. inversion Hs; subst.
    rewrite ofold_app.
    pose proof (fill_row2 _ f g (length pre) (length row) pre junk [] row) as X. simpl in X.
    rewrite X; auto; [|intros; apply E; lia]. clear X. simpl.
    set (r := map (g (length pre)) (seq 0 (length row))).
    replace (pre ++ r :: junk) with ((pre ++ [r]) ++ junk) by (rewrite <- app_assoc; auto).
    replace (S (length pre)) with (length (pre ++ [r])) by (rewrite app_length; simpl; lia).
    rewrite IH; [rewrite <- app_assoc; auto| |split; auto; lia].
    rewrite app_length. simpl. intros; apply E; lia.
Qed.

Lemma in_table : forall n m i j,
  In (i, j) (flat_map (fun i => map (fun j => (i, j)) (seq 0 m)) (seq 0 n)) <-> (i < n)%nat /\ (j < m)%nat.
Proof.
  intros. rewrite in_flat_map. split.
  - intros (x & Hx & H). apply in_map_iff in H as (y & E & Hy). injection E as -> ->.
    apply in_seq in Hx, Hy. lia.
  - intros [Hi Hj]. exists i. split; [apply in_seq; lia|]. apply in_map_iff. exists j. split; auto.
    apply in_seq; lia.
Qed.

Lemma flat_table_length : forall m l,
  length (flat_map (fun i : nat => map (fun j => (i, j)) (seq 0 m)) l) = (length l * m)%nat.
Proof.
  induction l; simpl; auto. rewrite app_length, map_length, seq_length. lia.
Qed.

Lemma reshape_table : forall B (g : nat -> nat -> B) m l rest,
  reshape_rows (length l) m (map (fun ij => g (fst ij) (snd ij))
     (flat_map (fun i => map (fun j => (i, j)) (seq 0 m)) l) ++ rest) =
  map (fun i => map (g i) (seq 0 m)) l.
Proof.
  induction l as [|i l IH]; intros rest; simpl; auto.
  rewrite map_app, map_map. simpl. rewrite <- app_assoc.
  set (r := map (fun x => g i x) (seq 0 m)).
  assert (Hr : length r = m) by (unfold r; rewrite map_length, seq_length; auto).
  rewrite firstn_app, Hr, Nat.sub_diag, firstn_O, app_nil_r, firstn_all2 by lia.
  rewrite skipn_app, Hr, Nat.sub_diag, skipn_O, skipn_all2, app_nil_l by lia.
  rewrite IH. auto.
Qed.

Lemma run_tasks_ok : forall A B (f : A -> outcome B) (g : A -> B) tasks sched slots,
  (forall a, In a tasks -> f a = Done (g a)) ->
  Forall (fun i => (i < length tasks)%nat) sched -> length slots = length tasks ->
  exists slots', run_tasks f tasks sched slots = Done slots' /\ length slots' = length tasks /\
    forall i, (i < length tasks)%nat ->
      nth_error slots' i = if existsb (Nat.eqb i) sched then option_map (fun a => Some (g a)) (nth_error tasks i)
                           else nth_error slots i.
Proof.
  induction sched as [|s sched IH]; intros slots E Hs Hl; simpl.
  - exists slots. auto.
  - inversion Hs; subst. unfold get_at.
    destruct (nth_error tasks s) as [a|] eqn:Ea; [|apply nth_error_None in Ea; lia].
    simpl. rewrite E by (eapply nth_error_In; eauto). simpl.
    destruct (IH (upd slots s (Some (g a))) E H2) as (slots' & R & L & N); [rewrite upd_length; auto|].
    exists slots'. split; [auto|split; [auto|]]. intros i Hi. rewrite N by auto.
    destruct (existsb (Nat.eqb i) sched) eqn:Ex; [rewrite orb_true_r; auto|rewrite orb_false_r].
    rewrite nth_error_upd. rewrite (Nat.eqb_sym i s).
    destruct (Nat.eqb_spec s i); auto. subst. rewrite Ea, Hl.
    replace (i <? length tasks)%nat with true by (symmetry; apply Nat.ltb_lt; lia). auto.
Qed.

Lemma nth_error_ext' : forall A (l l' : list A), (forall i, nth_error l i = nth_error l' i) -> l = l'.
Proof.
  induction l as [|a l IH]; intros [|b l'] E; auto.
  - discriminate (E 0%nat).
  - discriminate (E 0%nat).
  - pose proof (E 0%nat) as E0. simpl in E0. injection E0 as ->. f_equal. apply IH.
    intros i. apply (E (S i)).
Qed.

(** Whatever the order in which the tasks are run, the results come back in task order. *)
Lemma parallel_ok : forall A B (f : A -> outcome B) (g : A -> B) tasks sched,
  (forall a, In a tasks -> f a = Done (g a)) -> Permutation sched (seq 0 (length tasks)) ->
  parallel sched f tasks = Done (map g tasks).
Proof.
  intros A B f g tasks sched E Hp. unfold parallel.
  destruct (run_tasks_ok A B f g tasks sched (repeat None (length tasks)) E) as (sl & R & L & N).
  - apply Forall_forall. intros i Hi. apply (Permutation_in _ Hp) in Hi. apply in_seq in Hi. lia.
  - apply repeat_length.
  - rewrite R. simpl.
    assert (Es : sl = map Some (map g tasks)).
    { apply nth_error_ext'. intros i. destruct (le_lt_dec (length tasks) i) as [Hge|Hlt].
      - rewrite (proj2 (nth_error_None sl i)) by lia.
        symmetry. apply nth_error_None. rewrite !map_length. lia.
      - rewrite N by auto.
        replace (existsb (Nat.eqb i) sched) with true.
        + rewrite map_map. rewrite nth_error_map. auto.
        + symmetry. apply existsb_exists. exists i. split; [|apply Nat.eqb_refl].
          apply (Permutation_in _ (Permutation_sym Hp)). apply in_seq. lia. }
    rewrite Es. clear. induction (map g tasks) as [|b l IH]; simpl; auto. rewrite IH. auto.
Qed.

(** * squareform *)
Lemma pairs_count : forall m, (2 * length (pairs m) = m * (m - 1))%nat.
Proof.
  intros m. rewrite pairs_length.
  assert (G : forall i, (i <= m)%nat -> (2 * rowstart m i + i * (i + 1) = 2 * m * i)%nat).
  { induction i as [|i IH]; intros Hi; simpl rowstart; [lia|].
    specialize (IH ltac:(lia)). nia. }
  specialize (G m ltac:(lia)). nia.
Qed.

Lemma square_dim_pairs : forall m, (1 <= m)%nat -> square_dim (length (pairs m)) = Some m.
Proof.
  intros m Hm. pose proof (pairs_count m) as C. unfold square_dim. rewrite C.
  destruct (find _ _) as [d|] eqn:F.
  - apply find_some in F as [Hd E]. apply in_seq in Hd. apply Nat.eqb_eq in E. f_equal. nia.
  - exfalso. assert (Hin : In m (seq 1 (S (length (pairs m))))) by (apply in_seq; nia).
    pose proof (find_none _ _ F m Hin) as E. simpl in E. rewrite Nat.eqb_refl in E. discriminate.
Qed.

Lemma squareform_matrix_condensed : forall T {N : Num T} (f : nat -> nat -> T) m, (1 <= m)%nat ->
  squareform_matrix (condensed f m) =
  Done (map (fun i => map (fun j => if (i =? j)%nat then n0 else if (i <? j)%nat then f i j else f j i)
                          (seq 0 m)) (seq 0 m)).
Proof.
  intros T N f m Hm. unfold squareform_matrix. rewrite condensed_length, square_dim_pairs by auto.
  f_equal. apply map_ext_in. intros i Hi. apply in_seq in Hi. apply map_ext_in. intros j Hj.
  apply in_seq in Hj. apply squareform_condensed; lia.
Qed.

(** * The blocks written by AMD_pdist *)
Lemma map_flat_map' : forall A B C (g : B -> C) (f : A -> list B) l,
  map g (flat_map f l) = flat_map (fun a => map g (f a)) l.
Proof. induction l; simpl; auto. rewrite map_app. f_equal. auto. Qed.

Lemma condensed_blocks : forall A (f : nat -> nat -> A) m,
  condensed f m = flat_map (fun i => map (f i) (seq (S i) (m - S i))) (seq 0 m).
Proof.
  intros. unfold condensed, pairs. rewrite map_flat_map'. apply flat_map_ext. intros i.
  unfold pairs_from. rewrite map_map. auto.
Qed.

Lemma set_slice_app : forall A (pre junk post v : list A) b, length junk = length v ->
  b = (length pre + length v)%nat ->
  set_slice (pre ++ junk ++ post) (length pre) b v = Done (pre ++ v ++ post).
Proof.
  intros A pre junk post v b Hl ->. unfold set_slice. rewrite !app_length.
  replace (length v =? _)%nat with true by (symmetry; apply Nat.eqb_eq; lia).
  f_equal. rewrite firstn_app, Nat.sub_diag, firstn_O, app_nil_r, firstn_all. f_equal. f_equal.
  rewrite skipn_app, skipn_all2, app_nil_l by lia.
  replace (length pre + length v - length pre)%nat with (length junk) by lia.
  rewrite skipn_app, skipn_all2, Nat.sub_diag by lia. auto.
Qed.

Lemma skipn_as_map : forall A (d : A) l i, skipn i l = map (fun j => nth j l d) (seq i (length l - i)).
Proof.
  induction l as [|a l IH]; intros i; [destruct i; auto|].
  destruct i as [|i]; simpl.
  - f_equal. rewrite <- seq_shift, map_map. specialize (IH 0%nat). rewrite Nat.sub_0_r in IH.
    etransitivity; [|rewrite <- IH; reflexivity]. reflexivity.
  - rewrite IH. rewrite <- seq_shift, map_map. auto.
Qed.

Section Blocks.
  Context {A : Type} (f : nat -> nat -> A) (m : nat) (step : nat -> outcome (list A)).
  Let block i := map (f i) (seq (S i) (m - S i)).
  Hypothesis Hstep : forall i, (i < m)%nat -> step i = Done (block i).

  Lemma blocks_from : forall n i pre junk, (i + n = m)%nat ->
    length junk = length (flat_map block (seq i n)) ->
    ofold (fun (st : list A * nat) i =>
             let '(cdm, ind) := st in
             let ind_ := (ind + m - i - 1)%nat in
             obind (step i) (fun row => obind (set_slice cdm ind ind_ row) (fun c => Done (c, ind_))))
      (seq i n) (pre ++ junk, length pre) =
    Done (pre ++ flat_map block (seq i n), length (pre ++ flat_map block (seq i n))).
  Proof.
    induction n as [|n IH]; intros i pre junk Hi Hj; simpl.
    - destruct junk; [rewrite app_nil_r; auto|discriminate].
    - simpl in Hj. rewrite app_length in Hj. rewrite Hstep by lia. simpl.
      assert (Hb : length (block i) = (m - S i)%nat) by (unfold block; rewrite map_length, seq_length; auto).
      rewrite <- (firstn_skipn (length (block i)) junk).
      rewrite set_slice_app; [|rewrite firstn_length; lia|lia]. simpl.
      rewrite app_assoc.
      replace (length pre + m - i - 1)%nat with (length (pre ++ block i)) by (rewrite app_length; lia).
      rewrite IH; [|lia|rewrite skipn_length; lia].
      rewrite !app_assoc. auto.
  Qed.
End Blocks.
