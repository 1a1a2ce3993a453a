(** Facts about the averages and distributions of CalcModel.v over the reals. *)
From Coq Require Import List ZArith Arith Bool Lia Reals Lra Permutation Sorted.
From Verif Require Import Num Base Spec SpecGeom SpecCalc Outcome Condensed CollapseModel CollapseProofs Props_Collapse
  NNModel VecR NNProofs NNSpecProofs NNComplete NNInvariance Props_NN CalcModel.
Import ListNotations.
Open Scope R_scope.

(** * Sums *)
Lemma fold_left_Rplus : forall l a, fold_left Rplus l a = a + rsum l.
Proof. induction l as [|b l IH]; intros a; simpl; [lra|]. rewrite IH. lra. Qed.

Lemma nsum_rsum : forall l : list R, nsum l = rsum l.
Proof. intros. cbn [nsum NumR]. rewrite fold_left_Rplus. lra. Qed.

Lemma nofnat_INR : forall n, @nofnat R NumR n = INR n.
Proof. intros. unfold nofnat. simpl. rewrite INR_IZR_INZ. auto. Qed.

Lemma nabs_Rabs : forall a : R, nabs a = Rabs a.
Proof.
  intros a. unfold nabs. simpl. destruct (Rleb 0 a) eqn:E.
  - apply Rleb_true in E. rewrite Rabs_right; lra.
  - apply Rleb_false in E. rewrite Rabs_left; lra.
Qed.

Lemma nmax_Rmax : forall a b : R, nmax a b = Rmax a b.
Proof.
  intros a b. unfold nmax. simpl. destruct (Rleb a b) eqn:E.
  - apply Rleb_true in E. rewrite Rmax_right; auto.
  - apply Rleb_false in E. rewrite Rmax_left; lra.
Qed.

Lemma rsum_app : forall l1 l2, rsum (l1 ++ l2) = rsum l1 + rsum l2.
Proof. induction l1 as [|a l1 IH]; intros; simpl; [lra|]. rewrite IH. lra. Qed.

Lemma rsum_perm : forall l1 l2, Permutation l1 l2 -> rsum l1 = rsum l2.
Proof. induction 1; simpl; lra. Qed.

Lemma rsum_repeat : forall n c, rsum (repeat c n) = INR n * c.
Proof. induction n as [|n IH]; intros c; [simpl; lra|]. rewrite S_INR. simpl. rewrite IH. lra. Qed.

Lemma rsum_nonneg : forall l, Forall (fun a => 0 <= a) l -> 0 <= rsum l.
Proof. induction 1; simpl; lra. Qed.

Lemma rsum_pos : forall l, l <> [] -> Forall (fun a => 0 < a) l -> 0 < rsum l.
Proof.
  intros l Hne H. destruct H as [|a l Ha H]; [congruence|]. simpl.
  assert (0 <= rsum l); [|lra]. apply rsum_nonneg. eapply Forall_impl; [|exact H]. simpl; intros; lra.
Qed.

Lemma rsum_concat : forall ls, rsum (concat ls) = rsum (map rsum ls).
Proof. induction ls as [|l ls IH]; auto. simpl. rewrite rsum_app, IH. auto. Qed.

Lemma map_repeat : forall A B (f : A -> B) a n, map f (repeat a n) = repeat (f a) n.
Proof. induction n as [|n IH]; simpl; congruence. Qed.

Lemma rsum_map_scale_r : forall A (f : A -> R) c l,
  rsum (map (fun a => f a * c) l) = rsum (map f l) * c.
Proof. induction l as [|a l IH]; simpl; lra. Qed.

(** * Columns *)
Lemma map2_length_eq : forall A B C (f : A -> B -> C) l1 l2, length l1 = length l2 ->
  length (map2 f l1 l2) = length l1.
Proof. intros. rewrite map2_length. lia. Qed.

Lemma fold_cols : forall A (f : A -> list R) (g : A -> R) l acc kk, length acc = kk ->
  (forall a, In a l -> length (f a) = kk) ->
  let res := fold_left (fun acc a => map2 (fun x d => x + d * g a) acc (f a)) l acc in
  length res = kk /\
  forall j, (j < kk)%nat -> nth j res 0 = nth j acc 0 + rsum (map (fun a => g a * nth j (f a) 0) l).
Proof.
  intros A f g l. induction l as [|a l IH]; intros acc kk Hl Hf res.
  - split; auto. intros j Hj. unfold res. simpl. lra.
  - assert (Ha : length (f a) = kk) by (apply Hf; simpl; auto).
    destruct (IH (map2 (fun x d => x + d * g a) acc (f a)) kk) as [H1 H2].
    { rewrite map2_length_eq; lia. }
    { intros; apply Hf; simpl; auto. }
    split; auto. intros j Hj. unfold res. simpl. rewrite H2 by auto.
    rewrite (map2_nth _ _ _ _ _ _ _ 0 0) by lia. lra.
Qed.

Lemma nth_repeat0 : forall j n, nth j (repeat 0 n) 0 = 0.
Proof. induction j; destruct n; simpl; auto. Qed.

Lemma list_eq_nth : forall (l : list R) (f : nat -> R) k, length l = k ->
  (forall j, (j < k)%nat -> nth j l 0 = f j) -> l = map f (seq 0 k).
Proof.
  intros l f k Hl H. apply (nth_ext _ _ 0 0).
  - rewrite map_length, seq_length. auto.
  - intros j Hj. rewrite H by lia. rewrite (nth_map_seq f) by lia. auto.
Qed.

Lemma combine_map_r : forall A B C (f : B -> C) (l1 : list A) l2,
  combine l1 (map f l2) = map (fun p => (fst p, f (snd p))) (combine l1 l2).
Proof. induction l1; destruct l2; simpl; auto. f_equal; auto. Qed.

Lemma rsum_combine_swap : forall (f : R -> list R -> R) (ws : list R) (rows : list (list R)),
  rsum (map (fun p => f (fst p) (snd p)) (combine ws rows)) =
  rsum (map (fun p => f (snd p) (fst p)) (combine rows ws)).
Proof. induction ws as [|w ws IH]; intros [|r rows]; simpl; auto. rewrite IH. auto. Qed.

Lemma ndot_column : forall j (rows : list (list R)) ws,
  ndot (col_of j rows) ws = rsum (map (fun p => nth j (fst p) 0 * snd p) (combine rows ws)).
Proof.
  intros j rows ws. rewrite ndot_dot. revert ws. induction rows as [|r rows IH]; intros [|w ws]; try reflexivity.
  cbn [col_of map combine]. rewrite dot_cons. fold (col_of j rows). rewrite IH. reflexivity.
Qed.

Lemma average_columns_eq : forall k (rows : list (list R)) ws, length ws = length rows ->
  Forall (fun r => length r = S k) rows ->
  average_columns_except_first (S k) rows ws = Done (map (wmean ws (map (@tl R) rows)) (seq 0 k)).
Proof.
  intros k rows ws Hl HF. unfold average_columns_except_first.
  destruct (Nat.ltb_spec (length ws) (length rows)); [lia|]. f_equal.
  replace (S k - 1)%nat with k by lia. rewrite <- seq_shift, map_map. apply map_ext. intros j.
  rewrite ndot_column, nsum_rsum. unfold wmean. change (@ndiv R NumR) with Rdiv. f_equal.
  rewrite combine_map_r, map_map. cbn [fst snd]. rewrite (rsum_combine_swap (fun w r => w * nth j (tl r) 0)). f_equal.
  apply map_ext. intros [[|d r] w]; cbn [fst snd tl nth]; [destruct j; lra|lra].
Qed.

Lemma PDD_to_AMD_eq : forall k (pdd : list (R * list R)), Forall (fun p => length (snd p) = k) pdd ->
  PDD_to_AMD k pdd = map (wmean (map fst pdd) (map snd pdd)) (seq 0 k).
Proof.
  intros k pdd _. unfold PDD_to_AMD. apply map_ext. intros j. rewrite ndot_column, nsum_rsum. unfold wmean.
  change (@ndiv R NumR) with Rdiv. f_equal. f_equal. induction pdd as [|p pdd IH]; cbn; auto. f_equal; auto. lra.
Qed.

Lemma average_rows_spec : forall (rows : list (list R)) kk, rows <> [] ->
  Forall (fun r => length r = kk) rows ->
  average_rows rows = map (mean rows) (seq 0 kk).
Proof.
  intros rows kk Hne HF. destruct rows as [|r t]; [congruence|]. inversion HF as [|? ? Hr Ht]. subst.
  unfold average_rows. apply map_ext. intros j. rewrite nsum_rsum, nofnat_INR. reflexivity.
Qed.

(** * Lexicographic order *)
Lemma lexleb_total : forall u v : list R, lexleb u v = true \/ lexleb v u = true.
Proof.
  induction u as [|a u IH]; intros [|b v]; simpl; auto. simpl.
  destruct (Rltb a b) eqn:E1; auto. destruct (Rltb b a) eqn:E2; auto.
Qed.

Lemma lexleb_trans : forall u v w : list R, length u = length v -> length v = length w ->
  lexleb u v = true -> lexleb v w = true -> lexleb u w = true.
Proof.
  induction u as [|a u IH]; intros [|b v] [|c w] L1 L2; simpl in *; try lia; auto.
  destruct (Rltb a b) eqn:E1.
  - apply Rltb_true in E1. intros _. destruct (Rltb b c) eqn:E2.
    + apply Rltb_true in E2. intros _. assert (Rltb a c = true) as -> by (apply Rltb_true; lra). auto.
    + apply Rltb_false in E2. destruct (Rltb c b) eqn:E3; [discriminate|]. apply Rltb_false in E3.
      intros _. assert (Rltb a c = true) as -> by (apply Rltb_true; lra). auto.
  - apply Rltb_false in E1. destruct (Rltb b a) eqn:E1'; [discriminate|]. apply Rltb_false in E1'.
    assert (a = b) by lra. subst b. intros H1. destruct (Rltb a c) eqn:E2; auto.
    destruct (Rltb c a) eqn:E3; [discriminate|]. intros H2. apply (IH v w); auto; lia.
Qed.

Lemma lexleb_le : forall u v : list R, length u = length v -> lexleb u v = true -> lex_le u v.
Proof.
  induction u as [|a u IH]; intros [|b v] L H; simpl in *; try lia; [left; auto|].
  destruct (Rltb a b) eqn:E1.
  - apply Rltb_true in E1. right. exists 0%nat. split; [simpl; lia|]. split; [intros; lia|]. auto.
  - apply Rltb_false in E1. destruct (Rltb b a) eqn:E2; [discriminate|]. apply Rltb_false in E2.
    assert (a = b) by lra. subst b. destruct (IH v ltac:(lia) H) as [->|(j & H1 & H2 & H3)]; [left; auto|].
    right. exists (S j). split; [simpl; lia|]. split; auto. intros [|i] Hi; auto. apply H2. lia.
Qed.

(** * Chebyshev distance *)
Lemma fold_max_le : forall l a tol, fold_left (fun s x : R => nmax s x) l a <= tol <->
  a <= tol /\ Forall (fun x => x <= tol) l.
Proof.
  induction l as [|b l IH]; intros a tol; simpl.
  - intuition.
  - rewrite IH, nmax_Rmax. split.
    + intros [H1 H2]. pose proof (Rmax_l a b). pose proof (Rmax_r a b). split; [lra|]. constructor; auto. lra.
    + intros [H1 H2]. inversion H2 as [|? ? H3 H4]. subst. split; auto. apply Rmax_lub; auto.
Qed.

Lemma cheb_le : forall (u v : list R) tol, length u = length v ->
  (cheb u v <= tol <-> 0 <= tol /\ close_rows tol u v).
Proof.
  intros u v tol Hl. unfold cheb. rewrite fold_max_le. simpl n0.
  apply and_iff_compat_l. unfold close_rows. revert v Hl.
  induction u as [|a u IH]; intros [|b v] Hl; simpl in Hl; try lia; simpl.
  - split; [intros; lia|constructor].
  - split.
    + intros H. inversion H as [|? ? H1 H2]. subst. rewrite nabs_Rabs in H1. intros [|j] Hj; auto.
      apply (IH v ltac:(lia)); auto. lia.
    + intros H. constructor.
      * rewrite nabs_Rabs. apply (H 0%nat). lia.
      * apply (IH v ltac:(lia)). intros j Hj. apply (H (S j)). lia.
Qed.

Lemma cheb_sym : forall u v : list R, cheb u v = cheb v u.
Proof.
  intros u v. unfold cheb. f_equal. revert v. induction u as [|a u IH]; intros [|b v]; simpl; auto.
  f_equal; auto. rewrite !nabs_Rabs. apply Rabs_minus_sym.
Qed.

(** * Collapsing and assembling *)
Section Assemble.
  Variables (w : list R) (d : list (list R)) (kk : nat).
  Hypothesis Hwd : length w = length d.
  Hypothesis Hd : Forall (fun r => length r = kk) d.

  Definition rows_of (g : list nat) : list (list R) := map (fun i => nth i d []) g.
  Definition weight_of (g : list nat) : R := rsum (map (fun i => nth i w 0) g).
  Definition pdd_row (g : list nat) : R * list R := (weight_of g, map (mean (rows_of g)) (seq 0 kk)).

  (** Grouping of the row indices, before sorting. *)
  Record grouping (collapse : bool) (tol : R) (groups : list (list nat)) : Prop := {
    gr_perm : Permutation (concat groups) (seq 0 (length d));
    gr_ne : Forall (fun g => g <> [] /\ StronglySorted lt g) groups;
    gr_heads : StronglySorted lt (map (hd 0%nat) groups);
    gr_close : forall g j, In g groups -> In j g -> j <> hd 0%nat g ->
       collapse = true /\ 0 <= tol /\ close_rows tol (nth (hd 0%nat g) d []) (nth j d []);
    gr_apart : collapse = true -> forall i1 i2 j, (i1 < i2 < length groups)%nat -> In j (nth i2 groups []) ->
       ~ (0 <= tol /\ close_rows tol (nth (hd 0%nat (nth i1 groups [])) d []) (nth j d []))
  }.

  Lemma nth_row_length : forall i, (i < length d)%nat -> length (nth i d []) = kk.
  Proof. intros i Hi. rewrite Forall_forall in Hd. apply Hd, nth_In; auto. Qed.

  Lemma concat_singletons : forall A (l : list A), concat (map (fun i => [i]) l) = l.
  Proof. induction l; simpl; congruence. Qed.

  Lemma grouping_singletons : forall collapse tol,
    (collapse = true -> forall i j, (i < j < length d)%nat ->
       ~ (0 <= tol /\ close_rows tol (nth i d []) (nth j d []))) ->
    grouping collapse tol (map (fun i => [i]) (seq 0 (length d))).
  Proof.
    intros collapse tol Hno. split.
    - rewrite concat_singletons. auto.
    - apply Forall_forall. intros g Hg. apply in_map_iff in Hg as (i & <- & _).
      split; [discriminate|repeat constructor].
    - rewrite map_map. simpl. rewrite map_id. clear.
      generalize 0%nat as s. induction (length d) as [|n IH]; intros s; simpl; constructor; auto.
      apply Forall_forall. intros x Hx. apply in_seq in Hx. lia.
    - intros g j Hg Hj Hne. apply in_map_iff in Hg as (i & <- & _). destruct Hj as [->|[]].
      simpl in Hne. congruence.
    - intros Hc i1 i2 j Hi Hj. rewrite map_length, seq_length in Hi.
      rewrite (nth_map_seq (fun i => [i])) in * by lia. destruct Hj as [<-|[]].
      simpl. auto.
  Qed.

  Lemma collapse_rows_spec : forall collapse tol, exists groups,
    collapse_rows w d collapse tol = (map fst (map pdd_row groups), map snd (map pdd_row groups), groups) /\
    grouping collapse tol groups.
  Proof.
    intros collapse tol. unfold collapse_rows. set (n := length d).
    set (ov := fun i j => nleb (cheb (nth i d []) (nth j d [])) tol).
    assert (Hov : forall i j, (i < n)%nat -> (j < n)%nat ->
       (ov i j = true <-> 0 <= tol /\ close_rows tol (nth i d []) (nth j d []))).
    { intros i j Hi Hj. unfold ov. simpl. rewrite Rleb_true. apply cheb_le.
      rewrite !nth_row_length; auto. }
    destruct (collapse && existsb (fun b => b) (condensed ov n))%bool eqn:Ec.
    - apply andb_prop in Ec as [-> Ec].
      destruct (C16_groups_partition_around_leaders n ov) as (P1 & P2 & P3 & P4 & P5).
      { intros i j. unfold ov. rewrite cheb_sym. auto. }
      set (groups := collapse_into_groups n (condensed ov n)) in *.
      assert (Hin : forall g j, In g groups -> In j g -> (j < n)%nat).
      { intros g j Hg Hj. assert (X : In j (seq 0 n)).
        { eapply Permutation_in; [exact P1|]. apply in_concat; eauto. }
        apply in_seq in X; lia. }
      assert (Hhd : forall g, In g groups -> In (hd 0%nat g) g).
      { intros g Hg. rewrite Forall_forall in P2. destruct (P2 g Hg) as [Hg' _].
        destruct g; [congruence|left; auto]. }
      exists groups. split.
      + rewrite !map_map. f_equal. f_equal.
        * apply map_ext. intros g. rewrite nsum_rsum. auto.
        * apply map_ext_in. intros g Hg. unfold pdd_row. simpl. unfold rows_of. apply average_rows_spec.
          -- rewrite Forall_forall in P2. destruct (P2 g Hg) as [Hne _]. destruct g; [congruence|discriminate].
          -- apply Forall_forall. intros r Hr. apply in_map_iff in Hr as (i & <- & Hi).
             apply nth_row_length. eauto.
      + split; auto.
        * intros g j Hg Hj Hne. split; auto. apply Hov; eauto.
        * intros _ i1 i2 j Hi Hj Hbad.
          assert (G1 : In (nth i1 groups []) groups) by (apply nth_In; lia).
          assert (G2 : In (nth i2 groups []) groups) by (apply nth_In; lia).
          specialize (P5 i1 i2 j Hi Hj). apply Hov in Hbad; eauto. congruence.
    - exists (map (fun i => [i]) (seq 0 n)). split.
      + rewrite !map_map. f_equal. f_equal.
        * rewrite <- (map_nth_seq w 0) at 1. rewrite Hwd. apply map_ext. intros i.
          unfold pdd_row, weight_of. simpl. lra.
        * rewrite <- (map_nth_seq d []) at 1. apply map_ext_in. intros i Hi. apply in_seq in Hi.
          simpl. apply list_eq_nth; [apply nth_row_length; unfold n in *; lia|].
          intros j Hj. unfold mean, rows_of. simpl. field.
      + apply grouping_singletons. intros -> i j Hij Hbad. simpl in Ec.
        apply Hov in Hbad; try (unfold n; lia).
        assert (Hex : existsb (fun b => b) (condensed ov n) = true); [|congruence].
        apply existsb_exists. exists true. split; auto. rewrite <- Hbad.
        unfold condensed. apply in_map_iff. exists (i, j). split; auto. apply pairs_In. unfold n; lia.
  Qed.

  Lemma map_nth_any : forall A B (f : A -> B) l o da db, (forall i, In i o -> (i < length l)%nat) ->
    map (fun i => nth i (map f l) db) o = map f (map (fun i => nth i l da) o).
  Proof.
    intros A B f l o da db Ho. rewrite map_map. apply map_ext_in. intros i Hi.
    rewrite (nth_indep _ db (f da)) by (rewrite map_length; auto). apply map_nth.
  Qed.

  (** Result of collapsing and assembling: the list of groups, permuted. *)
  Theorem assemble_spec : forall lexsort collapse tol, exists groups0 groups,
    assemble (collapse_rows w d collapse tol) lexsort = (map pdd_row groups, groups) /\
    assemble (collapse_rows w d collapse tol) false = (map pdd_row groups0, groups0) /\
    grouping collapse tol groups0 /\ Permutation groups0 groups /\
    (lexsort = true -> StronglySorted lex_le (map snd (map pdd_row groups))).
  Proof.
    intros lexsort collapse tol. destruct (collapse_rows_spec collapse tol) as (groups0 & E & G).
    exists groups0. rewrite E. unfold assemble.
    set (ds := map snd (map pdd_row groups0)).
    assert (Hlen : length ds = length groups0) by (unfold ds; rewrite !map_length; auto).
    assert (Hasm : forall o, (forall i, In i o -> (i < length groups0)%nat) ->
      map (fun i => (nth i (map fst (map pdd_row groups0)) 0, nth i ds [])) o =
      map pdd_row (map (fun i => nth i groups0 []) o)).
    { intros o Ho. rewrite (map_map (fun i => nth i groups0 []) pdd_row). apply map_ext_in. intros i Hi. specialize (Ho i Hi). unfold ds.
      rewrite (nth_indep _ 0 (fst (pdd_row []))) by (rewrite !map_length; auto).
      rewrite (nth_indep _ [] (snd (pdd_row []))) by (rewrite !map_length; auto).
      rewrite (map_nth fst), (map_nth snd), (map_nth pdd_row). apply surjective_pairing. }
    assert (H0 : (map (fun i => (nth i (map fst (map pdd_row groups0)) 0, nth i ds [])) (seq 0 (length ds)),
                  map (fun i => nth i groups0 []) (seq 0 (length ds))) = (map pdd_row groups0, groups0)).
    { rewrite Hasm, Hlen, map_nth_seq; auto. intros i Hi. apply in_seq in Hi. lia. }
    destruct lexsort.
    - set (o := lex_ordering ds).
      assert (HP : Permutation (seq 0 (length ds)) o) by apply isort_perm.
      assert (Ho : forall i, In i o -> (i < length groups0)%nat).
      { intros i Hi. eapply Permutation_in in Hi; [|apply Permutation_sym; exact HP].
        apply in_seq in Hi. lia. }
      exists (map (fun i => nth i groups0 []) o). split; [|split; [|split; [|split]]]; auto.
      + simpl n0. rewrite Hasm by auto. auto.
      + rewrite <- (map_nth_seq groups0 []) at 1. apply Permutation_map. rewrite <- Hlen. auto.
      + intros _. rewrite <- Hasm by auto. rewrite map_map. simpl.
        apply StronglySorted_map.
        assert (Hsl : forall i, (i < length ds)%nat -> length (nth i ds []) = kk).
        { intros i Hi. unfold ds. rewrite map_map.
          rewrite (nth_indep _ [] (snd (pdd_row []))) by (rewrite map_length; lia).
          rewrite (map_nth (fun g => snd (pdd_row g))). simpl. rewrite map_length, seq_length. auto. }
        assert (Hs : StronglySorted (fun i j => lexleb (nth i ds []) (nth j ds []) = true) o).
        { (* insertion sort with an order that is transitive on valid indices *)
          unfold o, lex_ordering. set (le' := fun i j => lexleb (nth i ds []) (nth j ds [])).
          assert (Gs : forall l, (forall i, In i l -> (i < length ds)%nat) ->
             StronglySorted (fun i j => le' i j = true) (isort le' l)).
          { induction l as [|a l IH]; intros Hl; simpl; [constructor|].
            assert (IHl : StronglySorted (fun i j => le' i j = true) (isort le' l)).
            { apply IH. intros; apply Hl; simpl; auto. }
            assert (Hv : forall i, In i (isort le' l) -> (i < length ds)%nat).
            { intros i Hi. apply isort_In in Hi. apply Hl; simpl; auto. }
            assert (Hva : (a < length ds)%nat) by (apply Hl; simpl; auto).
            clear IH Hl. revert IHl Hv. generalize (isort le' l) as s.
            induction s as [|b s IHs]; intros Hss Hv; simpl; [repeat constructor|].
            inversion Hss as [|? ? Hs1 Hs2]. subst.
            destruct (le' a b) eqn:Eab.
            - constructor; auto. constructor; auto. rewrite Forall_forall in Hs2 |- *.
              intros c Hc. unfold le' in *.
              apply lexleb_trans with (nth b ds []); auto; rewrite !Hsl; auto; apply Hv; simpl; auto.
            - constructor.
              + apply IHs; auto. intros; apply Hv; simpl; auto.
              + apply Forall_forall. intros c Hc.
                eapply Permutation_in in Hc; [|apply Permutation_sym, insert_perm].
                destruct Hc as [<-|Hc]; [|rewrite Forall_forall in Hs2; auto].
                destruct (lexleb_total (nth a ds []) (nth b ds [])) as [H|H]; auto.
                unfold le' in Eab. congruence. }
          apply Gs. intros i Hi. apply in_seq in Hi. lia. }
        clear - Hs Hsl Ho Hlen. revert Ho.
        induction Hs as [|i o Hs IH HF]; intros Ho; constructor.
        * apply IH. intros; apply Ho; simpl; auto.
        * rewrite Forall_forall in HF |- *. intros j Hj. apply lexleb_le; auto.
          rewrite !Hsl; auto; rewrite Hlen; apply Ho; simpl; auto.
    - exists groups0. split; [|split; [|split; [|split]]]; auto; discriminate.
  Qed.
End Assemble.
