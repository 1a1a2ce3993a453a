(** General list lemmas: sorting, k smallest elements, sums. *)
From Coq Require Import List Bool Arith Lia Permutation Sorted Reals Lra RelationClasses.
From Verif Require Import Num.
Import ListNotations.

Set Implicit Arguments.

(** * Insertion sort over a boolean order *)
Section ISort.
  Context {T : Type} (leb : T -> T -> bool).

  Fixpoint insert (x : T) (l : list T) : list T :=
    match l with
    | [] => [x]
    | y :: t => if leb x y then x :: l else y :: insert x t
    end.

  (** Stable insertion sort. *)
  Fixpoint isort (l : list T) : list T :=
    match l with
    | [] => []
    | x :: t => insert x (isort t)
    end.

  Lemma insert_perm : forall x l, Permutation (x :: l) (insert x l).
  Proof.
    induction l as [|y t IH]; simpl; auto.
    destruct (leb x y); auto.
    eapply perm_trans; [apply perm_swap|]. auto.
  Qed.

  Lemma isort_perm : forall l, Permutation l (isort l).
  Proof.
    induction l as [|x t IH]; simpl; auto.
    eapply perm_trans; [apply perm_skip, IH | apply insert_perm].
  Qed.

  Lemma isort_length : forall l, length (isort l) = length l.
  Proof. intro l. symmetry. apply Permutation_length, isort_perm. Qed.

  Lemma isort_In : forall x l, In x (isort l) <-> In x l.
  Proof.
    intros x l; split; apply Permutation_in;
      [apply Permutation_sym, isort_perm | apply isort_perm].
  Qed.

  Hypothesis total : forall x y, leb x y = true \/ leb y x = true.
  Hypothesis trans : forall x y z, leb x y = true -> leb y z = true -> leb x z = true.

  Let le x y := leb x y = true.

  Lemma insert_sorted : forall x l, StronglySorted le l -> StronglySorted le (insert x l).
  Proof.
    intros x l H; induction H as [|y t Ht IH Hy]; simpl.
    - constructor; auto. constructor.
    - destruct (leb x y) eqn:E.
      + constructor; [constructor; auto|].
        constructor; auto.
        eapply Forall_impl; [|exact Hy]. intros z Hz. eapply trans; eauto.
      + constructor; auto.
        assert (Hyx : le y x) by (destruct (total x y) as [A|A]; [congruence|auto]).
        eapply Permutation_Forall; [apply insert_perm|].
        constructor; auto.
  Qed.

  Lemma isort_sorted : forall l, StronglySorted le (isort l).
  Proof. induction l; simpl; [constructor | apply insert_sorted; auto]. Qed.
End ISort.

(** * Strongly sorted lists *)
Section SS.
  Context {T : Type} (le : T -> T -> Prop).

  Lemma StronglySorted_app_iff : forall l1 l2,
    StronglySorted le (l1 ++ l2) <->
    StronglySorted le l1 /\ StronglySorted le l2 /\
    (forall a b, In a l1 -> In b l2 -> le a b).
  Proof.
    induction l1 as [|x l1 IH]; intros l2; simpl.
    - split.
      + intros H; repeat split; auto; [constructor|]. intros a b [].
      + intros (_ & H & _); auto.
    - split.
      + intros H; inversion H as [|? ? Hs Hf]; subst.
        apply IH in Hs as (H1 & H2 & H3).
        rewrite Forall_app in Hf. destruct Hf as [Hf1 Hf2].
        repeat split; auto.
        * constructor; auto.
        * intros a b [->|Ha] Hb; auto. rewrite Forall_forall in Hf2; auto.
      + intros (H1 & H2 & H3). inversion H1; subst.
        constructor.
        * apply IH; repeat split; auto.
        * apply Forall_app; split; auto.
          apply Forall_forall; intros; apply H3; auto.
  Qed.

  Lemma StronglySorted_perm_eq :
    (forall a b, le a b -> le b a -> a = b) ->
    forall l1 l2, StronglySorted le l1 -> StronglySorted le l2 ->
      Permutation l1 l2 -> l1 = l2.
  Proof.
    intros anti; induction l1 as [|x l1 IH]; intros l2 H1 H2 P.
    - apply Permutation_nil in P; auto.
    - destruct l2 as [|y l2]; [apply Permutation_sym, Permutation_nil in P; discriminate|].
      inversion H1 as [|? ? S1 F1]; inversion H2 as [|? ? S2 F2]; subst.
      assert (x = y).
      { assert (In x (y :: l2)) as [->|Hx] by (eapply Permutation_in; [exact P|left; auto]); auto.
        assert (In y (x :: l1)) as [->|Hy]
            by (eapply Permutation_in; [apply Permutation_sym; exact P|left; auto]); auto.
        rewrite Forall_forall in F1, F2. apply anti; auto. }
      subst y. f_equal. apply IH; auto.
      eapply Permutation_cons_inv; eauto.
  Qed.

  Lemma StronglySorted_firstn : forall k l, StronglySorted le l -> StronglySorted le (firstn k l).
  Proof.
    intros k l H. rewrite <- (firstn_skipn k l) in H.
    apply StronglySorted_app_iff in H; tauto.
  Qed.
  Lemma StronglySorted_skipn : forall k l, StronglySorted le l -> StronglySorted le (skipn k l).
  Proof.
    intros k l H. rewrite <- (firstn_skipn k l) in H.
    apply StronglySorted_app_iff in H; tauto.
  Qed.
  Lemma StronglySorted_nth : forall l d i j, StronglySorted le l ->
    i < j < length l -> le (nth i l d) (nth j l d).
  Proof.
    intros l d i j H; revert i j; induction H as [|x t Hs IH Hf]; simpl; intros i j Hij; [lia|].
    destruct j; [lia|]. destruct i.
    - rewrite Forall_forall in Hf. apply Hf, nth_In. lia.
    - apply IH; lia.
  Qed.
End SS.

(** * Sorting reals *)
Definition sortR : list R -> list R := isort Rleb.

Lemma Rleb_total : forall x y, Rleb x y = true \/ Rleb y x = true.
Proof. intros. rewrite !Rleb_true. lra. Qed.
Lemma Rleb_trans : forall x y z, Rleb x y = true -> Rleb y z = true -> Rleb x z = true.
Proof. intros x y z. rewrite !Rleb_true. lra. Qed.

Lemma StronglySorted_impl : forall A (P Q : A -> A -> Prop) l,
  (forall a b, P a b -> Q a b) -> StronglySorted P l -> StronglySorted Q l.
Proof.
  intros A P Q l HPQ H; induction H; constructor; auto.
  eapply Forall_impl; [|eassumption]; auto.
Qed.

Lemma sortR_perm : forall l, Permutation l (sortR l).
Proof. apply isort_perm. Qed.
Lemma sortR_length : forall l, length (sortR l) = length l.
Proof. apply isort_length. Qed.
Lemma sortR_sorted : forall l, StronglySorted Rle (sortR l).
Proof.
  intro l. eapply StronglySorted_impl; [|apply isort_sorted].
  - intros a b; apply Rleb_true.
  - apply Rleb_total.
  - apply Rleb_trans.
Qed.

Lemma sortedR_perm_eq : forall l1 l2, StronglySorted Rle l1 -> StronglySorted Rle l2 ->
  Permutation l1 l2 -> l1 = l2.
Proof. apply StronglySorted_perm_eq. intros; lra. Qed.

Lemma sortR_unique : forall l s, StronglySorted Rle s -> Permutation l s -> sortR l = s.
Proof.
  intros. apply sortedR_perm_eq; auto using sortR_sorted.
  eapply perm_trans; [apply Permutation_sym, sortR_perm|]; auto.
Qed.

Lemma sortR_perm_eq : forall l1 l2, Permutation l1 l2 -> sortR l1 = sortR l2.
Proof.
  intros. apply sortR_unique; auto using sortR_sorted.
  eapply perm_trans; [eassumption|apply sortR_perm].
Qed.

Lemma sortR_id : forall l, StronglySorted Rle l -> sortR l = l.
Proof. intros. apply sortR_unique; auto. Qed.

(** * The [k] smallest elements in order *)
Definition kmin (k : nat) (l : list R) : list R := firstn k (sortR l).

Lemma kmin_length : forall k l, length (kmin k l) = Nat.min k (length l).
Proof. intros. unfold kmin. rewrite firstn_length, sortR_length. auto. Qed.
Lemma kmin_sorted : forall k l, StronglySorted Rle (kmin k l).
Proof. intros. apply StronglySorted_firstn, sortR_sorted. Qed.

Lemma kmin_split : forall k l, exists r,
  Permutation l (kmin k l ++ r) /\ (forall a b, In a (kmin k l) -> In b r -> (a <= b)%R).
Proof.
  intros k l. exists (skipn k (sortR l)). unfold kmin. split.
  - rewrite firstn_skipn. apply sortR_perm.
  - pose proof (sortR_sorted l) as H. rewrite <- (firstn_skipn k (sortR l)) in H.
    apply StronglySorted_app_iff in H. tauto.
Qed.

Lemma kmin_char : forall k l s r,
  StronglySorted Rle s -> length s = Nat.min k (length l) ->
  Permutation l (s ++ r) -> (forall a b, In a s -> In b r -> (a <= b)%R) ->
  kmin k l = s.
Proof.
  intros k l s r Hs Hlen HP Hle. unfold kmin.
  rewrite (sortR_unique (l := l) (s := s ++ sortR r)).
  - destruct (Nat.le_gt_cases k (length l)) as [L|L].
    + rewrite firstn_app. replace (k - length s) with 0 by lia.
      rewrite firstn_O, app_nil_r. rewrite firstn_all2; auto; lia.
    + assert (length r = 0).
      { apply Permutation_length in HP. rewrite app_length in HP. lia. }
      destruct r; [|discriminate]. simpl. rewrite app_nil_r.
      apply firstn_all2. lia.
  - apply StronglySorted_app_iff. repeat split; auto using sortR_sorted.
    intros a b Ha Hb. apply Hle; auto. apply isort_In in Hb; auto.
  - eapply perm_trans; [eassumption|]. apply Permutation_app_head, sortR_perm.
Qed.

Lemma kmin_perm : forall k l1 l2, Permutation l1 l2 -> kmin k l1 = kmin k l2.
Proof. intros. unfold kmin. erewrite sortR_perm_eq; eauto. Qed.

(** Elements not below any of the [k] smallest can be dropped. *)
Lemma kmin_drop : forall k l1 l2, k <= length l1 ->
  (forall a b, In a (kmin k l1) -> In b l2 -> (a <= b)%R) ->
  kmin k (l1 ++ l2) = kmin k l1.
Proof.
  intros k l1 l2 Hk H. destruct (kmin_split k l1) as (r & HP & Hr).
  apply kmin_char with (r := r ++ l2).
  - apply kmin_sorted.
  - rewrite kmin_length, app_length. lia.
  - rewrite app_assoc. apply Permutation_app_tail; auto.
  - intros a b Ha Hb. apply in_app_or in Hb as [Hb|Hb]; auto.
Qed.

(** Selecting before merging does not change the result. *)
Lemma kmin_app_kmin_l : forall k l1 l2, kmin k (kmin k l1 ++ l2) = kmin k (l1 ++ l2).
Proof.
  intros k l1 l2. symmetry.
  destruct (kmin_split k l1) as (r & HP & Hr).
  destruct (kmin_split k (kmin k l1 ++ l2)) as (r2 & HP2 & Hr2).
  set (s := kmin k (kmin k l1 ++ l2)) in *.
  assert (Hls : length s = Nat.min k (length (kmin k l1 ++ l2))) by apply kmin_length.
  rewrite app_length, kmin_length in Hls.
  apply kmin_char with (r := r2 ++ r).
  - apply kmin_sorted.
  - rewrite app_length. lia.
  - rewrite app_assoc. eapply perm_trans.
    + apply Permutation_app_tail, HP.
    + rewrite <- app_assoc. eapply perm_trans.
      * apply Permutation_app_head, Permutation_app_comm.
      * rewrite app_assoc. apply Permutation_app_tail; auto.
  - intros a b Ha Hb. apply in_app_or in Hb as [Hb|Hb]; auto.
    (* b in r *)
    destruct (Nat.le_gt_cases (length l1) k) as [L|L].
    { assert (length r = 0).
      { apply Permutation_length in HP. rewrite app_length, kmin_length in HP. lia. }
      destruct r; [destruct Hb|discriminate]. }
    (* length (kmin k l1) = k *)
    assert (Hk : length (kmin k l1) = k) by (rewrite kmin_length; lia).
    destruct (in_dec Req_EM_T a (kmin k l1)) as [Hin|Hnin]; auto.
    (* a in l2, not in kmin: then some element of kmin k l1 was left out *)
    assert (exists c, In c (kmin k l1) /\ In c r2) as (c & Hc1 & Hc2).
    { destruct (List.existsb (fun c => if in_dec Req_EM_T c r2 then true else false) (kmin k l1)) eqn:E.
      - apply existsb_exists in E as (c & Hc & Hc'). exists c; split; auto.
        destruct (in_dec Req_EM_T c r2); auto; discriminate.
      - exfalso.
        assert (Hall : forall c, In c (kmin k l1) -> ~ In c r2).
        { intros c Hc Hc2.
          assert (existsb (fun c => if in_dec Req_EM_T c r2 then true else false) (kmin k l1) = true);
            [|congruence].
          apply existsb_exists. exists c; split; auto.
          destruct (in_dec Req_EM_T c r2); auto. }
        (* count occurrences: every element of kmin is in s with same multiplicity *)
        assert (Hcount : forall c, In c (kmin k l1) ->
                  count_occ Req_EM_T (kmin k l1) c <= count_occ Req_EM_T s c).
        { intros c Hc. pose proof (Permutation_count_occ Req_EM_T (kmin k l1 ++ l2) (s ++ r2)) as [Hp _].
          specialize (Hp HP2 c). rewrite !count_occ_app in Hp.
          assert (count_occ Req_EM_T r2 c = 0) by (apply count_occ_not_In; auto). lia. }
        (* length argument *)
        assert (Hsub : exists u, Permutation s (kmin k l1 ++ u)).
        { clear - Hcount. clearbody s. revert Hcount. generalize (kmin k l1) as q. intro q.
          revert s. induction q as [|c q IH]; intros s Hcount.
          - exists s; auto.
          - assert (Hin : In c s).
            { apply (count_occ_In Req_EM_T).
              specialize (Hcount c (or_introl eq_refl)). simpl in Hcount.
              destruct (Req_EM_T c c); [lia|congruence]. }
            apply in_split in Hin as (s1 & s2 & ->).
            destruct (IH (s1 ++ s2)) as (u & Hu).
            { intros c' Hc'. specialize (Hcount c' (or_intror Hc')).
              rewrite count_occ_app in Hcount |- *. simpl in Hcount.
              destruct (Req_EM_T c c'); lia. }
            exists u. simpl. eapply perm_trans; [apply Permutation_sym, Permutation_middle|].
            apply perm_skip; auto. }
        destruct Hsub as (u & Hu).
        assert (length u = 0).
        { apply Permutation_length in Hu. rewrite app_length in Hu. lia. }
        destruct u; [|discriminate]. rewrite app_nil_r in Hu.
        apply Hnin. eapply Permutation_in; eauto. }
    assert (a <= c)%R by (apply Hr2; auto).
    assert (c <= b)%R by (apply Hr; auto). lra.
Qed.

Lemma kmin_app_kmin_r : forall k l1 l2, kmin k (l1 ++ kmin k l2) = kmin k (l1 ++ l2).
Proof.
  intros. rewrite (kmin_perm k (Permutation_app_comm l1 (kmin k l2))).
  rewrite kmin_app_kmin_l. apply kmin_perm, Permutation_app_comm.
Qed.

Lemma kmin_kmin : forall k l, kmin k (kmin k l) = kmin k l.
Proof.
  intros. rewrite <- (app_nil_r (kmin k l)) at 1. rewrite kmin_app_kmin_l.
  now rewrite app_nil_r.
Qed.

Lemma kmin_id : forall k l, StronglySorted Rle l -> length l <= k -> kmin k l = l.
Proof. intros. unfold kmin. rewrite sortR_id by auto. apply firstn_all2; auto. Qed.

(** * Duplicate-free lists *)
Lemma NoDup_app_intro : forall A (l1 l2 : list A), NoDup l1 -> NoDup l2 ->
  (forall x, In x l1 -> ~ In x l2) -> NoDup (l1 ++ l2).
Proof.
  induction l1 as [|a l1 IH]; simpl; intros l2 N1 N2 D; auto.
  inversion N1; subst. constructor.
  - rewrite in_app_iff. intros [X|X]; [auto|]. eapply D; eauto.
  - apply IH; auto.
Qed.

Lemma NoDup_app_iff : forall A (l1 l2 : list A),
  NoDup (l1 ++ l2) <-> NoDup l1 /\ NoDup l2 /\ (forall x, In x l1 -> ~ In x l2).
Proof.
  intros A l1 l2; split.
  - induction l1 as [|a l1 IH]; simpl; intros H.
    + repeat split; auto. constructor.
    + inversion H; subst. apply IH in H3 as (N1 & N2 & D).
      repeat split; auto.
      * constructor; auto. intro X. apply H2. apply in_or_app; auto.
      * intros x [->|Hx] Hx2; [apply H2; apply in_or_app; auto|eapply D; eauto].
  - intros (H1 & H2 & H3). apply NoDup_app_intro; auto.
Qed.

Lemma nth_map_seq : forall A (f : nat -> A) n k d, k < n -> nth k (map f (seq 0 n)) d = f k.
Proof.
  intros A f n k d H. rewrite (nth_indep _ d (f 0)) by (rewrite map_length, seq_length; auto).
  rewrite map_nth, seq_nth by auto. reflexivity.
Qed.

Lemma map_nth_seq : forall A (l : list A) d, map (fun i => nth i l d) (seq 0 (length l)) = l.
Proof.
  intros A l d. apply nth_ext with (d := d) (d' := d).
  - now rewrite map_length, seq_length.
  - intros n Hn. rewrite map_length, seq_length in Hn. now rewrite nth_map_seq.
Qed.
