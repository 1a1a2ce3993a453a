(** Proofs about the merge functions, over the real numbers. *)
From Coq Require Import List ZArith Bool Lia Permutation Sorted Reals Lra.
From Verif Require Import Num Base Outcome MergeModel.
Import ListNotations.
Open Scope outcome_scope.

(** * Indexing with wraparound *)
Lemma getZ_nth : forall A (l : list A) (i : nat) a,
  nth_error l i = Some a -> getZ l (Z.of_nat i) = Done a.
Proof.
  intros A l i a H. unfold getZ.
  destruct (Z.ltb_spec (Z.of_nat i) 0); [lia|].
  destruct (Z.ltb_spec (Z.of_nat i) 0); [lia|].
  rewrite Nat2Z.id, H. reflexivity.
Qed.

Lemma getZ_neg : forall A (l : list A) (i : nat) a,
  (i < length l)%nat ->
  nth_error l i = Some a -> getZ l (Z.of_nat i - Z.of_nat (length l)) = Done a.
Proof.
  intros A l i a L H. unfold getZ.
  destruct (Z.ltb_spec (Z.of_nat i - Z.of_nat (length l)) 0); [|lia].
  replace (Z.of_nat i - Z.of_nat (length l) + Z.of_nat (length l))%Z with (Z.of_nat i) by lia.
  destruct (Z.ltb_spec (Z.of_nat i) 0); [lia|].
  rewrite Nat2Z.id, H. reflexivity.
Qed.

Lemma upd_app : forall A (l1 : list A) a l2 v, upd (l1 ++ a :: l2) (length l1) v = l1 ++ v :: l2.
Proof. induction l1; simpl; intros; auto. rewrite IHl1; auto. Qed.

Lemma upd_length : forall A (l : list A) i v, length (upd l i v) = length l.
Proof. induction l; destruct i; simpl; auto. Qed.

Lemma setZ_neg : forall A (l1 : list A) a l2 v,
  setZ (l1 ++ a :: l2) (- Z.of_nat (S (length l2))) v = Done (l1 ++ v :: l2).
Proof.
  intros. unfold setZ. rewrite app_length. simpl length.
  destruct (Z.ltb_spec (- Z.of_nat (S (length l2))) 0); [|lia].
  replace (- Z.of_nat (S (length l2)) + Z.of_nat (length l1 + S (length l2)))%Z
    with (Z.of_nat (length l1)) by lia.
  destruct (Z.ltb_spec (Z.of_nat (length l1)) 0); [lia|].
  destruct (Z.leb_spec (Z.of_nat (length l1 + S (length l2))) (Z.of_nat (length l1))); [lia|].
  simpl orb. cbv iota. rewrite Nat2Z.id, upd_app. reflexivity.
Qed.

(** * Reference merge of two lists of keyed items, left first on ties *)
Section LMerge.
  Context {A : Type} (key : A -> R).
  Fixpoint lmerge (l1 : list A) : list A -> list A :=
    fix aux l2 :=
      match l1, l2 with
      | [], _ => l2
      | _, [] => l1
      | a :: t1, b :: t2 => if Rleb (key a) (key b) then a :: lmerge t1 l2 else b :: aux t2
      end.

  Lemma lmerge_nil_r : forall l, lmerge l [] = l.
  Proof. destruct l; reflexivity. Qed.
  Lemma lmerge_nil_l : forall l, lmerge [] l = l.
  Proof. destruct l; reflexivity. Qed.
  Lemma lmerge_cons : forall a t1 b t2,
    lmerge (a :: t1) (b :: t2) =
    if Rleb (key a) (key b) then a :: lmerge t1 (b :: t2) else b :: lmerge (a :: t1) t2.
  Proof. reflexivity. Qed.

  Lemma lmerge_perm : forall l1 l2, Permutation (l1 ++ l2) (lmerge l1 l2).
  Proof.
    induction l1 as [|a t1 IH1]; intros l2.
    - rewrite lmerge_nil_l; auto.
    - induction l2 as [|b t2 IH2].
      + rewrite lmerge_nil_r, app_nil_r; auto.
      + rewrite lmerge_cons. destruct (Rleb (key a) (key b)).
        * simpl. apply perm_skip, IH1.
        * eapply perm_trans; [apply Permutation_sym, Permutation_middle|].
          apply perm_skip, IH2.
  Qed.

  Definition kle a b := (key a <= key b)%R.

  Lemma lmerge_sorted : forall l1 l2,
    StronglySorted kle l1 -> StronglySorted kle l2 -> StronglySorted kle (lmerge l1 l2).
  Proof.
    induction l1 as [|a t1 IH1]; intros l2 H1 H2.
    - rewrite lmerge_nil_l; auto.
    - induction l2 as [|b t2 IH2].
      + rewrite lmerge_nil_r; auto.
      + rewrite lmerge_cons. inversion H1; subst. inversion H2; subst.
        destruct (Rleb (key a) (key b)) eqn:E.
        * apply Rleb_true in E. constructor; auto.
          eapply Permutation_Forall; [apply lmerge_perm|].
          apply Forall_app; split; auto. constructor; auto.
          eapply Forall_impl; [|eassumption]. unfold kle; intros; lra.
        * apply Rleb_false in E. constructor; auto.
          eapply Permutation_Forall; [apply lmerge_perm|].
          apply Forall_app; split; auto. constructor; [unfold kle; lra|].
          eapply Forall_impl; [|eassumption]. unfold kle; intros; lra.
  Qed.
End LMerge.

Lemma skipn_cons_nth : forall A (l : list A) n a t,
  skipn n l = a :: t -> nth_error l n = Some a /\ skipn (S n) l = t /\ (n < length l)%nat.
Proof.
  induction l as [|h l IH]; intros n a t H.
  - rewrite skipn_nil in H; discriminate.
  - destruct n; simpl in *.
    + injection H as -> ->. repeat split; auto. lia.
    + apply IH in H as (H1 & H2 & H3). repeat split; auto; lia.
Qed.

Lemma skipn_nil_length : forall A (l : list A) n, skipn n l = [] -> (length l <= n)%nat.
Proof.
  intros A l n H. apply (f_equal (@length A)) in H. rewrite skipn_length in H. simpl in H. lia.
Qed.

Lemma nth_error_map_fst : forall A B (l : list (A * B)) n p,
  nth_error l n = Some p -> nth_error (map fst l) n = Some (fst p).
Proof. intros. rewrite nth_error_map, H; auto. Qed.
Lemma nth_error_map_snd : forall A B (l : list (A * B)) n p,
  nth_error l n = Some p -> nth_error (map snd l) n = Some (snd p).
Proof. intros. rewrite nth_error_map, H; auto. Qed.

Section Inds.
  Context {I : Type}.
  Notation lmg := (lmerge (@fst R I)).

  (** The read [l[dp + 1]] after consuming the head of [b = skipn .. D]. *)
  Lemma fill_inds_correct : forall c (D D_ : list (R * I)) pre tail (dp : nat) (dp_ : nat) (b : R * I) bt
      (b_ : list (R * I)) (dist_ : option R) (p_ : I),
    length tail = c -> length (pre ++ tail) = length D ->
    skipn dp D = b :: bt -> (c <= S (length bt))%nat ->
    skipn dp_ D_ = b_ -> (dp_ <= length D_)%nat ->
    match b_ with [] => dist_ = None | (v, q) :: _ => dist_ = Some v /\ p_ = q end ->
    let res := pre ++ firstn c (lmg (b :: bt) b_) in
    fill_inds c (map fst D) (map fst D_) (map snd D) (map snd D_)
      (map fst (pre ++ tail)) (map snd (pre ++ tail))
      (- Z.of_nat c) (Z.of_nat dp - Z.of_nat (length D)) (Z.of_nat dp_)
      (fst b) dist_ (snd b) p_
    = Done (map fst res, map snd res).
  Proof.
    induction c as [|c IH];
      intros D D_ pre tail dp dp_ b bt b_ dist_ p_ Htail Hlen Hb Hc Hb_ Hdp_ Hd res.
    - unfold res. destruct tail; [|discriminate]. simpl. reflexivity.
    - destruct tail as [|u tail]; [discriminate|]. simpl in Htail. injection Htail as Htail.
      cbn [fill_inds].
      destruct (Z.leb_spec 0 (- Z.of_nat (S c))); [lia|].
      destruct (skipn_cons_nth _ _ _ _ _ Hb) as (Hn & Hs & Hl).
      assert (Hset : forall v, setZ (map fst (pre ++ u :: tail)) (- Z.of_nat (S c)) v
                               = Done (map fst pre ++ v :: map fst tail)).
      { intro v. rewrite map_app. simpl map. rewrite <- Htail, <- (map_length fst tail).
        apply setZ_neg. }
      assert (Hseti : forall v, setZ (map snd (pre ++ u :: tail)) (- Z.of_nat (S c)) v
                               = Done (map snd pre ++ v :: map snd tail)).
      { intro v. rewrite map_app. simpl map. rewrite <- Htail, <- (map_length snd tail).
        apply setZ_neg. }
      assert (Hlen' : forall v, length ((pre ++ [v]) ++ tail) = length D).
      { intros. rewrite <- Hlen, !app_length. simpl. lia. }
      destruct (le_ext (fst b) dist_) eqn:Ele.
      + (* take from dists *)
        rewrite Hset, Hseti. cbn [obind].
        destruct bt as [|b2 bt].
        * (* last element of dists used: the next read wraps to index 0 *)
          assert (c = 0)%nat by (simpl in Hc; lia). subst c.
          destruct tail; [|discriminate].
          assert (Hdp : (S dp = length D)%nat).
          { pose proof (skipn_nil_length _ _ _ Hs). lia. }
          replace (Z.of_nat dp - Z.of_nat (length D) + 1)%Z with 0%Z by lia.
          assert (exists d0 D', D = d0 :: D') as (d0 & D' & ED).
          { destruct D; [simpl in Hl; lia|eauto]. }
          rewrite ED. cbn [map]. unfold getZ. simpl. unfold res.
          destruct b_ as [|[v q] b_'].
          { rewrite lmerge_nil_r. simpl. rewrite !map_app. reflexivity. }
          { destruct Hd as [-> ->]. unfold le_ext in Ele. simpl nleb in Ele.
            simpl. change (nleb (fst b) v) with (Rleb (fst b) v) in Ele. rewrite Ele.
            simpl. rewrite !map_app. reflexivity. }
        * assert (Hn2 : nth_error D (S dp) = Some b2).
          { destruct (skipn_cons_nth _ _ _ _ _ Hs) as (Hn2 & _). auto. }
          assert (HL2 : (S dp < length D)%nat) by (apply nth_error_Some; congruence).
          replace (Z.of_nat dp - Z.of_nat (length D) + 1)%Z
            with (Z.of_nat (S dp) - Z.of_nat (length D))%Z by lia.
          pose proof (@getZ_neg _ (map fst D) (S dp) (fst b2)) as G1.
          rewrite map_length in G1. rewrite G1; auto using nth_error_map_fst. clear G1.
          pose proof (@getZ_neg _ (map snd D) (S dp) (snd b2)) as G1.
          rewrite map_length in G1. rewrite G1; auto using nth_error_map_snd. clear G1.
          cbn [obind].
          replace (- Z.of_nat (S c) + 1)%Z with (- Z.of_nat c)%Z by lia.
          assert (E1 : map fst pre ++ fst b :: map fst tail = map fst ((pre ++ [b]) ++ tail)).
          { rewrite !map_app, <- app_assoc. reflexivity. }
          assert (E2 : map snd pre ++ snd b :: map snd tail = map snd ((pre ++ [b]) ++ tail)).
          { rewrite !map_app, <- app_assoc. reflexivity. }
          rewrite E1, E2.
          rewrite (IH D D_ (pre ++ [b]) tail (S dp) dp_ b2 bt b_ dist_ p_); auto.
          2:{ simpl in Hc |- *. lia. }
          unfold res. rewrite <- app_assoc.
          assert (E3 : [b] ++ firstn c (lmg (b2 :: bt) b_) = firstn (S c) (lmg (b :: b2 :: bt) b_)).
          { destruct b_ as [|[v q] b_'].
            - rewrite !lmerge_nil_r. reflexivity.
            - destruct Hd as [-> ->]. rewrite (lmerge_cons _ b).
              unfold le_ext in Ele. change (Rleb (fst b) v = true) in Ele.
              simpl (fst (v, q)). rewrite Ele. reflexivity. }
          rewrite E3. reflexivity.
      + (* take from dists_ *)
        destruct b_ as [|[v q] b_'].
        { subst dist_. discriminate. }
        destruct Hd as [-> ->]. unfold le_ext in Ele. change (Rleb (fst b) v = false) in Ele.
        rewrite Hset, Hseti. cbn [obind].
        destruct (skipn_cons_nth _ _ _ _ _ Hb_) as (Hn_ & Hs_ & Hl_).
        rewrite map_length.
        assert (E1 : map fst pre ++ v :: map fst tail = map fst ((pre ++ [(v, q)]) ++ tail)).
        { rewrite !map_app, <- app_assoc. reflexivity. }
        assert (E2 : map snd pre ++ q :: map snd tail = map snd ((pre ++ [(v, q)]) ++ tail)).
        { rewrite !map_app, <- app_assoc. reflexivity. }
        rewrite E1, E2.
        replace (- Z.of_nat (S c) + 1)%Z with (- Z.of_nat c)%Z by lia.
        replace (Z.of_nat dp_ + 1)%Z with (Z.of_nat (S dp_)) by lia.
        assert (E3 : [(v, q)] ++ firstn c (lmg (b :: bt) b_')
                     = firstn (S c) (lmg (b :: bt) ((v, q) :: b_'))).
        { rewrite (lmerge_cons _ b). simpl (fst (v, q)). rewrite Ele. reflexivity. }
        destruct (Z.ltb_spec (Z.of_nat (S dp_)) (Z.of_nat (length D_))) as [Hlt|Hge].
        * destruct b_' as [|[v2 q2] b_''].
          { apply skipn_nil_length in Hs_. lia. }
          destruct (skipn_cons_nth _ _ _ _ _ Hs_) as (Hn2 & _).
          rewrite (getZ_nth _ _ _ _ (nth_error_map_fst _ _ _ _ _ Hn2)).
          rewrite (getZ_nth _ _ _ _ (nth_error_map_snd _ _ _ _ _ Hn2)).
          cbn [obind].
          rewrite (IH D D_ (pre ++ [(v, q)]) tail dp (S dp_) b bt ((v2, q2) :: b_'')); auto; try lia.
          unfold res. rewrite <- app_assoc, E3. reflexivity.
        * assert (b_' = []).
          { rewrite <- Hs_. apply skipn_all2. lia. }
          clear Hs_. subst b_'.
          rewrite (IH D D_ (pre ++ [(v, q)]) tail dp (S dp_) b bt []); auto; try lia.
          2:{ apply skipn_all2. lia. }
          unfold res. rewrite <- app_assoc, E3. reflexivity.
  Qed.

  Lemma scan_back_correct : forall (D : list R) d0 (i : nat) fuel,
    (i <= length D)%nat ->
    (exists h t, D = h :: t /\ (h <= d0)%R) -> StronglySorted Rle D ->
    (forall v, In v (skipn i D) -> (d0 < v)%R) -> (i <= fuel)%nat -> (1 <= i)%nat ->
    exists i', scan_back fuel D d0 (Z.of_nat i - 1 - Z.of_nat (length D))
               = Done (Z.of_nat i' - Z.of_nat (length D))%Z
       /\ (1 <= i' <= length D)%nat
       /\ (forall v, In v (skipn i' D) -> (d0 < v)%R)
       /\ (forall v, In v (firstn i' D) -> (v <= d0)%R).
  Proof.
    intros D d0 i fuel; revert i. induction fuel as [|fuel IH]; intros i Hi Hh Hsort Hgt Hf H1; [lia|].
    destruct i as [|i]; [lia|].
    destruct (nth_error D i) as [v|] eqn:En; [|apply nth_error_None in En; lia].
    cbn [scan_back].
    replace (Z.of_nat (S i) - 1 - Z.of_nat (length D))%Z with (Z.of_nat i - Z.of_nat (length D))%Z by lia.
    rewrite (@getZ_neg _ _ _ v) by (auto; lia).
    cbn [obind]. change (nleb v d0) with (Rleb v d0).
    destruct (Rleb v d0) eqn:E.
    - apply Rleb_true in E. exists (S i). repeat split; auto; try lia.
      + f_equal. lia.
      + intros w Hw. apply In_nth with (d := 0%R) in Hw as (n & Hn & <-).
        rewrite firstn_length in Hn.
        assert (Hnth : nth n (firstn (S i) D) 0%R = nth n D 0%R).
        { rewrite <- (firstn_skipn (S i) D) at 2. rewrite app_nth1; auto.
          rewrite firstn_length; lia. }
        rewrite Hnth.
        apply nth_error_nth with (d := 0%R) in En.
        destruct (Nat.eq_dec n i) as [->|Hne]; [lra|].
        assert (nth n D 0 <= nth i D 0)%R by (apply StronglySorted_nth; auto; lia).
        lra.
    - apply Rleb_false in E.
      destruct i as [|i].
      + destruct Hh as (h & t & -> & Hle). simpl in En. injection En as ->. lra.
      + replace (Z.of_nat (S i) - Z.of_nat (length D) - 1)%Z
          with (Z.of_nat (S i) - 1 - Z.of_nat (length D))%Z by lia.
        apply IH; auto; try lia.
        intros w Hw.
        assert (Hsk : skipn (S i) D = v :: skipn (S (S i)) D).
        { clear -En. revert En. generalize (S i). intro n. revert n.
          induction D as [|h D IHD]; intros n En; [destruct n; discriminate|].
          destruct n; simpl in *; [congruence|]. apply IHD; auto. }
        rewrite Hsk in Hw. destruct Hw as [<-|Hw]; auto.
  Qed.

  (** Result of merging two sorted rows with indices. *)
  Theorem merge_row_inds_lmerge : forall (D D_ : list (R * I)),
    StronglySorted (kle fst) D -> StronglySorted (kle fst) D_ ->
    (exists a t b t_, D = a :: t /\ D_ = b :: t_ /\ (fst a <= fst b)%R) ->
    let res := firstn (length D) (lmg D D_) in
    merge_row_inds (map fst D) (map fst D_) (map snd D) (map snd D_)
    = Done (map fst res, map snd res).
  Proof.
    intros D D_ HD HD_ (a & t & b & t_ & ED & ED_ & Hab) res.
    unfold merge_row_inds.
    assert (G0 : getZ (map fst D_) 0 = Done (fst b)) by (rewrite ED_; reflexivity).
    assert (G1 : getZ (map snd D_) 0 = Done (snd b)) by (rewrite ED_; reflexivity).
    rewrite G0, G1. cbn [obind].
    assert (Hs : StronglySorted Rle (map fst D)).
    { clear -HD. induction HD; simpl; constructor; auto.
      rewrite Forall_map. eapply Forall_impl; [|eassumption]. auto. }
    destruct (@scan_back_correct (map fst D) (fst b) (length (map fst D)) (S (length (map fst D))))
      as (i' & Hi' & Hr & Hgt & Hle); auto.
    { rewrite ED. simpl. eauto. }
    { rewrite skipn_all. intros v []. }
    { rewrite ED. simpl. lia. }
    replace (Z.of_nat (length (map fst D)) - 1 - Z.of_nat (length (map fst D)))%Z
      with (-1)%Z in Hi' by lia.
    rewrite Hi'. cbn [obind]. rewrite map_length in *.
    assert (Hpre : lmg D D_ = firstn i' D ++ lmg (skipn i' D) D_).
    { clear Hi' Hgt. rewrite <- (firstn_skipn i' D) at 1.
      assert (Hle' : forall p, In p (firstn i' D) -> (fst p <= fst b)%R).
      { intros p Hp. apply Hle. rewrite firstn_map. apply in_map; auto. }
      revert Hle'. generalize (firstn i' D) as l1. intros l1 Hle'.
      induction l1 as [|x l1 IH]; [reflexivity|].
      rewrite ED_ in *. simpl app. rewrite lmerge_cons.
      assert (Hx : Rleb (fst x) (fst b) = true) by (apply Rleb_true, Hle'; left; auto).
      rewrite Hx. f_equal. apply IH. intros; apply Hle'; right; auto. }
    destruct (Z.eqb_spec (Z.of_nat i' - Z.of_nat (length D)) 0) as [Hz|Hz].
    - assert (i' = length D) by lia. subst i'.
      unfold res. rewrite Hpre, firstn_all.
      rewrite firstn_app, firstn_all, Nat.sub_diag, firstn_O, app_nil_r. reflexivity.
    - destruct (skipn i' D) as [|c bt] eqn:Esk.
      { apply skipn_nil_length in Esk. lia. }
      destruct (skipn_cons_nth _ _ _ _ _ Esk) as (Hn & _ & Hl).
      assert (Hbt : length (skipn i' D) = (length D - i')%nat) by apply skipn_length.
      rewrite Esk in Hbt. simpl in Hbt.
      pose proof (@getZ_neg _ (map fst D) i' (fst c)) as Ga. rewrite map_length in Ga.
      rewrite Ga by (auto using nth_error_map_fst). clear Ga.
      pose proof (@getZ_neg _ (map snd D) i' (snd c)) as Ga. rewrite map_length in Ga.
      rewrite Ga by (auto using nth_error_map_snd). clear Ga.
      cbn [obind].
      pose proof (@fill_inds_correct (length D - i') D D_ (firstn i' D) (skipn i' D) i' 0 c bt D_
                    (Some (fst b)) (snd b)) as F.
      rewrite firstn_skipn in F.
      replace (Z.to_nat (- (Z.of_nat i' - Z.of_nat (length D)))) with (length D - i')%nat by lia.
      replace (- Z.of_nat (length D - i'))%Z with (Z.of_nat i' - Z.of_nat (length D))%Z in F by lia.
      change (Z.of_nat 0) with 0%Z in F.
      rewrite F; auto; try lia.
      + unfold res. rewrite Hpre.
        rewrite firstn_app, firstn_length.
        rewrite (firstn_all2 (n := length D) (firstn i' D)) by (rewrite firstn_length; lia).
        replace (length D - Nat.min i' (length D))%nat with (length D - i')%nat by lia.
        reflexivity.
      + apply skipn_length.
      + rewrite ED_. destruct b. simpl. auto.
  Qed.
End Inds.

(** * The version without indices is the same computation *)
Definition ofst {A B} (x : outcome (A * B)) : outcome A := obind x (fun p => Done (fst p)).

Lemma getZ_self : forall (l : list R) i, getZ l i = getZ l i.
Proof. auto. Qed.

Lemma fill_is_fill_inds : forall fuel (D D_ rd : list R) (ri : list R) j dp dp_ dist dist_ p_,
  length ri = length rd ->
  fill fuel D D_ rd j dp dp_ dist dist_ =
  ofst (fill_inds fuel D D_ D D_ rd ri j dp dp_ dist dist_ dist p_).
Proof.
  induction fuel as [|fuel IH]; intros D D_ rd ri j dp dp_ dist dist_ p_ Hlen; cbn [fill fill_inds].
  - destruct (0 <=? j)%Z; reflexivity.
  - destruct (0 <=? j)%Z; [reflexivity|].
    assert (Hset : forall v w, match setZ rd j v, setZ ri j w with
                        | Done a, Done b => length b = length a
                        | OutOfBounds, OutOfBounds => True | _, _ => False end).
    { intros v w. unfold setZ. rewrite Hlen.
      destruct (_ || _)%bool; auto. rewrite !upd_length; auto. }
    destruct (le_ext dist dist_).
    + specialize (Hset dist dist). destruct (setZ rd j dist), (setZ ri j dist); try easy.
      cbn [obind]. destruct (getZ D (dp + 1)); try easy. cbn [obind]. apply IH; auto.
    + destruct dist_ as [v|]; [|reflexivity].
      specialize (Hset v p_). destruct (setZ rd j v), (setZ ri j p_); try easy.
      cbn [obind]. destruct (dp_ + 1 <? Z.of_nat (length D_))%Z.
      * destruct (getZ D_ (dp_ + 1)); try easy. cbn [obind]. apply IH; auto.
      * apply IH; auto.
Qed.

Lemma merge_row_is_inds : forall (D D_ : list R),
  merge_row D D_ = ofst (merge_row_inds D D_ D D_).
Proof.
  intros D D_. unfold merge_row, merge_row_inds.
  destruct (getZ D_ 0); try easy. cbn [obind].
  destruct (scan_back _ D a (-1)); try easy. cbn [obind].
  destruct (a0 =? 0)%Z; try easy.
  destruct (getZ D a0); try easy. cbn [obind].
  apply fill_is_fill_inds; auto.
Qed.

Lemma map_fst_dup : forall (l : list R), map fst (map (fun x => (x, x)) l) = l.
Proof. intros; rewrite map_map; simpl; apply map_id. Qed.
Lemma map_snd_dup : forall (l : list R), map snd (map (fun x => (x, x)) l) = l.
Proof. intros; rewrite map_map; simpl; apply map_id. Qed.

Lemma sorted_map : forall A B (f : A -> B) (P : A -> A -> Prop) (Q : B -> B -> Prop) l,
  (forall a b, P a b -> Q (f a) (f b)) -> StronglySorted P l -> StronglySorted Q (map f l).
Proof.
  intros A B f P Q l H S; induction S; simpl; constructor; auto.
  rewrite Forall_map. eapply Forall_impl; [|eassumption]; auto.
Qed.

(** Merging sorted rows gives the [k] smallest values of both. *)
Theorem merge_row_kmin : forall (D D_ : list R),
  StronglySorted Rle D -> StronglySorted Rle D_ ->
  (exists a t b t_, D = a :: t /\ D_ = b :: t_ /\ (a <= b)%R) ->
  merge_row D D_ = Done (kmin (length D) (D ++ D_)).
Proof.
  intros D D_ HD HD_ (a & t & b & t_ & ED & ED_ & Hab).
  rewrite merge_row_is_inds.
  set (dup := map (fun x : R => (x, x))).
  pose proof (@merge_row_inds_lmerge R (dup D) (dup D_)) as M.
  unfold dup in M. rewrite !map_fst_dup, !map_snd_dup in M. rewrite M; clear M.
  - cbn [ofst obind fst]. f_equal. rewrite map_length.
    rewrite <- firstn_map.
    set (m := lmerge fst (map (fun x : R => (x, x)) D) (map (fun x : R => (x, x)) D_)).
    assert (Hm : sortR (D ++ D_) = map fst m).
    { apply sortR_unique.
      - eapply sorted_map; [|apply lmerge_sorted].
        + unfold kle; auto.
        + eapply sorted_map; [|exact HD]; auto.
        + eapply sorted_map; [|exact HD_]; auto.
      - rewrite <- (map_fst_dup (D ++ D_)), map_app. apply Permutation_map, lmerge_perm. }
    unfold kmin. rewrite Hm. reflexivity.
  - eapply sorted_map; [|exact HD]; auto.
  - eapply sorted_map; [|exact HD_]; auto.
  - rewrite ED, ED_. simpl. repeat eexists; eauto.
Qed.
