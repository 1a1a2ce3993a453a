(** Proofs about [_collapse_into_groups]. *)
From Coq Require Import List Arith Bool Lia Permutation Sorted.
From Verif Require Import Base Condensed CollapseModel.
Import ListNotations.

Lemma mark_spec : forall js g v x,
  mark g v js x =
  match g x with
  | Some w => Some w
  | None => if existsb (Nat.eqb x) js then Some v else None
  end.
Proof.
  induction js as [|j t IH]; intros g v x; simpl.
  - destruct (g x); auto.
  - destruct (g j) eqn:Ej.
    + rewrite IH. destruct (g x) eqn:Ex; auto.
      destruct (Nat.eqb_spec x j); simpl; auto. congruence.
    + rewrite IH. unfold gset. destruct (Nat.eqb_spec x j); simpl.
      * subst. rewrite Ej. auto.
      * auto.
Qed.

Lemma existsb_filter_seq : forall (p : nat -> bool) n x,
  existsb (Nat.eqb x) (filter p (seq 0 n)) = (x <? n) && p x.
Proof.
  intros p n x. destruct ((x <? n) && p x) eqn:E.
  - apply andb_true_iff in E as [E1 E2]. apply Nat.ltb_lt in E1.
    apply existsb_exists. exists x. rewrite filter_In, in_seq, Nat.eqb_eq. repeat split; auto; lia.
  - destruct (existsb (Nat.eqb x) (filter p (seq 0 n))) eqn:E2; auto.
    apply existsb_exists in E2 as (y & Hy & Hxy). apply Nat.eqb_eq in Hxy. subst y.
    apply filter_In in Hy as [Hs Hp]. apply in_seq in Hs.
    rewrite Hp, andb_true_r in E. apply Nat.ltb_ge in E. lia.
Qed.

(** Invariant of the row loop after rows [0 .. i-1], with the leaders [L]. *)
Record cinv (n : nat) (ov : nat -> nat -> bool) (i : nat) (st : gmap * nat) (L : list nat) : Prop := {
  ci_len : snd st = length L;
  ci_sorted : StronglySorted lt L;
  ci_lt : Forall (fun l => l < i) L;
  ci_lead : forall g, g < length L -> fst st (nth g L 0) = Some g;
  ci_mem : forall j g, fst st j = Some g ->
     g < length L /\ (j = nth g L 0 \/ (nth g L 0 < j < n /\ ov (nth g L 0) j = true));
  ci_capt : forall j g, j < n -> g < length L -> nth g L 0 < j -> ov (nth g L 0) j = true ->
     exists g', fst st j = Some g' /\ g' <= g;
  ci_all : forall j, j < i -> fst st j <> None
}.

Lemma cinv_step : forall n ov i st L, i < n -> cinv n ov i st L ->
  exists L', cinv n ov (S i) (cstep n ov st i) L'.
Proof.
  intros n ov i [g group] L Hi [H1 H2 H3 H4 H5 H6 H7]. simpl in *. subst group.
  unfold cstep. destruct (g i) as [w|] eqn:Ei.
  - exists L. constructor; simpl; auto.
    + eapply Forall_impl; [|exact H3]. simpl; intros; lia.
    + intros j Hj. destruct (Nat.eq_dec j i) as [->|]; [congruence|apply H7; lia].
  - exists (L ++ [i]).
    assert (Hnth1 : forall k, k < length L -> nth k (L ++ [i]) 0 = nth k L 0)
      by (intros; apply app_nth1; auto).
    assert (Hnth2 : nth (length L) (L ++ [i]) 0 = i).
    { rewrite app_nth2, Nat.sub_diag by lia. reflexivity. }
    assert (Hnot : forall k, k < length L -> nth k L 0 <> i).
    { intros k Hk E. specialize (H4 k Hk). rewrite E in H4. congruence. }
    assert (HE : forall x, mark (gset g i (length L)) (length L) (filter (ov i) (seq 0 n)) x =
                 match g x with Some w => Some w | None =>
                   if (x =? i) || ((x <? n) && ov i x) then Some (length L) else None end).
    { intro x. rewrite mark_spec, existsb_filter_seq. unfold gset.
      destruct (Nat.eqb_spec x i) as [->|Hx]; simpl; [rewrite Ei; reflexivity|].
      destruct (g x); reflexivity. }
    constructor; cbn [fst snd].
    + rewrite app_length. simpl. lia.
    + apply StronglySorted_app_iff. repeat split; auto; [repeat constructor|].
      intros a b Ha [<-|[]]. rewrite Forall_forall in H3. apply H3; auto.
    + apply Forall_app; split; [|repeat constructor].
      eapply Forall_impl; [|exact H3]. simpl; intros; lia.
    + intros k Hk. rewrite app_length in Hk. simpl in Hk. rewrite HE.
      destruct (Nat.eq_dec k (length L)) as [->|Hne].
      * rewrite Hnth2, Ei, Nat.eqb_refl. reflexivity.
      * rewrite Hnth1 by lia. rewrite H4 by lia. reflexivity.
    + intros j k Hj. rewrite HE in Hj. rewrite app_length. simpl.
      destruct (g j) as [w|] eqn:Ej.
      * injection Hj as ->. destruct (H5 _ _ Ej) as [Hk Hc]. rewrite Hnth1 by auto. split; auto. lia.
      * destruct ((j =? i) || ((j <? n) && ov i j)) eqn:Eo; [|discriminate].
        injection Hj as <-. split; [lia|]. rewrite Hnth2.
        destruct (Nat.eqb_spec j i); [left; auto|]. simpl in Eo.
        apply andb_true_iff in Eo as [Eo1 Eo2]. apply Nat.ltb_lt in Eo1.
        right. repeat split; auto.
        destruct (Nat.lt_ge_cases j i) as [Hlt|]; [|lia].
        exfalso. eapply H7; eauto.
    + intros j k Hjn Hk Hlt Hov. rewrite app_length in Hk. simpl in Hk. rewrite HE.
      destruct (Nat.eq_dec k (length L)) as [->|Hne].
      * rewrite Hnth2 in *. destruct (g j) as [w|] eqn:Ej.
        -- exists w. split; auto. destruct (H5 _ _ Ej). lia.
        -- exists (length L). split; auto.
           rewrite Hov. assert ((j <? n) = true) as -> by (apply Nat.ltb_lt; auto).
           rewrite orb_true_r. reflexivity.
      * rewrite Hnth1 in * by lia. destruct (H6 j k) as (g' & Hg' & Hle); auto; [lia|].
        rewrite Hg'. eauto.
    + intros j Hj. rewrite HE. destruct (Nat.eq_dec j i) as [->|].
      * rewrite Ei, Nat.eqb_refl. discriminate.
      * destruct (g j) eqn:Ej; [discriminate|]. exfalso. apply (H7 j); auto. lia.
Qed.

Lemma cinv_fold : forall n ov i, i <= n ->
  exists L, cinv n ov i (fold_left (cstep n ov) (seq 0 i) (fun _ => None, 0)) L.
Proof.
  intros n ov; induction i as [|i IH]; intros Hi.
  - exists []. simpl. constructor; simpl; auto; try (intros; lia); try discriminate.
    constructor.
  - destruct IH as (L & HL); [lia|].
    rewrite seq_S, fold_left_app. simpl. apply cinv_step with (L := L); auto; lia.
Qed.

(** Building the dict of groups. *)
Definition members (g : gmap) (r k : nat) : list nat :=
  filter (fun x => match g x with Some v => v =? k | None => false end) (seq 0 r).

Lemma dict_append_existing : forall G (f : nat -> list nat) k r s, k < G ->
  dict_append (map (fun x => (x, f x)) (seq s G)) (s + k) r =
  map (fun x => (x, if x =? s + k then f x ++ [r] else f x)) (seq s G).
Proof.
  induction G as [|G IH]; intros f k r s Hk; [lia|]. simpl.
  destruct (Nat.eqb_spec s (s + k)) as [E|E].
  - f_equal. apply map_ext_in. intros x Hx. apply in_seq in Hx.
    destruct (Nat.eqb_spec x (s + k)); auto. lia.
  - f_equal. destruct k; [lia|]. replace (s + S k) with (S s + k) by lia.
    rewrite IH by lia. reflexivity.
Qed.

Lemma dict_append_new : forall G (f : nat -> list nat) k r s, s + G <= k ->
  dict_append (map (fun x => (x, f x)) (seq s G)) k r =
  map (fun x => (x, f x)) (seq s G) ++ [(k, [r])].
Proof.
  induction G as [|G IH]; intros f k r s Hk; [reflexivity|]. simpl.
  destruct (Nat.eqb_spec s k) as [E|E]; [lia|]. rewrite IH by lia. reflexivity.
Qed.

Lemma members_S : forall g r k,
  members g (S r) k = members g r k ++ (match g r with Some v => if v =? k then [r] else [] | None => [] end).
Proof.
  intros. unfold members. rewrite seq_S, filter_app. simpl. f_equal.
  destruct (g r); auto.
Qed.

Lemma build_fold : forall n ov st L, cinv n ov n st L -> forall r, r <= n ->
  exists G, G <= length L /\ (forall k, k < length L -> nth k L 0 < r <-> k < G) /\
  fold_left (fun d r => match fst st r with Some k => dict_append d k r | None => d end)
    (seq 0 r) [] = map (fun k => (k, members (fst st) r k)) (seq 0 G).
Proof.
  intros n ov [g group] L [H1 H2 H3 H4 H5 H6 H7]. simpl in *.
  induction r as [|r IH]; intros Hr.
  - exists 0. split; [lia|]. split; [intros; split; lia|]. reflexivity.
  - destruct IH as (G & HG & Hiff & Hf); [lia|].
    rewrite seq_S, fold_left_app, Hf. cbn [fold_left]. simpl (0 + r).
    destruct (g r) as [k|] eqn:Er; [|exfalso; apply (H7 r); auto].
    destruct (H5 _ _ Er) as [Hk Hcase].
    destruct (Nat.lt_ge_cases k G) as [HkG|HkG].
    + exists G. split; auto. split.
      { intros k' Hk'. rewrite <- Hiff by auto. split; [|lia].
        intros Hlt. destruct (Nat.eq_dec (nth k' L 0) r) as [E|]; [|lia].
        exfalso. pose proof (H4 _ Hk') as X. rewrite E in X.
        assert (k' = k) by congruence. subst k'.
        apply Hiff in HkG; auto. lia. }
      pose proof (dict_append_existing G (members g r) k r 0 HkG) as E. simpl in E. rewrite E.
      apply map_ext. intros x. f_equal. rewrite members_S, Er, Nat.eqb_sym.
      destruct (k =? x); auto. rewrite app_nil_r; auto.
    + assert (Hlead : r = nth k L 0).
      { destruct Hcase as [|[Hlt _]]; auto. apply Hiff in Hk. lia. }
      assert (HkG' : k = G).
      { destruct (Nat.eq_dec k G); auto. exfalso.
        assert (GL : G < length L) by lia.
        assert (nth G L 0 < nth k L 0) by (apply StronglySorted_nth; auto; lia).
        assert (G < G); [|lia]. apply Hiff; auto. lia. }
      subst k. exists (S G). split; [lia|]. split.
      { intros k' Hk'. destruct (Nat.lt_trichotomy k' G) as [Hl|[->|Hl]].
        - assert (nth k' L 0 < r) by (apply Hiff; auto). lia.
        - lia.
        - assert (nth G L 0 < nth k' L 0) by (apply StronglySorted_nth; auto; lia). lia. }
      rewrite dict_append_new by lia. rewrite seq_S, map_app. simpl. f_equal.
      * apply map_ext_in. intros x Hx. apply in_seq in Hx. f_equal.
        rewrite members_S, Er. destruct (Nat.eqb_spec G x); [lia|]. rewrite app_nil_r; auto.
      * rewrite members_S, Er, Nat.eqb_refl.
        assert (members g r G = []) as ->; auto.
        unfold members.
        destruct (filter _ (seq 0 r)) as [|x l] eqn:Ef; auto.
        exfalso. assert (Hin : In x (x :: l)) by (left; auto). rewrite <- Ef in Hin.
        apply filter_In in Hin as [Hs Hx]. apply in_seq in Hs.
        destruct (g x) as [v|] eqn:Ex; [|discriminate]. apply Nat.eqb_eq in Hx. subst v.
        destruct (H5 _ _ Ex) as [_ Hc]. lia.
Qed.

Lemma build_groups_eq : forall n ov st L, cinv n ov n st L ->
  build_groups n (fst st) = map (members (fst st) n) (seq 0 (length L)).
Proof.
  intros n ov st L H. destruct (build_fold _ _ _ _ H n (le_n n)) as (G & HG & Hiff & Hf).
  unfold build_groups. rewrite Hf, map_map. simpl.
  replace (length L) with G; auto.
  destruct (Nat.eq_dec G (length L)); auto.
  assert (GL : G < length L) by lia. exfalso.
  assert (G < G); [|lia]. apply Hiff; auto.
  destruct H as [_ _ H3 _ _ _ _]. rewrite Forall_forall in H3. apply H3, nth_In; auto.
Qed.

Lemma members_sorted : forall g n k, StronglySorted lt (members g n k).
Proof.
  intros g n k. unfold members. generalize 0 as s. revert n.
  induction n as [|n IH]; intros s; simpl; [constructor|].
  destruct (match g s with Some v => v =? k | None => false end); auto.
  constructor; auto. apply Forall_forall. intros x Hx.
  apply filter_In in Hx as [Hx _]. apply in_seq in Hx. lia.
Qed.

Lemma members_In : forall g n k x, In x (members g n k) <-> x < n /\ g x = Some k.
Proof.
  intros. unfold members. rewrite filter_In, in_seq. split.
  - intros [H1 H2]. split; [lia|]. destruct (g x); [|discriminate].
    apply Nat.eqb_eq in H2. congruence.
  - intros [H1 ->]. split; [lia|]. apply Nat.eqb_refl.
Qed.

(** Group numbers partition the rows. *)
Lemma concat_members_perm : forall g n G,
  (forall x, x < n -> exists k, g x = Some k /\ k < G) ->
  Permutation (concat (map (members g n) (seq 0 G))) (seq 0 n).
Proof.
  intros g n G H. apply NoDup_Permutation.
  - assert (Hgen : forall s, NoDup (concat (map (members g n) (seq s G)))).
    { clear H. induction G as [|G IH]; intros s; simpl; [constructor|].
      apply NoDup_app_intro; auto.
      - apply NoDup_filter, seq_NoDup.
      - intros x Hx Hc. apply members_In in Hx as [_ Hx].
        apply in_concat in Hc as (l & Hl & Hxl). apply in_map_iff in Hl as (k & <- & Hk).
        apply members_In in Hxl as [_ Hxl]. apply in_seq in Hk.
        rewrite Hx in Hxl. injection Hxl as Hxl. lia. }
    apply Hgen.
  - apply seq_NoDup.
  - intros x. rewrite in_concat, in_seq. split.
    + intros (l & Hl & Hx). apply in_map_iff in Hl as (k & <- & Hk).
      apply members_In in Hx as [Hx _]. lia.
    + intros Hx. destruct (H x) as (k & Hk & HG); [lia|].
      exists (members g n k). split; [apply in_map, in_seq; lia|].
      apply members_In; split; auto. lia.
Qed.

(** * Specification: partition around leaders *)
(** What a grouping of rows [0 .. n-1] with overlap relation [ov] should be:
    a partition into increasing non-empty lists, in order of their first elements
    (leaders); members overlap their leader; a leader overlaps no member of a later
    group. *)
Record leader_partition (n : nat) (ov : nat -> nat -> bool) (groups : list (list nat)) : Prop := {
  lp_perm : Permutation (concat groups) (seq 0 n);
  lp_nonempty : Forall (fun g => g <> []) groups;
  lp_increasing : Forall (StronglySorted lt) groups;
  lp_heads : StronglySorted lt (map (hd 0) groups);
  lp_member : forall g j, In g groups -> In j g -> j <> hd 0 g -> ov (hd 0 g) j = true;
  lp_separate : forall i1 i2 j, i1 < i2 < length groups ->
      In j (nth i2 groups []) -> ov (hd 0 (nth i1 groups [])) j = false
}.

Lemma hd_members : forall n ov st L, cinv n ov n st L -> forall k, k < length L ->
  exists t, members (fst st) n k = nth k L 0 :: t.
Proof.
  intros n ov [g group] L [H1 H2 H3 H4 H5 H6 H7] k Hk. simpl in *.
  assert (Hin : In (nth k L 0) (members g n k)).
  { apply members_In. split; auto. rewrite Forall_forall in H3. apply H3, nth_In; auto. }
  pose proof (members_sorted g n k) as Hs.
  destruct (members g n k) as [|h t] eqn:Em; [destruct Hin|].
  exists t. f_equal. destruct Hin as [|Hin]; auto.
  inversion Hs as [|? ? _ Hf]; subst. rewrite Forall_forall in Hf. apply Hf in Hin.
  assert (Hh : In h (members g n k)) by (rewrite Em; left; auto).
  apply members_In in Hh as [_ Hh]. destruct (H5 _ _ Hh) as [_ Hc]. lia.
Qed.

Theorem groups_leader_partition : forall n ov,
  leader_partition n ov (build_groups n (fst (group_nums n ov))).
Proof.
  intros n ov. destruct (cinv_fold n ov n (le_n n)) as (L & HL).
  fold (group_nums n ov) in HL. rewrite (build_groups_eq _ _ _ _ HL).
  pose proof (hd_members _ _ _ _ HL) as Hhd.
  destruct (group_nums n ov) as [g group]. destruct HL as [H1 H2 H3 H4 H5 H6 H7]. simpl in *.
  constructor.
  - apply concat_members_perm. intros x Hx. destruct (g x) as [k|] eqn:E.
    + exists k. split; auto. apply (H5 _ _ E).
    + exfalso. apply (H7 x); auto.
  - rewrite Forall_map. apply Forall_forall. intros k Hk. apply in_seq in Hk.
    destruct (Hhd k) as (t & ->); [lia|discriminate].
  - rewrite Forall_map. apply Forall_forall. intros k Hk. apply members_sorted.
  - rewrite map_map.
    replace (map (fun x => hd 0 (members g n x)) (seq 0 (length L))) with L; auto.
    apply nth_ext with (d := 0) (d' := 0).
    + rewrite map_length, seq_length; auto.
    + intros k Hk.
      rewrite (nth_map_seq (fun x => hd 0 (members g n x)) 0 Hk). destruct (Hhd k Hk) as (t & ->). reflexivity.
  - intros l j Hl Hj Hne. apply in_map_iff in Hl as (k & <- & Hk). apply in_seq in Hk.
    destruct (Hhd k) as (t & E); [lia|]. rewrite E in Hne. simpl in Hne.
    apply members_In in Hj as [Hjn Hj]. destruct (H5 _ _ Hj) as [_ [|[_ Ho]]]; [congruence|].
    rewrite E. simpl. auto.
  - rewrite map_length, seq_length. intros i1 i2 j Hi Hj.
    assert (Hnth : forall i, i < length L ->
              nth i (map (members g n) (seq 0 (length L))) [] = members g n i).
    { intros i Hi'. apply nth_map_seq; auto. }
    rewrite !Hnth in * by lia. destruct (Hhd i1) as (t & ->); [lia|]. simpl.
    apply members_In in Hj as [Hjn Hj].
    destruct (ov (nth i1 L 0) j) eqn:E; auto. exfalso.
    assert (nth i1 L 0 < nth i2 L 0) by (apply StronglySorted_nth; auto; lia).
    destruct (H5 _ _ Hj) as [_ Hc].
    destruct (H6 j i1) as (g' & Hg' & Hle); auto; try lia.
    rewrite Hj in Hg'. injection Hg' as <-. lia.
Qed.
