(** Proofs about the lattice caches: every history refines a cache-free machine. *)
From Coq Require Import List ZArith Arith Bool Lia.
From Verif Require Import Base Spec Outcome LatticeModel LatticeProofs LatticeProofs2 CacheModel.
Import ListNotations.
Open Scope outcome_scope.

(** * Lists *)
Lemma upd_nth_error_eq : forall A (l : list A) i v, i < length l -> nth_error (upd l i v) i = Some v.
Proof. induction l; intros [|i] v H; simpl in *; try lia; auto. apply IHl; lia. Qed.

Lemma upd_nth_error_neq : forall A (l : list A) i j v, i <> j ->
  nth_error (upd l i v) j = nth_error l j.
Proof. induction l; intros [|i] [|j] v H; simpl in *; try lia; auto. Qed.

Lemma upd_len : forall A (l : list A) i v, length (upd l i v) = length l.
Proof. induction l; intros [|i] v; simpl; auto. Qed.

Lemma upd_upd : forall A (l : list A) i v w, upd (upd l i v) i w = upd l i w.
Proof. induction l; intros [|i] v w; simpl; auto. f_equal; auto. Qed.

Lemma upd_app_last : forall A (l : list A) c v, upd (l ++ [c]) (length l) v = l ++ [v].
Proof. induction l; intros; simpl; auto. f_equal; auto. Qed.

Lemma nth_error_app_last : forall A (l : list A) c, nth_error (l ++ [c]) (length l) = Some c.
Proof. induction l; simpl; auto. Qed.

Lemma nth_error_app_old : forall A (l t : list A) i c, nth_error l i = Some c ->
  nth_error (l ++ t) i = Some c.
Proof. intros. rewrite nth_error_app1; auto. apply nth_error_Some. congruence. Qed.

Lemma nth_error_lt : forall A (l : list A) i c, nth_error l i = Some c -> i < length l.
Proof. intros. apply nth_error_Some. congruence. Qed.

(** * Layers *)
Definition layer (d i : nat) : layer_t := match gen_item d i with Done l => l | _ => [] end.
Definition layers (d n : nat) : list layer_t := map (layer d) (seq 0 n).
(** Points in layers 0..i. *)
Definition tot (d i : nat) : nat := length (concat (layers d (S i))).

Lemma layer_spec : forall d i, 1 <= d ->
  gen_item d i = Done (layer d i) /\ NoDup (layer d i) /\
  forall v, In v (layer d i) <-> in_shell d i v.
Proof.
  intros d i Hd. unfold layer. destruct (gen_item_correct d i Hd) as (l & -> & H). auto.
Qed.

Lemma layer_nonempty : forall d i, 1 <= d -> 1 <= length (layer d i).
Proof.
  intros d i Hd. destruct (layer_spec d i Hd) as (_ & _ & H).
  destruct d as [|d]; [lia|].
  specialize (H (Z.of_nat i :: repeat 0%Z d)).
  assert (HZ : zsq (repeat 0%Z d) = 0%Z).
  { clear. induction d; simpl; auto. }
  assert (Hin : In (Z.of_nat i :: repeat 0%Z d) (layer (S d) i)).
  { apply H. unfold in_shell. simpl zsq. rewrite HZ. simpl length. rewrite repeat_length.
    split; [auto|]. split; [lia|]. destruct i; [auto|right]. nia. }
  destruct (layer (S d) i); [destruct Hin|simpl; lia].
Qed.

Lemma layers_S : forall d n, layers d (S n) = layers d n ++ [layer d n].
Proof. intros. unfold layers. rewrite seq_S, map_app. reflexivity. Qed.

Lemma layers_length : forall d n, length (layers d n) = n.
Proof. intros. unfold layers. rewrite map_length, seq_length. auto. Qed.

Lemma tot_S : forall d i, tot d (S i) = tot d i + length (layer d (S i)).
Proof.
  intros. unfold tot. rewrite (layers_S d (S i)), concat_app, app_length. simpl.
  rewrite app_nil_r. auto.
Qed.

Lemma layer_0_length : forall d, 1 <= d -> length (layer d 0) = 1.
Proof.
  intros d Hd. pose proof (layer_nonempty d 0 Hd). destruct (layer_spec d 0 Hd) as (_ & Hn & Hin).
  destruct (layer d 0) as [|u [|v t]]; simpl in *; try lia.
  exfalso. assert (forall w, In w (u :: v :: t) -> w = repeat 0%Z d).
  { intros w Hw. apply Hin in Hw as (Hl & Hz & _). simpl in Hz.
    clear - Hl Hz. revert w Hl Hz. induction d; intros [|a w] Hl Hz; simpl in *; try discriminate; auto.
    assert (0 <= zsq w)%Z by (clear; induction w; simpl; nia).
    f_equal; [nia|]. apply IHd; [lia|nia]. }
  inversion Hn as [|? ? Hnin _]; subst. apply Hnin. left. rewrite (H0 u), (H0 v); simpl; auto.
Qed.

Lemma tot_0 : forall d, 1 <= d -> tot d 0 = 1.
Proof.
  intros. unfold tot, layers. simpl. rewrite app_nil_r. apply layer_0_length; auto.
Qed.

Lemma accumulate_layers : forall d n s acc,
  accumulate acc (map (@length _) (map (layer d) (seq s n))) =
  map (fun i => acc + length (concat (map (layer d) (seq s (S (i - s)))))) (seq s n).
Proof.
  induction n as [|n IH]; intros s acc; simpl; auto. f_equal.
  - rewrite Nat.sub_diag. simpl. rewrite app_nil_r. auto.
  - rewrite IH. apply map_ext_in. intros i Hi. apply in_seq in Hi.
    replace (i - s) with (S (i - S s)) by lia. simpl. rewrite !app_length. lia.
Qed.

Lemma accumulate_tot : forall d n,
  accumulate 0 (map (@length _) (layers d n)) = map (tot d) (seq 0 n).
Proof.
  intros. unfold layers. rewrite accumulate_layers. apply map_ext. intros i.
  rewrite Nat.sub_0_r. reflexivity.
Qed.

(** [stop d m k i]: layer [i] is the first at which the loop stops. *)
Definition stop (d m k i : nat) : Prop :=
  k < tot d i * m /\ forall j, j < i -> tot d j * m <= k.

Lemma stop_unique : forall d m k i j, stop d m k i -> stop d m k j -> i = j.
Proof.
  intros d m k i j [H1 H2] [H3 H4].
  destruct (Nat.lt_trichotomy i j) as [H|[H|H]]; auto.
  - specialize (H4 i H). lia.
  - specialize (H2 j H). lia.
Qed.

Lemma batch_loop_correct : forall d m k, 1 <= d -> 1 <= m -> forall fuel h l i,
  nth_error h l = Some (d, S i) -> k < fuel + tot d i ->
  (forall j, j < i -> tot d j * m <= k) ->
  exists i', stop d m k i' /\ 
    batch_loop fuel h l m k (tot d i) (layers d (S i)) =
      Done (layers d (S i'), upd h l (d, S i')).
Proof.
  intros d m k Hd Hm. induction fuel as [|fuel IH]; intros h l i Hl Hf Hj.
  - simpl. destruct (Nat.leb_spec (tot d i * m) k); [nia|].
    exists i. split; [split; auto|]. f_equal. f_equal.
    clear - Hl. revert l Hl; induction h as [|c h IH]; intros [|l] Hl; simpl in *; try discriminate.
    + congruence.
    + f_equal; auto.
  - cbn [batch_loop]. destruct (Nat.leb_spec (tot d i * m) k).
    + unfold heap_next. rewrite Hl. destruct (layer_spec d (S i) Hd) as (-> & _).
      cbn [obind]. rewrite <- tot_S, <- layers_S.
      destruct (IH (upd h l (d, S (S i))) l (S i)) as (i' & Hs & E).
      * apply upd_nth_error_eq. eapply nth_error_lt; eauto.
      * rewrite tot_S. pose proof (layer_nonempty d (S i) Hd). lia.
      * intros j Hlt. destruct (Nat.eq_dec j i) as [->|]; auto. apply Hj. lia.
      * exists i'. split; auto. rewrite E, upd_upd. reflexivity.
    + exists i. split; [split; auto|]. f_equal. f_equal.
      clear - Hl. revert l Hl; induction h as [|c h IH]; intros [|l] Hl; simpl in *; try discriminate.
      * congruence.
      * f_equal; auto.
Qed.

Lemma stop_exists : forall d m k, 1 <= d -> 1 <= m -> exists i, stop d m k i.
Proof.
  intros d m k Hd Hm.
  destruct (batch_loop_correct d m k Hd Hm (S k) [(d, 1)] 0 0) as (i & Hi & _); auto.
  - lia.
  - intros; lia.
  - exists i; auto.
Qed.

Lemma count_layers_spec : forall d m k n s, (forall j, j < s -> tot d j * m <= k) ->
  let c := count_layers (map (tot d) (seq s n)) m k in
  c <= n /\ (c < n -> stop d m k (s + c)) /\ (forall j, j < s + c -> tot d j * m <= k).
Proof.
  induction n as [|n IH]; intros s Hs; cbn [seq map count_layers].
  - split; [lia|]. split; [lia|]. intros j Hj. apply Hs. lia.
  - destruct (Nat.ltb_spec k (tot d s * m)).
    + split; [lia|]. rewrite Nat.add_0_r. split; [intros _; split; auto|]. auto.
    + assert (Hs' : forall j, j < S s -> tot d j * m <= k).
      { intros j Hj. destruct (Nat.eq_dec j s) as [->|]; auto. apply Hs; lia. }
      destruct (IH (S s) Hs') as (H1 & H2 & H3).
      set (c := count_layers (map (tot d) (seq (S s) n)) m k) in *.
      replace (s + S c) with (S s + c) by lia.
      split; [lia|]. split; auto. intros; apply H2; lia.
Qed.

(** * Invariant *)
Record cinv (st : cstate) (hs : list nat) : Prop := {
  i_gens : forall d l, gens st d = Some l ->
     nth_error (heap st) l = Some (d, 0) /\ ~ In l hs;
  i_npts : forall d np, npts st d = Some np -> np = map (tot d) (seq 0 (length np));
  i_batches : forall d n pts l, batches st d n = Some (pts, l) ->
     pts = concat (layers d n) /\ nth_error (heap st) l = Some (d, n) /\ ~ In l hs /\
     exists np, npts st d = Some np /\ n <= length np
}.

(** The abstract handles: what each iterator given out is. *)
Definition handles_ok (st : cstate) (hs : list nat) (ah : list (nat * nat)) : Prop :=
  NoDup hs /\ Forall2 (fun l c => nth_error (heap st) l = Some c) hs ah.

(** Heap extension: old cursors unchanged. *)
Definition hext (h h' : list (nat * nat)) : Prop :=
  forall l c, nth_error h l = Some c -> nth_error h' l = Some c.

Lemma hext_refl : forall h, hext h h. Proof. red; auto. Qed.
Lemma hext_app : forall h t, hext h (h ++ t).
Proof. intros h t l c H. apply nth_error_app_old; auto. Qed.
Lemma hext_trans : forall a b c, hext a b -> hext b c -> hext a c.
Proof. red; auto. Qed.
Lemma hext_upd : forall h h' l v, hext h h' -> length h <= l -> hext h (upd h' l v).
Proof.
  intros h h' l v H Hl i c Hi. rewrite upd_nth_error_neq; auto.
  apply nth_error_lt in Hi. lia.
Qed.

Lemma handles_hext : forall st st' hs ah, hext (heap st) (heap st') ->
  handles_ok st hs ah -> handles_ok st' hs ah.
Proof.
  intros st st' hs ah Hx [H1 H2]. split; auto.
  clear H1. induction H2; constructor; auto.
Qed.

Lemma handles_fresh : forall st hs ah, handles_ok st hs ah -> forall l, length (heap st) <= l -> ~ In l hs.
Proof.
  intros st hs ah [_ H] l Hl Hin.
  induction H; simpl in *; auto. destruct Hin as [->|]; auto.
  apply nth_error_lt in H. lia.
Qed.

Lemma handles_add : forall st st' hs ah l c, handles_ok st hs ah ->
  hext (heap st) (heap st') -> length (heap st) <= l -> nth_error (heap st') l = Some c ->
  handles_ok st' (hs ++ [l]) (ah ++ [c]).
Proof.
  intros st st' hs ah l c H Hx Hl Hc. pose proof (handles_fresh st hs ah H l Hl) as Hf.
  destruct (handles_hext st st' hs ah Hx H) as [H1 H2]. split.
  - apply NoDup_app_intro; auto.
    + constructor; [intros []|constructor].
    + intros x Hx1 [<-|[]]. auto.
  - apply Forall2_app; auto.
Qed.

Lemma memo_gen_correct : forall st hs ah dims, cinv st hs -> handles_ok st hs ah ->
  exists r st', memo_gen st dims = Done (r, st') /\ length (heap st) <= r /\
    hext (heap st) (heap st') /\ nth_error (heap st') r = Some (dims, 0) /\
    length (heap st') = S r /\
    cinv st' hs /\ npts st' = npts st /\ batches st' = batches st /\
    (forall d l, gens st' d = Some l -> l <> r).
Proof.
  intros st hs ah dims Hi Hh. unfold memo_gen.
  destruct (gens st dims) as [l|] eqn:E.
  - rewrite E. destruct (i_gens st hs Hi dims l E) as [Hl Hn].
    unfold heap_tee. rewrite Hl. cbn [obind]. eexists _, _. split; [reflexivity|]. simpl.
    split; [lia|]. split; [apply hext_app|]. split; [apply nth_error_app_last|].
    split; [rewrite app_length; simpl; lia|].
    split; [|split; [reflexivity|split; [reflexivity|]]].
    + destruct Hi as [A B C]. constructor; simpl; auto.
      * intros d l' Hl'. destruct (A d l' Hl'). split; auto. apply nth_error_app_old; auto.
      * intros d n pts l' Hl'. destruct (C d n pts l' Hl') as (? & ? & ? & ?).
        repeat split; auto. apply nth_error_app_old; auto.
    + intros d l' Hl' ->. destruct (i_gens st hs Hi d _ Hl') as [Hq _]. apply nth_error_lt in Hq. lia.
  - simpl gens. unfold fset at 1. rewrite Nat.eqb_refl. unfold heap_tee. simpl heap.
    rewrite nth_error_app_last. cbn [obind]. eexists _, _. split; [reflexivity|]. simpl.
    split; [rewrite app_length; simpl; lia|].
    split; [eapply hext_trans; apply hext_app|]. split; [apply nth_error_app_last|].
    split; [rewrite (app_length (heap st ++ _)); simpl; lia|].
    split; [|split; [reflexivity|split; [reflexivity|]]].
    + destruct Hi as [A B C]. constructor; simpl; auto.
      * intros d l' Hl'. unfold fset in Hl'. destruct (Nat.eqb_spec d dims) as [->|].
        -- injection Hl' as <-. split.
           ++ apply nth_error_app_old, nth_error_app_last.
           ++ eapply handles_fresh; eauto.
        -- destruct (A d l' Hl'). split; auto. apply nth_error_app_old, nth_error_app_old; auto.
      * intros d n pts l' Hl'. destruct (C d n pts l' Hl') as (? & ? & ? & ?).
        repeat split; auto. apply nth_error_app_old, nth_error_app_old; auto.
    + intros d l' Hl' Er. subst l'. unfold fset in Hl'. destruct (d =? dims).
      * injection Hl' as Hl'. rewrite app_length in Hl'. simpl in Hl'. lia.
      * destruct (i_gens st hs Hi d _ Hl') as [Hq _]. apply nth_error_lt in Hq.
        rewrite app_length in Hq. simpl in Hq. lia.
Qed.

Lemma nth_error_same : forall A (h : list A) l v, nth_error h l = Some v -> upd h l v = h.
Proof.
  induction h as [|c h IH]; intros [|l] v Hl; simpl in *; try discriminate; auto.
  - congruence.
  - f_equal; auto.
Qed.

Lemma batches_func_correct : forall st hs ah dims m k i, 1 <= dims -> 1 <= m ->
  stop dims m k i -> cinv st hs -> handles_ok st hs ah ->
  exists g st', batches_func st dims m k = Done (layers dims (i + 2), g, st') /\
    length (heap st) <= g /\ hext (heap st) (heap st') /\
    nth_error (heap st') g = Some (dims, i + 2) /\
    length (heap st') = S g /\
    cinv st' hs /\ npts st' = npts st /\ batches st' = batches st.
Proof.
  intros st hs ah dims m k i Hd Hm Hst Hi Hh.
  destruct (memo_gen_correct st hs ah dims Hi Hh)
    as (g & st1 & E1 & Hg & Hx & Hn & Hlen & Hi1 & Enp & Eba & Hgen).
  unfold batches_func. rewrite E1. cbn [obind]. unfold heap_next at 1. rewrite Hn.
  destruct (layer_spec dims 0 Hd) as (-> & _). cbn [obind].
  destruct (batch_loop_correct dims m k Hd Hm (S k) (upd (heap st1) g (dims, 1)) g 0) as (i' & Hs' & E2).
  - apply upd_nth_error_eq. lia.
  - rewrite tot_0 by auto. lia.
  - intros; lia.
  - rewrite tot_0 in E2 by auto. change (layers dims 1) with [layer dims 0] in E2.
    rewrite E2. cbn [obind]. rewrite upd_upd. unfold heap_next.
    rewrite upd_nth_error_eq by lia.
    destruct (layer_spec dims (S i') Hd) as (-> & _). cbn [obind]. rewrite upd_upd.
    rewrite (stop_unique dims m k i' i) by auto. rewrite <- layers_S.
    replace (S (S i)) with (i + 2) by lia.
    eexists _, _. split; [reflexivity|]. cbn [heap gens npts batches].
    split; auto. split; [apply hext_upd; auto|].
    split; [apply upd_nth_error_eq; lia|]. split; [rewrite upd_len; auto|].
    split; [|auto].
    destruct Hi1 as [A B C]. constructor; cbn [heap gens npts batches]; auto.
    + intros d l Hl. destruct (A d l Hl). split; auto.
      rewrite upd_nth_error_neq; auto. intros ->. eapply Hgen; eauto.
    + intros d n pts l Hl. destruct (C d n pts l Hl) as (? & ? & ? & ?).
      repeat split; auto. rewrite upd_nth_error_neq; auto. intros <-.
      rewrite Eba in Hl. destruct (i_batches st hs Hi _ _ _ _ Hl) as (_ & Hq & _).
      apply nth_error_lt in Hq. lia.
Qed.

Lemma request_correct : forall st hs ah dims m k i, 1 <= dims -> 1 <= m ->
  stop dims m k i -> cinv st hs -> handles_ok st hs ah ->
  exists r st', request st dims m k = Done (concat (layers dims (i + 2)), r, st') /\
    length (heap st) <= r /\ hext (heap st) (heap st') /\
    nth_error (heap st') r = Some (dims, i + 2) /\ cinv st' (hs ++ [r]).
Proof.
  intros st hs ah dims m k i Hd Hm Hst Hi Hh. unfold request.
  set (np := match npts st dims with Some l => l | None => [] end).
  set (st0 := {| heap := heap st; gens := gens st; npts := fset (npts st) dims (Some np);
                 batches := batches st |}).
  set (nl := 1 + count_layers np m k + 1).
  assert (Hnp : np = map (tot dims) (seq 0 (length np))).
  { unfold np. destruct (npts st dims) as [l|] eqn:E; [apply (i_npts st hs Hi _ _ E)|reflexivity]. }
  assert (Hi0 : cinv st0 hs).
  { destruct Hi as [A B C]. constructor; cbn [heap gens npts batches st0].
    - exact A.
    - intros d n. unfold fset. destruct (Nat.eqb_spec d dims) as [->|]; auto.
      intros Hs; injection Hs as <-; auto.
    - intros d n pts l Hl. destruct (C d n pts l Hl) as (? & ? & ? & (np' & E & ?)).
      repeat split; auto. unfold fset. destruct (Nat.eqb_spec d dims) as [->|]; eauto.
      exists np. split; auto. unfold np. rewrite E. auto. }
  assert (Hh0 : handles_ok st0 hs ah) by exact Hh.
  destruct (count_layers_spec dims m k (length np) 0) as (Hc1 & Hc2 & Hc3); [intros; lia|].
  rewrite <- Hnp in Hc1, Hc2, Hc3. simpl in Hc2, Hc3.
  set (mid := match batches st0 dims nl with
     | Some _ => Done (nl, st0) | None => _ end).
  assert (Hmid : exists st2 g, mid = Done (i + 2, st2) /\ 
     batches st2 dims (i + 2) = Some (concat (layers dims (i + 2)), g) /\
     nth_error (heap st2) g = Some (dims, i + 2) /\
     length (heap st) <= length (heap st2) /\
     hext (heap st) (heap st2) /\ cinv st2 hs).
  { unfold mid. destruct (batches st0 dims nl) as [[pts g]|] eqn:Eb.
    - destruct (i_batches st0 hs Hi0 _ _ _ _ Eb) as (-> & Hq & Hnin & (np' & Enp & Hle)).
      cbn [npts st0] in Enp. unfold fset in Enp. rewrite Nat.eqb_refl in Enp. injection Enp as <-.
      assert (Hii : count_layers np m k = i).
      { apply (stop_unique dims m k); auto. apply Hc2. unfold nl in Hle. lia. }
      assert (nl = i + 2) by (unfold nl; lia). rewrite H in *.
      exists st0, g. repeat (split; [solve [auto]|]). split; [apply hext_refl|auto].
    - destruct (batches_func_correct st0 hs ah dims m k i Hd Hm Hst Hi0 Hh0)
        as (g & st1 & E & Hg & Hx & Hng & Hlen & Hi1 & Enp & Eba).
      rewrite E. cbn [obind]. rewrite layers_length.
      eexists _, g. split; [reflexivity|]. cbn [heap gens npts batches].
      split. { unfold fset. rewrite !Nat.eqb_refl. reflexivity. }
      split; auto. split. { cbn [heap st0] in Hg. lia. } split; auto.
      assert (Hgh : ~ In g hs).
      { eapply handles_fresh; [exact Hh0|auto]. }
      assert (Hnp' : exists np', (if length np <? i + 2
           then accumulate 0 (map (length (A:=list Z)) (layers dims (i + 2))) else np) = np' /\
           np' = map (tot dims) (seq 0 (length np')) /\ length np <= length np' /\ i + 2 <= length np').
      { eexists. split; [reflexivity|]. rewrite accumulate_tot.
        destruct (Nat.ltb_spec (length np) (i + 2)).
        - rewrite map_length, seq_length. split; auto. lia.
        - split; auto. }
      destruct Hnp' as (np' & -> & Hnp1 & Hnp2 & Hnp3).
      destruct Hi1 as [A B C]. constructor; cbn [heap gens npts batches]; auto.
      + intros d n. unfold fset. destruct (Nat.eqb_spec d dims) as [->|]; auto.
        intros Hs. injection Hs as <-. auto.
      + intros d n pts l. unfold fset at 1. destruct (Nat.eqb_spec d dims) as [->|Hne].
        * unfold fset at 1. destruct (Nat.eqb_spec n (i + 2)) as [->|].
          -- intros Hs; injection Hs as <- <-. repeat split; auto.
             exists np'. unfold fset. rewrite Nat.eqb_refl. auto.
          -- intros Hs. destruct (C dims n pts l Hs) as (? & ? & ? & (q & Eq & Hq)).
             repeat split; auto. exists np'. unfold fset. rewrite Nat.eqb_refl. split; auto.
             rewrite Enp in Eq. cbn [npts st0] in Eq. unfold fset in Eq.
             rewrite Nat.eqb_refl in Eq. injection Eq as <-. lia.
        * intros Hs. destruct (C d n pts l Hs) as (? & ? & ? & (q & Eq & Hq)).
          repeat split; auto. exists q. unfold fset.
          destruct (Nat.eqb_spec d dims); [congruence|]. auto. }
  destruct Hmid as (st2 & g & -> & Eb & Hng & Hlen & Hx & Hi2). cbn [obind].
  rewrite Eb. unfold heap_tee. rewrite Hng. cbn [obind].
  eexists _, _. split; [reflexivity|]. cbn [heap gens npts batches].
  split; auto. split. { eapply hext_trans; [exact Hx|apply hext_app]. }
  split; [apply nth_error_app_last|].
  assert (Hnew : forall l c, nth_error (heap st2) l = Some c -> ~ In l hs -> ~ In l (hs ++ [length (heap st2)])).
  { intros l c Hl Hn Hin. apply in_app_iff in Hin as [Hin|[Hin|[]]]; auto.
    apply nth_error_lt in Hl. lia. }
  destruct Hi2 as [A B C]. constructor; cbn [heap gens npts batches]; auto.
  - intros d l Hl. destruct (A d l Hl). split; eauto. apply nth_error_app_old; auto.
  - intros d n pts l Hl. destruct (C d n pts l Hl) as (? & ? & ? & ?).
    split; auto. split; [apply nth_error_app_old; auto|]. split; eauto.
Qed.

(** * The cache-free machine *)
Definition astep (ah : list (nat * nat)) (o : op) : outcome (out * list (nat * nat)) :=
  match o with
  | Request dims m k =>
      '(pts, p) <- fresh_request dims m k ;; Done (OutPoints pts, ah ++ [(dims, p)])
  | Generator dims => Done (OutIterator, ah ++ [(dims, 0)])
  | Next i =>
      match nth_error ah i with
      | None => Raise IndexError
      | Some (d, p) => item <- gen_item d p ;; Done (OutBatch item, upd ah i (d, S p))
      end
  end.

Fixpoint arun (ah : list (nat * nat)) (ops : list op) : outcome (list out) :=
  match ops with
  | [] => Done []
  | o :: t => '(r, ah') <- astep ah o ;; rs <- arun ah' t ;; Done (r :: rs)
  end.

Lemma cinv_init : cinv cinit []. Proof. constructor; simpl; intros; discriminate. Qed.
Lemma handles_init : handles_ok cinit [] []. Proof. split; constructor. Qed.

Lemma fresh_request_eq : forall dims m k i, 1 <= dims -> 1 <= m -> stop dims m k i ->
  fresh_request dims m k = Done (concat (layers dims (i + 2)), i + 2).
Proof.
  intros dims m k i Hd Hm Hs. unfold fresh_request.
  destruct (request_correct cinit [] [] dims m k i Hd Hm Hs cinv_init handles_init)
    as (r & st & -> & _ & _ & Hn & _). cbn [obind]. rewrite Hn. reflexivity.
Qed.

Definition op_ok (o : op) : Prop :=
  match o with Request dims m k => 1 <= dims /\ 1 <= m | _ => True end.

Lemma Forall2_upd : forall A B (P : A -> B -> Prop) hs ah i v,
  Forall2 P hs ah -> i < length ah ->
  (forall l, nth_error hs i = Some l -> P l v) -> Forall2 P hs (upd ah i v).
Proof.
  intros A B P hs ah i v H. revert i. induction H; intros [|i] Hi Hv; simpl in *; try lia.
  - constructor; auto.
  - constructor; auto. apply IHForall2; auto. lia.
Qed.

Lemma Forall2_nth_error : forall A B (P : A -> B -> Prop) hs ah i l,
  Forall2 P hs ah -> nth_error hs i = Some l -> exists c, nth_error ah i = Some c /\ P l c.
Proof.
  intros A B P hs ah i l H. revert i. induction H; intros [|i] Hi; simpl in *; try discriminate.
  - injection Hi as <-. eauto.
  - auto.
Qed.

Lemma Forall2_upd2 : forall A B (P Q : A -> B -> Prop) hs ah i v,
  Forall2 P hs ah -> 
  (forall l, nth_error hs i = Some l -> Q l v) ->
  (forall j l c, j <> i -> nth_error hs j = Some l -> P l c -> Q l c) ->
  Forall2 Q hs (upd ah i v).
Proof.
  intros A B P Q hs ah i v H. revert i. induction H as [|x y hs ah Hxy H IH]; intros i Hv Hn; simpl.
  - constructor.
  - destruct i as [|i]; constructor.
    + apply Hv; auto.
    + clear IH. assert (forall l c, In l hs -> P l c -> Q l c).
      { intros l c Hin. apply In_nth_error in Hin as (j & Hj). apply (Hn (S j)); auto. }
      clear - H H0. induction H; constructor; auto.
      * apply H0; simpl; auto.
      * apply IHForall2. intros; apply H0; simpl; auto.
    + apply (Hn 0); auto.
    + apply IH; [intros l Hl; apply Hv; auto|]. intros j l c Hj Hl. apply (Hn (S j)); auto.
Qed.

Theorem run_refines : forall ops st hs ah, Forall op_ok ops -> cinv st hs -> handles_ok st hs ah ->
  run st hs ops = arun ah ops.
Proof.
  induction ops as [|o ops IH]; intros st hs ah Hok Hi Hh; auto.
  inversion Hok as [|? ? Ho Hok']; subst. cbn [run arun]. destruct o as [dims m k|dims|i].
  - destruct Ho as [Hd Hm]. destruct (stop_exists dims m k Hd Hm) as (i & Hs).
    cbn [step astep]. rewrite (fresh_request_eq dims m k i) by auto.
    destruct (request_correct st hs ah dims m k i Hd Hm Hs Hi Hh)
      as (r & st' & -> & Hr & Hx & Hn & Hi'). cbn [obind].
    rewrite (IH st' (hs ++ [r]) (ah ++ [(dims, i + 2)])); auto.
    eapply handles_add; eauto.
  - cbn [step astep].
    destruct (memo_gen_correct st hs ah dims Hi Hh)
      as (g & st1 & -> & Hg & Hx & Hn & Hlen & Hi1 & Enp & Eba & Hgen). cbn [obind].
    rewrite (IH st1 (hs ++ [g]) (ah ++ [(dims, 0)])); auto.
    + destruct Hi1 as [A B C]. constructor; auto.
      * intros d l Hl. destruct (A d l Hl). split; auto. intro Hin.
        apply in_app_iff in Hin as [|[->|[]]]; auto. eapply Hgen; eauto.
      * intros d n pts l Hl. destruct (C d n pts l Hl) as (? & ? & ? & ?).
        repeat split; auto. intro Hin. apply in_app_iff in Hin as [|[->|[]]]; auto.
        rewrite Eba in Hl. destruct (i_batches st hs Hi _ _ _ _ Hl) as (_ & Hq & _).
        apply nth_error_lt in Hq. lia.
    + eapply handles_add; eauto.
  - cbn [step astep]. destruct Hh as [Hnd HF].
    destruct (nth_error hs i) as [l|] eqn:El.
    + destruct (Forall2_nth_error _ _ _ _ _ _ _ HF El) as ([d p] & Ec & Hl).
      rewrite Ec. unfold heap_next. rewrite Hl.
      destruct (gen_item d p) as [item| | |]; cbn [obind]; auto.
      rewrite (IH _ hs (upd ah i (d, S p))); auto.
      * destruct Hi as [A B C]. constructor; cbn [heap gens npts batches]; auto.
        -- intros d' l' Hl'. destruct (A d' l' Hl'). split; auto.
           rewrite upd_nth_error_neq; auto. intros ->. apply H0. eapply nth_error_In; eauto.
        -- intros d' n pts l' Hl'. destruct (C d' n pts l' Hl') as (? & ? & ? & ?).
           repeat split; auto. rewrite upd_nth_error_neq; auto. intros ->. apply H1.
           eapply nth_error_In; eauto.
      * split; auto. cbn [heap]. eapply Forall2_upd2; [exact HF| |].
        -- intros l' Hl'. assert (l' = l) by congruence. subst l'.
           apply upd_nth_error_eq. eapply nth_error_lt; eauto.
        -- intros j l' c Hj Hl' Hc. rewrite upd_nth_error_neq; auto. intros <-.
           apply Hj. eapply NoDup_nth_error; eauto; [eapply nth_error_lt; eauto|congruence].
    + assert (nth_error ah i = None) as ->; auto.
      apply nth_error_None. apply nth_error_None in El.
      assert (El2 : length hs = length ah) by (clear -HF; induction HF; simpl; auto).
      rewrite <- El2. auto.
Qed.
