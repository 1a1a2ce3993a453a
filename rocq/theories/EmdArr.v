(** Arrays of _emd.py as functions, and doubly linked rings. *)
From Coq Require Import List ZArith Bool Lia.
From Verif Require Import Outcome.
Import ListNotations.
Open Scope outcome_scope.
Open Scope Z_scope.

Definition fupd (f : Z -> Z) (v x : Z) : Z -> Z := fun u => if u =? v then x else f u.

Lemma fupd_eq : forall f v x, fupd f v x v = x.
Proof. intros. unfold fupd. now rewrite Z.eqb_refl. Qed.

Lemma fupd_neq : forall f v x u, u <> v -> fupd f v x u = f u.
Proof. intros. unfold fupd. destruct (Z.eqb_spec u v); congruence. Qed.

(** The list [l] holds [f lo ... f (lo + length l - 1)], with [lo = -1] meaning that the last
    entry belongs to index [-1]. *)
Definition arr (lo : Z) (l : list Z) (f : Z -> Z) : Prop :=
  -1 <= lo <= 0 /\ forall v, lo <= v < lo + Z.of_nat (length l) -> getZ l v = Done (f v).

Lemma arr_get : forall lo l f v, arr lo l f -> lo <= v < lo + Z.of_nat (length l) -> getZ l v = Done (f v).
Proof. intros lo l f v [_ H]. apply H. Qed.

Lemma upd_length : forall A (l : list A) k x, length (upd l k x) = length l.
Proof. induction l; destruct k; simpl; auto. Qed.

Lemma upd_nth_error : forall A (l : list A) k x j, (k < length l)%nat ->
  nth_error (upd l k x) j = if Nat.eqb j k then Some x else nth_error l j.
Proof.
  induction l as [|a t IH]; simpl; intros k x j H; [lia|].
  destruct k, j; simpl; auto. apply IH. lia.
Qed.

Lemma arr_set : forall lo l f v x, arr lo l f -> lo <= v < lo + Z.of_nat (length l) ->
  exists l', setZ l v x = Done l' /\ length l' = length l /\ arr lo l' (fupd f v x).
Proof.
  intros lo l f v x [Hlo H] Hv. unfold setZ.
  set (i := if v <? 0 then v + Z.of_nat (length l) else v).
  assert (Hi : 0 <= i < Z.of_nat (length l)) by (unfold i; destruct (Z.ltb_spec v 0); lia).
  destruct (Z.ltb_spec i 0); [lia|]. destruct (Z.leb_spec (Z.of_nat (length l)) i); [lia|].
  cbn [orb]. eexists. split; [reflexivity|]. rewrite upd_length. split; auto.
  split; auto. rewrite upd_length. intros u Hu. specialize (H u Hu). unfold getZ in *.
  rewrite upd_length.
  set (k := if u <? 0 then u + Z.of_nat (length l) else u) in *.
  assert (Hk : 0 <= k < Z.of_nat (length l)) by (unfold k; destruct (Z.ltb_spec u 0); lia).
  destruct (Z.ltb_spec k 0); [lia|].
  rewrite upd_nth_error by lia. unfold fupd.
  destruct (Z.eqb_spec u v) as [->|Hne].
  - replace (Nat.eqb _ _) with true; auto. symmetry. apply Nat.eqb_eq. unfold k, i. auto.
  - replace (Nat.eqb _ _) with false; auto. symmetry. apply Nat.eqb_neq.
    unfold k, i in *. destruct (Z.ltb_spec u 0), (Z.ltb_spec v 0); lia.
Qed.

Lemma arr_ext : forall lo l f g, arr lo l f ->
  (forall v, lo <= v < lo + Z.of_nat (length l) -> f v = g v) -> arr lo l g.
Proof. intros lo l f g [H1 H2] H. split; auto. intros. rewrite <- H by auto. auto. Qed.

Lemma arr_nth : forall l f, (forall k, (k < length l)%nat -> nth k l 0 = f (Z.of_nat k)) -> arr 0 l f.
Proof.
  intros l f H. split; [lia|]. intros v Hv. unfold getZ.
  destruct (Z.ltb_spec v 0); [lia|]. destruct (Z.ltb_spec v 0); [lia|].
  rewrite (nth_error_nth' l 0) by lia. rewrite H by lia. now rewrite Z2Nat.id by lia.
Qed.

Lemma arr_nth_root : forall l x f,
  (forall k, (k < length l)%nat -> nth k l 0 = f (Z.of_nat k)) -> x = f (-1) -> arr (-1) (l ++ [x]) f.
Proof.
  intros l x f H Hx. split; [lia|]. intros v Hv. unfold getZ.
  rewrite app_length in *. simpl length in *.
  destruct (Z.ltb_spec v 0).
  - assert (v = -1) by lia. subst v.
    destruct (Z.ltb_spec (-1 + Z.of_nat (length l + 1)) 0); [lia|].
    replace (Z.to_nat _) with (length l) by lia. rewrite nth_error_app2, Nat.sub_diag by lia. simpl. congruence.
  - destruct (Z.ltb_spec v 0); [lia|]. rewrite nth_error_app1 by lia.
    rewrite (nth_error_nth' l 0) by lia. rewrite H by lia. now rewrite Z2Nat.id by lia.
Qed.

Lemma arr_0_get : forall l f k, arr 0 l f -> (k < length l)%nat -> nth k l 0 = f (Z.of_nat k).
Proof.
  intros l f k [_ H] Hk. specialize (H (Z.of_nat k) ltac:(lia)). unfold getZ in H.
  destruct (Z.ltb_spec (Z.of_nat k) 0); [lia|]. destruct (Z.ltb_spec (Z.of_nat k) 0); [lia|].
  rewrite Nat2Z.id in H. rewrite (nth_error_nth' l 0) in H by auto. congruence.
Qed.

(** * Rings *)

Definition lst (l : list Z) : Z := last l 0.

Lemma lst_snoc : forall l x, lst (l ++ [x]) = x.
Proof. intros. apply last_last. Qed.

Lemma lst_app : forall l1 l2, l2 <> [] -> lst (l1 ++ l2) = lst l2.
Proof.
  intros l1 l2 H. destruct (exists_last H) as (l & x & ->). rewrite app_assoc. now rewrite !lst_snoc.
Qed.

Lemma lst_cons : forall x l, l <> [] -> lst (x :: l) = lst l.
Proof. intros. apply (lst_app [x]). auto. Qed.

Lemma lst_in : forall l, l <> [] -> In (lst l) l.
Proof.
  intros l H. destruct (exists_last H) as (t & x & ->). rewrite lst_snoc. apply in_or_app. simpl. auto.
Qed.

Lemma removelast_lst : forall l, l <> [] -> l = removelast l ++ [lst l].
Proof. intros. now apply app_removelast_last. Qed.

Definition hdz (l : list Z) : Z := hd 0 l.

Lemma hdz_app : forall l1 l2, l1 <> [] -> hdz (l1 ++ l2) = hdz l1.
Proof. intros [|a t] l2 H; [congruence|]. reflexivity. Qed.

Lemma hdz_in : forall l, l <> [] -> In (hdz l) l.
Proof. intros [|a t] H; [congruence|]. simpl. auto. Qed.

Section Rings.
  Variables nx pv : Z -> Z.

  Fixpoint chain (l : list Z) : Prop :=
    match l with
    | a :: ((b :: _) as r) => (nx a = b /\ pv b = a) /\ chain r
    | _ => True
    end.

  Definition ring (l : list Z) : Prop := chain (l ++ [hdz l]).

  Lemma chain_app : forall l1 a l2, chain (l1 ++ a :: l2) <-> chain (l1 ++ [a]) /\ chain (a :: l2).
  Proof.
    induction l1 as [|x l1 IH]; intros a l2.
    - simpl. tauto.
    - destruct l1 as [|y l1].
      + simpl. tauto.
      + specialize (IH a l2). simpl app in *. change (chain (x :: y :: ?l)) with ((nx x = y /\ pv y = x) /\ chain (y :: l)) in *.
        cbn [chain] in *. tauto.
  Qed.

  Lemma chain_snoc : forall l x, l <> [] -> chain (l ++ [x]) <-> chain l /\ nx (lst l) = x /\ pv x = lst l.
  Proof.
    intros l x H. destruct (exists_last H) as (t & y & ->).
    rewrite <- app_assoc. simpl app. rewrite chain_app, lst_snoc. simpl. tauto.
  Qed.

  Lemma chain_prefix : forall l1 l2, chain (l1 ++ l2) -> chain l1.
  Proof.
    intros l1 l2 H. destruct l2 as [|a l2]; [now rewrite app_nil_r in H|].
    apply chain_app in H. destruct H as [H _]. destruct l1 as [|b l1]; [exact I|].
    apply chain_snoc in H; [tauto|congruence].
  Qed.

  Lemma chain_suffix : forall l1 l2, chain (l1 ++ l2) -> chain l2.
  Proof.
    intros l1 l2 H. destruct l2 as [|a l2]; [exact I|]. apply chain_app in H. tauto.
  Qed.

  Lemma chain_link : forall l1 a b l2, chain (l1 ++ a :: b :: l2) -> nx a = b /\ pv b = a.
  Proof. intros l1 a b l2 H. apply chain_suffix in H. simpl in H. tauto. Qed.

  (** Joined lists: inner chains and the link between them. *)
  Lemma chain_app2 : forall l1 l2, l1 <> [] -> l2 <> [] ->
    chain (l1 ++ l2) <-> chain l1 /\ chain l2 /\ nx (lst l1) = hdz l2 /\ pv (hdz l2) = lst l1.
  Proof.
    intros l1 [|a l2] H1 H2; [congruence|]. rewrite chain_app, chain_snoc by auto. simpl hdz. tauto.
  Qed.

  Lemma ring_iff : forall l, l <> [] -> ring l <-> chain l /\ nx (lst l) = hdz l /\ pv (hdz l) = lst l.
  Proof. intros l H. unfold ring. rewrite chain_snoc by auto. tauto. Qed.

  Lemma ring_rot : forall l1 l2, ring (l1 ++ l2) -> ring (l2 ++ l1).
  Proof.
    intros l1 l2 H.
    destruct l1 as [|a l1]; [now rewrite app_nil_r|]. destruct l2 as [|b l2]; [now rewrite app_nil_r in H|].
    assert (N1 : a :: l1 <> []) by congruence. assert (N2 : b :: l2 <> []) by congruence.
    set (u := a :: l1) in *. set (w := b :: l2) in *.
    assert (Nu : u ++ w <> []) by (intro Q; apply app_eq_nil in Q; tauto).
    assert (Nw : w ++ u <> []) by (intro Q; apply app_eq_nil in Q; tauto).
    rewrite ring_iff in * by auto. rewrite chain_app2 in * by auto.
    rewrite !lst_app in * by auto. rewrite !hdz_app in * by auto. tauto.
  Qed.
End Rings.

Lemma chain_ext : forall nx pv nx' pv' l,
  chain nx pv l ->
  (forall x, In x (removelast l) -> nx' x = nx x) ->
  (forall x, In x (tl l) -> pv' x = pv x) ->
  chain nx' pv' l.
Proof.
  intros nx pv nx' pv'. induction l as [|a l IH]; [simpl; auto|].
  destruct l as [|b l]; [simpl; auto|]. intros [[H1 H2] H3] Hx Hp. split.
  - split.
    + rewrite Hx; auto. simpl. auto.
    + rewrite Hp; auto. simpl. auto.
  - apply IH; auto.
    + intros x Hi. apply Hx. change (removelast (a :: b :: l)) with (a :: removelast (b :: l)). right. auto.
    + intros x Hi. apply Hp. simpl in *. auto.
Qed.

Lemma NoDup_app_iff : forall A (l1 l2 : list A),
  NoDup (l1 ++ l2) <-> NoDup l1 /\ NoDup l2 /\ (forall x, In x l1 -> ~ In x l2).
Proof.
  intros A l1 l2. induction l1 as [|a l1 IH]; simpl.
  - split; [intros H; repeat split; auto; constructor | tauto].
  - rewrite !NoDup_cons_iff, IH, in_app_iff. split.
    + intros (H1 & H2 & H3 & H4). repeat split; auto. intros x [-> | Hx]; auto.
    + intros ((H1 & H2) & H3 & H4). repeat split; auto. intros [Q | Q]; auto. eapply H4; eauto.
Qed.

Lemma removelast_not_lst : forall l x, NoDup l -> In x (removelast l) -> In x l /\ x <> lst l.
Proof.
  intros l x Hn Hx. destruct l as [|a t]; [simpl in Hx; tauto|].
  assert (Hl : a :: t <> []) by congruence.
  rewrite (removelast_lst _ Hl) in Hn. apply NoDup_app_iff in Hn. destruct Hn as (_ & _ & Hd).
  split.
  - rewrite (removelast_lst _ Hl). apply in_or_app. auto.
  - intros ->. apply (Hd _ Hx). simpl. auto.
Qed.

Lemma tl_not_hd : forall l x, NoDup l -> In x (tl l) -> In x l /\ x <> hdz l.
Proof.
  intros [|a t] x Hn Hx; [simpl in Hx; tauto|]. simpl in *. apply NoDup_cons_iff in Hn.
  split; auto. intros ->. tauto.
Qed.

(** Taking a segment out of a ring. *)
Lemma ring_split : forall nx pv nx' pv' W U, W <> [] -> U <> [] -> NoDup (W ++ U) ->
  ring nx pv (W ++ U) ->
  nx' (lst W) = hdz W -> pv' (hdz W) = lst W ->
  nx' (lst U) = hdz U -> pv' (hdz U) = lst U ->
  (forall x, x <> lst W -> x <> lst U -> nx' x = nx x) ->
  (forall x, x <> hdz W -> x <> hdz U -> pv' x = pv x) ->
  ring nx' pv' W /\ ring nx' pv' U.
Proof.
  intros nx pv nx' pv' W U HW HU Hn Hr A1 A2 A3 A4 Hx Hp.
  assert (Hne : W ++ U <> []) by (intro Q; apply app_eq_nil in Q; tauto).
  apply ring_iff in Hr; auto. destruct Hr as [Hc _]. apply chain_app2 in Hc; auto.
  destruct Hc as (C1 & C2 & _). apply NoDup_app_iff in Hn. destruct Hn as (N1 & N2 & N3).
  rewrite !ring_iff by auto. repeat split; auto.
  - eapply chain_ext; [exact C1| |].
    + intros x Hi. apply removelast_not_lst in Hi; auto. destruct Hi. apply Hx; auto.
      intros ->. eapply N3; eauto. apply lst_in; auto.
    + intros x Hi. apply tl_not_hd in Hi; auto. destruct Hi. apply Hp; auto.
      intros ->. eapply N3; eauto. apply hdz_in; auto.
  - eapply chain_ext; [exact C2| |].
    + intros x Hi. apply removelast_not_lst in Hi; auto. destruct Hi. apply Hx; auto.
      intros ->. eapply N3; eauto. apply lst_in; auto.
    + intros x Hi. apply tl_not_hd in Hi; auto. destruct Hi. apply Hp; auto.
      intros ->. eapply N3; eauto. apply hdz_in; auto.
Qed.

(** Joining two rings. *)
Lemma ring_join : forall nx pv nx' pv' W U, W <> [] -> U <> [] -> NoDup (W ++ U) ->
  ring nx pv W -> ring nx pv U ->
  nx' (lst W) = hdz U -> pv' (hdz U) = lst W ->
  nx' (lst U) = hdz W -> pv' (hdz W) = lst U ->
  (forall x, x <> lst W -> x <> lst U -> nx' x = nx x) ->
  (forall x, x <> hdz W -> x <> hdz U -> pv' x = pv x) ->
  ring nx' pv' (W ++ U).
Proof.
  intros nx pv nx' pv' W U HW HU Hn R1 R2 A1 A2 A3 A4 Hx Hp.
  assert (Hne : W ++ U <> []) by (intro Q; apply app_eq_nil in Q; tauto).
  apply ring_iff in R1; auto. apply ring_iff in R2; auto. destruct R1 as [C1 _], R2 as [C2 _].
  apply NoDup_app_iff in Hn. destruct Hn as (N1 & N2 & N3).
  rewrite ring_iff by auto. rewrite chain_app2 by auto. rewrite lst_app, hdz_app by auto.
  repeat split; auto.
  - eapply chain_ext; [exact C1| |].
    + intros x Hi. apply removelast_not_lst in Hi; auto. destruct Hi. apply Hx; auto.
      intros ->. eapply N3; eauto. apply lst_in; auto.
    + intros x Hi. apply tl_not_hd in Hi; auto. destruct Hi. apply Hp; auto.
      intros ->. eapply N3; eauto. apply hdz_in; auto.
  - eapply chain_ext; [exact C2| |].
    + intros x Hi. apply removelast_not_lst in Hi; auto. destruct Hi. apply Hx; auto.
      intros ->. eapply N3; eauto. apply lst_in; auto.
    + intros x Hi. apply tl_not_hd in Hi; auto. destruct Hi. apply Hp; auto.
      intros ->. eapply N3; eauto. apply hdz_in; auto.
Qed.
