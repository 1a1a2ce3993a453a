(** Rooted trees behind the arrays parent, size, last_node of _emd.py. *)
From Coq Require Import List ZArith Bool Lia.
From Verif Require Import Outcome EmdArr.
Import ListNotations.
Open Scope Z_scope.

Inductive rtree := Node (v : Z) (ts : list rtree).

Definition lab (t : rtree) : Z := match t with Node v _ => v end.
Definition kids (t : rtree) : list rtree := match t with Node _ ts => ts end.

Fixpoint pre (t : rtree) : list Z :=
  match t with Node v ts => v :: flat_map pre ts end.

Definition pres (ts : list rtree) : list Z := flat_map pre ts.

Lemma rtree_rect2 : forall (P : rtree -> Prop),
  (forall v ts, Forall P ts -> P (Node v ts)) -> forall t, P t.
Proof.
  intros P H. fix IH 1. intros [v ts]. apply H. induction ts as [|t ts IHts]; constructor; auto.
Qed.

Lemma pre_ne : forall t, pre t <> [].
Proof. intros [v ts]. simpl. congruence. Qed.

Lemma pre_hd : forall t, hdz (pre t) = lab t.
Proof. intros [v ts]. reflexivity. Qed.

Lemma lab_in : forall t, In (lab t) (pre t).
Proof. intros [v ts]. simpl. auto. Qed.

Lemma pres_app : forall l r, pres (l ++ r) = pres l ++ pres r.
Proof. intros. apply flat_map_app. Qed.

Lemma pres_cons : forall t r, pres (t :: r) = pre t ++ pres r.
Proof. reflexivity. Qed.

Lemma pres_one : forall t, pres [t] = pre t.
Proof. intros. unfold pres. simpl. apply app_nil_r. Qed.

Lemma pre_node : forall v ts, pre (Node v ts) = v :: pres ts.
Proof. reflexivity. Qed.

(** * Contexts: the ancestors of a subtree, innermost first *)
Definition frame : Type := Z * list rtree * list rtree.

Definition fill (f : frame) (t : rtree) : rtree := let '(v, l, r) := f in Node v (l ++ t :: r).
Arguments fill : simpl never.
Definition flab (f : frame) : Z := fst (fst f).

Fixpoint plug (fs : list frame) (t : rtree) : rtree :=
  match fs with [] => t | f :: fs' => plug fs' (fill f t) end.

Definition labs (fs : list frame) : list Z := map flab fs.

(** Label of the parent of the hole. *)
Definition top (p : Z) (fs : list frame) : Z := match fs with [] => p | f :: _ => flab f end.

Fixpoint before (fs : list frame) : list Z :=
  match fs with [] => [] | (v, l, r) :: fs' => before fs' ++ v :: pres l end.
Fixpoint after (fs : list frame) : list Z :=
  match fs with [] => [] | (v, l, r) :: fs' => pres r ++ after fs' end.

Lemma pre_fill : forall v l r t, pre (fill (v, l, r) t) = (v :: pres l) ++ pre t ++ pres r.
Proof. intros. unfold fill. rewrite pre_node, pres_app, pres_cons. reflexivity. Qed.

Lemma pre_plug : forall fs t, pre (plug fs t) = before fs ++ pre t ++ after fs.
Proof.
  induction fs as [|[[v l] r] fs IH]; intros t.
  - simpl. now rewrite app_nil_r.
  - simpl plug. rewrite IH. rewrite pre_fill. simpl. now rewrite <- !app_assoc.
Qed.

Lemma labs_in_before : forall fs v, In v (labs fs) -> In v (before fs).
Proof.
  induction fs as [|[[u l] r] fs IH]; simpl; intros v H; [tauto|].
  apply in_or_app. destruct H as [<- | H]; [right; simpl; auto | left; auto].
Qed.

Lemma plug_app : forall f1 f2 t, plug (f1 ++ f2) t = plug f2 (plug f1 t).
Proof. induction f1; simpl; auto. Qed.

(** Every node of a tree has a context. *)
Lemma find_node : forall t v, In v (pre t) -> exists fs ts, t = plug fs (Node v ts).
Proof.
  induction t as [u ts IH] using rtree_rect2. intros v [<- | H].
  - exists [], ts. reflexivity.
  - fold (pres ts) in H. unfold pres in H. apply in_flat_map in H. destruct H as (t & Ht & Hv).
    rewrite Forall_forall in IH. destruct (IH t Ht v Hv) as (fs & ts' & ->).
    apply in_split in Ht. destruct Ht as (l & r & ->).
    exists (fs ++ [(u, l, r)]), ts'. rewrite plug_app. reflexivity.
Qed.

Lemma before_app : forall f1 f2, before (f1 ++ f2) = before f2 ++ before f1.
Proof.
  induction f1 as [|[[v l] r] f1 IH]; intros f2; simpl; [now rewrite app_nil_r|].
  rewrite IH. now rewrite <- app_assoc.
Qed.

Lemma after_app : forall f1 f2, after (f1 ++ f2) = after f1 ++ after f2.
Proof.
  induction f1 as [|[[v l] r] f1 IH]; intros f2; simpl; auto. rewrite IH. now rewrite <- app_assoc.
Qed.

(** * What the arrays say about a tree *)
Section Ok.
  Variables par sz la : Z -> Z.

  Definition okn (p : Z) (v : Z) (l : list Z) : Prop :=
    par v = p /\ sz v = Z.of_nat (length l) /\ la v = lst l.

  Fixpoint ok (p : Z) (t : rtree) : Prop :=
    match t with
    | Node v ts =>
        okn p v (pre t) /\
        (fix all ts := match ts with [] => True | t :: r => ok v t /\ all r end) ts
    end.

  Lemma ok_node : forall p v ts, ok p (Node v ts) <-> okn p v (v :: pres ts) /\ Forall (ok v) ts.
  Proof.
    intros p v ts. simpl. apply and_iff_compat_l.
    induction ts as [|t r IH].
    - split; auto.
    - rewrite Forall_cons_iff. apply and_iff_compat_l. exact IH.
  Qed.

  Fixpoint okf (p : Z) (fs : list frame) (l : list Z) : Prop :=
    match fs with
    | [] => True
    | (v, a, b) :: fs' =>
        okn (top p fs') v (v :: pres a ++ l ++ pres b) /\
        Forall (ok v) a /\ Forall (ok v) b /\
        okf p fs' (v :: pres a ++ l ++ pres b)
    end.

  Lemma ok_plug : forall fs p t, ok p (plug fs t) <-> okf p fs (pre t) /\ ok (top p fs) t.
  Proof.
    induction fs as [|[[v a] b] fs IH]; intros p t.
    - simpl. tauto.
    - simpl plug. rewrite IH. unfold fill at 2. rewrite ok_node.
      rewrite pre_fill. simpl okf. simpl top. rewrite Forall_app, Forall_cons_iff.
      rewrite pres_app, pres_cons. simpl app. tauto.
  Qed.
End Ok.

Lemma ok_ext : forall par sz la par' sz' la' t p,
  (forall v, In v (pre t) -> par' v = par v /\ sz' v = sz v /\ la' v = la v) ->
  ok par sz la p t -> ok par' sz' la' p t.
Proof.
  intros par sz la par' sz' la'. induction t as [v ts IH] using rtree_rect2. intros p H Hok.
  rewrite ok_node in *. destruct Hok as [(H1 & H2 & H3) H4]. split.
  - unfold okn. destruct (H v) as (E1 & E2 & E3); [simpl; auto|]. rewrite E1, E2, E3. repeat split; auto.
  - rewrite Forall_forall in *. intros t Ht. apply IH; auto. intros u Hu. apply H.
    rewrite pre_node. right. unfold pres. apply in_flat_map. eauto.
Qed.

Lemma Forall_ok_ext : forall par sz la par' sz' la' ts p,
  (forall v, In v (pres ts) -> par' v = par v /\ sz' v = sz v /\ la' v = la v) ->
  Forall (ok par sz la p) ts -> Forall (ok par' sz' la' p) ts.
Proof.
  intros par sz la par' sz' la' ts p H Hf. rewrite Forall_forall in *. intros t Ht.
  eapply ok_ext; [|apply Hf; auto]. intros v Hv. apply H. unfold pres. apply in_flat_map. eauto.
Qed.

(** Changing the parent of the root only. *)
Lemma ok_reparent : forall par sz la par' t p p',
  NoDup (pre t) -> (forall v, In v (pre t) -> v <> lab t -> par' v = par v) -> par' (lab t) = p' ->
  ok par sz la p t -> ok par' sz la p' t.
Proof.
  intros par sz la par' [v ts] p p' Hn H1 H2 Hok. rewrite ok_node in *. simpl in H2.
  destruct Hok as [(A & B & C) D]. split; [repeat split; auto|].
  simpl in Hn. apply NoDup_cons_iff in Hn. destruct Hn as [Hv _].
  eapply Forall_ok_ext; [|exact D]. intros u Hu. split; auto. apply H1; simpl; auto.
  intros ->. auto.
Qed.

Lemma plug_in_pre : forall fs t v, In v (pre t) -> In v (pre (plug fs t)).
Proof. intros. rewrite pre_plug. apply in_or_app. right. apply in_or_app. auto. Qed.

(** Sizes grow along the ancestors. *)
Lemma ok_size_pos : forall par sz la p t, ok par sz la p t -> sz (lab t) = Z.of_nat (length (pre t)).
Proof. intros par sz la p [v ts] H. rewrite ok_node in H. destruct H as [(_ & H & _) _]. exact H. Qed.

Lemma ok_last : forall par sz la p t, ok par sz la p t -> la (lab t) = lst (pre t).
Proof. intros par sz la p [v ts] H. rewrite ok_node in H. destruct H as [(_ & _ & H) _]. exact H. Qed.

Lemma ok_parent : forall par sz la p t, ok par sz la p t -> par (lab t) = p.
Proof. intros par sz la p [v ts] H. rewrite ok_node in H. destruct H as [(H & _ & _) _]. exact H. Qed.

(** Following [par] from a node goes through the labels of its context. *)
Fixpoint up (par : Z -> Z) (v : Z) (l : list Z) (p : Z) : Prop :=
  match l with
  | [] => par v = p
  | u :: l' => par v = u /\ up par u l' p
  end.

Lemma ok_up : forall par sz la fs p v ts, ok par sz la p (plug fs (Node v ts)) -> up par v (labs fs) p.
Proof.
  intros par sz la. induction fs as [|[[u a] b] fs IH]; intros p v ts H.
  - simpl in H. apply H.
  - simpl. split.
    + apply ok_plug in H. destruct H as [_ H]. apply ok_parent in H. exact H.
    + simpl plug in H. unfold fill in H. eapply IH. exact H.
Qed.

(** Sizes strictly increase towards the root. *)
Fixpoint incr (sz : Z -> Z) (v : Z) (l : list Z) : Prop :=
  match l with
  | [] => True
  | u :: l' => sz v < sz u /\ incr sz u l'
  end.

Lemma ok_incr : forall par sz la fs p v ts, ok par sz la p (plug fs (Node v ts)) -> incr sz v (labs fs).
Proof.
  intros par sz la. induction fs as [|[[u a] b] fs IH]; intros p v ts H; [exact I|].
  simpl. split.
  - pose proof H as H'. apply ok_plug in H. destruct H as [H1 H2]. apply ok_size_pos in H2.
    set (m := pre (Node v ts)) in *. destruct H1 as [(_ & E & _) _]. simpl lab in H2. unfold flab. simpl fst.
    rewrite E, H2. cbn [length]. rewrite !app_length. lia.
  - simpl plug in H. unfold fill in H. eapply IH. exact H.
Qed.
