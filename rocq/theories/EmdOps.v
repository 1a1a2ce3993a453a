(** The tree operations of _emd.py (remove, re-root, add) act as expected on the tree. *)
From Coq Require Import List ZArith Bool Lia.
From Verif Require Import Outcome EmdModel EmdArr EmdTree.
Import ListNotations.
Open Scope outcome_scope.
Open Scope Z_scope.

Record tfun := TF { fpar : Z -> Z; fsz : Z -> Z; fnx : Z -> Z; fla : Z -> Z; fpv : Z -> Z; fed : Z -> Z }.

Definition mem (v : Z) (l : list Z) : bool := existsb (Z.eqb v) l.

Lemma mem_in : forall v l, mem v l = true <-> In v l.
Proof.
  intros v l. unfold mem. rewrite existsb_exists. split.
  - intros (x & Hx & E). apply Z.eqb_eq in E. now subst.
  - intros H. exists v. split; auto. apply Z.eqb_refl.
Qed.

Lemma mem_nin : forall v l, mem v l = false <-> ~ In v l.
Proof. intros v l. rewrite <- mem_in. destruct (mem v l); split; intros; congruence. Qed.

Definition climb_sz (sz : Z -> Z) (l : list Z) (delta : Z) : Z -> Z :=
  fun v => if mem v l then sz v + delta else sz v.
Definition climb_la (la : Z -> Z) (l : list Z) (old new : Z) : Z -> Z :=
  fun v => if mem v l && (la v =? old) then new else la v.

Ltac lnorm := repeat (progress (rewrite <- ?app_assoc; cbn [app])).

Section Ops.
  Variable n : Z.
  Definition inr (v : Z) : Prop := -1 <= v < n.

  Definition narr (l : list Z) (f : Z -> Z) : Prop := Z.of_nat (length l) = n + 1 /\ arr (-1) l f.
  Definition earr (l : list Z) (f : Z -> Z) : Prop := Z.of_nat (length l) = n /\ arr 0 l f.

  Record rep (ts : tree_st) (F : tfun) : Prop := {
    r_par : narr (parent ts) (fpar F);
    r_sz : narr (size ts) (fsz F);
    r_nx : narr (next_node ts) (fnx F);
    r_la : narr (last_node ts) (fla F);
    r_pv : narr (prev_node ts) (fpv F);
    r_ed : earr (edge ts) (fed F)
  }.

  Lemma narr_get : forall l f v, narr l f -> inr v -> getZ l v = Done (f v).
  Proof. intros l f v [E H] Hv. apply (arr_get (-1)); auto. unfold inr in Hv. lia. Qed.

  Lemma narr_set : forall l f v x, narr l f -> inr v -> exists l', setZ l v x = Done l' /\ narr l' (fupd f v x).
  Proof.
    intros l f v x [E H] Hv. destruct (arr_set (-1) l f v x H) as (l' & E1 & E2 & E3).
    - unfold inr in Hv. lia.
    - exists l'. split; auto. split; auto. congruence.
  Qed.

  Lemma earr_get : forall l f v, earr l f -> 0 <= v < n -> getZ l v = Done (f v).
  Proof. intros l f v [E H] Hv. apply (arr_get 0); auto. lia. Qed.

  Lemma earr_set : forall l f v x, earr l f -> 0 <= v < n -> exists l', setZ l v x = Done l' /\ earr l' (fupd f v x).
  Proof.
    intros l f v x [E H] Hv. destruct (arr_set 0 l f v x H) as (l' & E1 & E2 & E3); [lia|].
    exists l'. split; auto. split; auto. congruence.
  Qed.

  Lemma narr_ext : forall l f g, narr l f -> (forall v, inr v -> f v = g v) -> narr l g.
  Proof. intros l f g [E H] Hfg. split; auto. eapply arr_ext; eauto. intros. apply Hfg. unfold inr. lia. Qed.

  Lemma earr_ext : forall l f g, earr l f -> (forall v, 0 <= v < n -> f v = g v) -> earr l g.
  Proof. intros l f g [E H] Hfg. split; auto. eapply arr_ext; eauto. intros. apply Hfg. lia. Qed.

  Lemma climb_correct : forall l fuel par sz la fp fs fl s delta old new,
    narr par fp -> narr sz fs -> narr la fl ->
    up fp s l (-2) -> Forall inr (s :: l) -> NoDup (s :: l) -> (length l < fuel)%nat ->
    exists sz' la', climb fuel par sz la s delta old new = Done (sz', la') /\
      narr sz' (climb_sz fs (s :: l) delta) /\ narr la' (climb_la fl (s :: l) old new).
  Proof.
    induction l as [|u l IH]; intros fuel par sz la fp fs fl s delta old new Hp Hs Hl Hup Hr Hn Hf.
    - destruct fuel as [|fuel]; [lia|]. apply Forall_inv in Hr. pose proof Hr as Hr0. unfold inr in Hr0.
      simpl in Hup. simpl climb. destruct (Z.eqb_spec s (-2)); [lia|].
      rewrite (narr_get _ _ _ Hs Hr). cbn [obind].
      destruct (narr_set _ _ s (fs s + delta) Hs Hr) as (sz' & -> & Hs'). cbn [obind].
      rewrite (narr_get _ _ _ Hl Hr). cbn [obind].
      assert (Hset : exists la', (if fl s =? old then setZ la s new else Done la) = Done la' /\
        narr la' (climb_la fl [s] old new)).
      { unfold climb_la. destruct (Z.eqb_spec (fl s) old) as [E | E].
        - destruct (narr_set _ _ s new Hl Hr) as (la' & -> & Hl'). exists la'. split; auto.
          eapply narr_ext; [exact Hl'|]. intros v _. unfold fupd, mem. simpl. rewrite orb_false_r.
          destruct (Z.eqb_spec v s) as [->|]; simpl; auto. apply Z.eqb_eq in E. now rewrite E.
        - exists la. split; auto. eapply narr_ext; [exact Hl|]. intros v _. unfold mem. simpl. rewrite orb_false_r.
          destruct (Z.eqb_spec v s) as [->|]; simpl; auto. destruct (Z.eqb_spec (fl s) old); congruence. }
      destruct Hset as (la' & -> & Hl'). cbn [obind].
      rewrite (narr_get _ _ _ Hp Hr). cbn [obind]. rewrite Hup.
      exists sz', la'. split.
      + destruct fuel; reflexivity.
      + split; auto. eapply narr_ext; [exact Hs'|]. intros v _. unfold fupd, climb_sz, mem. simpl. rewrite orb_false_r.
        destruct (Z.eqb_spec v s) as [->|]; auto.
    - destruct fuel as [|fuel]; [simpl in Hf; lia|].
      assert (Hr' : Forall inr (u :: l)) by (inversion Hr; auto).
      apply Forall_inv in Hr. pose proof Hr as Hr0. unfold inr in Hr0.
      destruct Hup as [Hu Hup]. simpl climb. destruct (Z.eqb_spec s (-2)); [lia|].
      rewrite (narr_get _ _ _ Hs Hr). cbn [obind].
      destruct (narr_set _ _ s (fs s + delta) Hs Hr) as (sz' & -> & Hs'). cbn [obind].
      rewrite (narr_get _ _ _ Hl Hr). cbn [obind].
      assert (Hset : exists la', (if fl s =? old then setZ la s new else Done la) = Done la' /\
        narr la' (climb_la fl [s] old new)).
      { unfold climb_la. destruct (Z.eqb_spec (fl s) old) as [E | E].
        - destruct (narr_set _ _ s new Hl Hr) as (la' & -> & Hl'). exists la'. split; auto.
          eapply narr_ext; [exact Hl'|]. intros v _. unfold fupd, mem. simpl. rewrite orb_false_r.
          destruct (Z.eqb_spec v s) as [->|]; simpl; auto. apply Z.eqb_eq in E. now rewrite E.
        - exists la. split; auto. eapply narr_ext; [exact Hl|]. intros v _. unfold mem. simpl. rewrite orb_false_r.
          destruct (Z.eqb_spec v s) as [->|]; simpl; auto. destruct (Z.eqb_spec (fl s) old); congruence. }
      destruct Hset as (la' & -> & Hl'). cbn [obind].
      rewrite (narr_get _ _ _ Hp Hr). cbn [obind]. rewrite Hu.
      assert (Hn' : NoDup (u :: l)) by (inversion Hn; auto).
      assert (Hsn : ~ In s (u :: l)) by (inversion Hn; auto).
      destruct (IH fuel par sz' la' fp _ _ u delta old new Hp Hs' Hl' Hup Hr' Hn') as (sz2 & la2 & -> & A & B);
        [simpl in Hf; lia|].
      exists sz2, la2. split; auto. split.
      + eapply narr_ext; [exact A|]. intros v _. unfold climb_sz, fupd.
        change (mem v (s :: u :: l)) with ((v =? s) || mem v (u :: l)).
        destruct (Z.eqb_spec v s) as [->|]; cbn [orb]; auto.
        apply mem_nin in Hsn. now rewrite Hsn.
      + eapply narr_ext; [exact B|]. intros v _. unfold climb_la.
        change (mem v (s :: u :: l)) with ((v =? s) || mem v (u :: l)).
        change (mem v [s]) with ((v =? s) || false).
        destruct (Z.eqb_spec v s) as [->|]; cbn [orb andb]; auto.
        apply mem_nin in Hsn. now rewrite Hsn.
  Qed.

  (** * Removing a subtree *)

  Lemma lst_two : forall A X B, A <> [] -> X <> [] -> NoDup (A ++ X ++ B) ->
    lst (A ++ B) = (if lst (A ++ X ++ B) =? lst X then lst A else lst (A ++ X ++ B)).
  Proof.
    intros A X B HA HX Hn. destruct B as [|b B].
    - rewrite !app_nil_r. rewrite lst_app by auto. now rewrite Z.eqb_refl.
    - assert (HB : b :: B <> []) by congruence. set (C := b :: B) in *.
      rewrite (lst_app A C) by auto. rewrite (lst_app A (X ++ C)) by (intro Q; apply app_eq_nil in Q; tauto).
      rewrite (lst_app X C) by auto. destruct (Z.eqb_spec (lst C) (lst X)) as [E|E]; auto.
      exfalso. apply NoDup_app_iff in Hn. destruct Hn as (_ & Hn & _). apply NoDup_app_iff in Hn.
      destruct Hn as (_ & _ & Hn). apply (Hn (lst X)).
      + apply lst_in; auto.
      + rewrite <- E. apply lst_in; auto.
  Qed.

  Lemma lst_three : forall A X B, A <> [] -> X <> [] -> NoDup (A ++ B) ->
    lst (A ++ X ++ B) = (if lst (A ++ B) =? lst A then lst X else lst (A ++ B)).
  Proof.
    intros A X B HA HX Hn. destruct B as [|b B].
    - rewrite !app_nil_r. rewrite lst_app by auto. now rewrite Z.eqb_refl.
    - assert (HB : b :: B <> []) by congruence. set (C := b :: B) in *.
      rewrite (lst_app A C) by auto. rewrite (lst_app A (X ++ C)) by (intro Q; apply app_eq_nil in Q; tauto).
      rewrite (lst_app X C) by auto. destruct (Z.eqb_spec (lst C) (lst A)) as [E|E]; auto.
      exfalso. apply NoDup_app_iff in Hn. destruct Hn as (_ & _ & Hn). apply (Hn (lst A)).
      + apply lst_in; auto.
      + rewrite <- E. apply lst_in; auto.
  Qed.

  Lemma labs_nodup : forall fs, NoDup (before fs) -> NoDup (labs fs).
  Proof.
    induction fs as [|[[v a] b] fs IH]; simpl; intros H; [constructor|].
    apply NoDup_app_iff in H. destruct H as (H1 & H2 & H3). constructor.
    - intros Q. apply labs_in_before in Q. apply (H3 _ Q). simpl. auto.
    - auto.
  Qed.

  (** Frames when the segment [X] is taken out below them. *)
  Lemma okf_out : forall fs par sz la par' sz' la' p A X B,
    okf par sz la p fs (A ++ X ++ B) -> A <> [] -> X <> [] ->
    NoDup (before fs ++ (A ++ X ++ B) ++ after fs) ->
    (forall v, In v (labs fs) -> par' v = par v /\ sz' v = sz v - Z.of_nat (length X) /\
       la' v = if la v =? lst X then lst A else la v) ->
    (forall v, In v (before fs ++ after fs) -> ~ In v (labs fs) -> par' v = par v /\ sz' v = sz v /\ la' v = la v) ->
    okf par' sz' la' p fs (A ++ B).
  Proof.
    induction fs as [|[[v a] b] fs IH]; intros par sz la par' sz' la' p A X B H HA HX Hn H1 H2; [exact I|].
    simpl okf in *. destruct H as (Hk & Ha & Hb & Hr).
    replace (v :: pres a ++ (A ++ X ++ B) ++ pres b) with ((v :: pres a ++ A) ++ X ++ (B ++ pres b)) in *
      by (simpl; now rewrite <- !app_assoc).
    replace (v :: pres a ++ (A ++ B) ++ pres b) with ((v :: pres a ++ A) ++ (B ++ pres b)) in *
      by (simpl; now rewrite <- !app_assoc).
    assert (Hn' : NoDup (before fs ++ ((v :: pres a ++ A) ++ X ++ (B ++ pres b)) ++ after fs)).
    { revert Hn. cbn [before after]. lnorm. auto. }
    assert (Hvl : forall u, In u (v :: pres a ++ pres b) -> ~ In u (labs fs)).
    { intros u Hu Q. apply labs_in_before in Q. apply NoDup_app_iff in Hn'. destruct Hn' as (_ & _ & D).
      apply (D _ Q). simpl. rewrite !in_app_iff. simpl in Hu. rewrite in_app_iff in Hu. tauto. }
    assert (Hva : ~ In v (pres a ++ pres b)).
    { intros Q. apply NoDup_app_iff in Hn'. destruct Hn' as (_ & D & _). simpl in D. apply NoDup_cons_iff in D.
      destruct D as [D _]. apply D. rewrite !in_app_iff in *. tauto. }
    assert (HnL : NoDup ((v :: pres a ++ A) ++ X ++ B ++ pres b)).
    { apply NoDup_app_iff in Hn'. destruct Hn' as (_ & D & _). apply NoDup_app_iff in D. tauto. }
    assert (Hside : forall u, In u (pres a ++ pres b) -> par' u = par u /\ sz' u = sz u /\ la' u = la u).
    { intros u Hu. apply H2.
      - simpl. rewrite !in_app_iff. simpl. rewrite in_app_iff in Hu. tauto.
      - simpl. intros [Q | Q].
        + unfold flab in Q. simpl in Q. subst u. auto.
        + apply (Hvl u); auto. simpl. auto. }
    repeat split.
    - destruct (H1 v) as (E & _); [simpl; auto|]. rewrite E. apply Hk.
    - destruct (H1 v) as (_ & E & _); [simpl; auto|]. rewrite E. destruct Hk as (_ & -> & _).
      rewrite !app_length. lia.
    - destruct (H1 v) as (_ & _ & E); [simpl; auto|]. rewrite E. destruct Hk as (_ & _ & ->).
      rewrite (lst_two (v :: pres a ++ A) X (B ++ pres b)) by (auto; congruence).
      replace (lst (v :: pres a ++ A)) with (lst A); auto.
      change (v :: pres a ++ A) with ((v :: pres a) ++ A). now rewrite lst_app.
    - eapply Forall_ok_ext; [|exact Ha]. intros u Hu. apply Hside. apply in_or_app. auto.
    - eapply Forall_ok_ext; [|exact Hb]. intros u Hu. apply Hside. apply in_or_app. auto.
    - eapply IH; [exact Hr| congruence | auto | exact Hn' | | ].
      + intros u Hu. replace (lst (v :: pres a ++ A)) with (lst A)
          by (change (v :: pres a ++ A) with ((v :: pres a) ++ A); now rewrite lst_app).
        apply H1. simpl. auto.
      + intros u Hu Hl. apply H2.
        * simpl. rewrite !in_app_iff in *. tauto.
        * simpl. intros [Q | Q]; auto. unfold flab in Q. simpl in Q. subst u.
          apply NoDup_app_iff in Hn'. destruct Hn' as (_ & D1 & D2).
          rewrite in_app_iff in Hu. destruct Hu as [Hu | Hu].
          -- apply (D2 _ Hu). simpl. auto.
          -- apply NoDup_app_iff in D1. destruct D1 as (_ & _ & D3). apply (D3 v); auto. simpl. auto.
  Qed.

  (** Frames when the segment [X] is inserted below them. *)
  Lemma okf_in : forall fs par sz la par' sz' la' p A X B,
    okf par sz la p fs (A ++ B) -> A <> [] -> X <> [] ->
    NoDup (before fs ++ (A ++ B) ++ after fs) ->
    (forall v, In v (labs fs) -> par' v = par v /\ sz' v = sz v + Z.of_nat (length X) /\
       la' v = if la v =? lst A then lst X else la v) ->
    (forall v, In v (before fs ++ after fs) -> ~ In v (labs fs) -> par' v = par v /\ sz' v = sz v /\ la' v = la v) ->
    okf par' sz' la' p fs (A ++ X ++ B).
  Proof.
    induction fs as [|[[v a] b] fs IH]; intros par sz la par' sz' la' p A X B H HA HX Hn H1 H2; [exact I|].
    simpl okf in *. destruct H as (Hk & Ha & Hb & Hr).
    replace (v :: pres a ++ (A ++ X ++ B) ++ pres b) with ((v :: pres a ++ A) ++ X ++ (B ++ pres b)) in *
      by (simpl; now rewrite <- !app_assoc).
    replace (v :: pres a ++ (A ++ B) ++ pres b) with ((v :: pres a ++ A) ++ (B ++ pres b)) in *
      by (simpl; now rewrite <- !app_assoc).
    assert (Hn' : NoDup (before fs ++ ((v :: pres a ++ A) ++ (B ++ pres b)) ++ after fs)).
    { revert Hn. cbn [before after]. lnorm. auto. }
    assert (Hvl : forall u, In u (v :: pres a ++ pres b) -> ~ In u (labs fs)).
    { intros u Hu Q. apply labs_in_before in Q. apply NoDup_app_iff in Hn'. destruct Hn' as (_ & _ & D).
      apply (D _ Q). simpl. rewrite !in_app_iff. simpl in Hu. rewrite in_app_iff in Hu. tauto. }
    assert (Hva : ~ In v (pres a ++ pres b)).
    { intros Q. apply NoDup_app_iff in Hn'. destruct Hn' as (_ & D & _). simpl in D. apply NoDup_cons_iff in D.
      destruct D as [D _]. apply D. rewrite !in_app_iff in *. tauto. }
    assert (HnL : NoDup ((v :: pres a ++ A) ++ B ++ pres b)).
    { apply NoDup_app_iff in Hn'. destruct Hn' as (_ & D & _). apply NoDup_app_iff in D. tauto. }
    assert (Hside : forall u, In u (pres a ++ pres b) -> par' u = par u /\ sz' u = sz u /\ la' u = la u).
    { intros u Hu. apply H2.
      - simpl. rewrite !in_app_iff. simpl. rewrite in_app_iff in Hu. tauto.
      - simpl. intros [Q | Q].
        + unfold flab in Q. simpl in Q. subst u. auto.
        + apply (Hvl u); auto. simpl. auto. }
    repeat split.
    - destruct (H1 v) as (E & _); [simpl; auto|]. rewrite E. apply Hk.
    - destruct (H1 v) as (_ & E & _); [simpl; auto|]. rewrite E. destruct Hk as (_ & -> & _).
      rewrite !app_length. lia.
    - destruct (H1 v) as (_ & _ & E); [simpl; auto|]. rewrite E. destruct Hk as (_ & _ & ->).
      rewrite (lst_three (v :: pres a ++ A) X (B ++ pres b)) by (auto; congruence).
      replace (lst (v :: pres a ++ A)) with (lst A); auto.
      change (v :: pres a ++ A) with ((v :: pres a) ++ A). now rewrite lst_app.
    - eapply Forall_ok_ext; [|exact Ha]. intros u Hu. apply Hside. apply in_or_app. auto.
    - eapply Forall_ok_ext; [|exact Hb]. intros u Hu. apply Hside. apply in_or_app. auto.
    - eapply IH; [exact Hr| congruence | auto | exact Hn' | | ].
      + intros u Hu. replace (lst (v :: pres a ++ A)) with (lst A)
          by (change (v :: pres a ++ A) with ((v :: pres a) ++ A); now rewrite lst_app).
        apply H1. simpl. auto.
      + intros u Hu Hl. apply H2.
        * simpl. rewrite !in_app_iff in *. tauto.
        * simpl. intros [Q | Q]; auto. unfold flab in Q. simpl in Q. subst u.
          apply NoDup_app_iff in Hn'. destruct Hn' as (_ & D1 & D2).
          rewrite in_app_iff in Hu. destruct Hu as [Hu | Hu].
          -- apply (D2 _ Hu). simpl. auto.
          -- apply NoDup_app_iff in D1. destruct D1 as (_ & _ & D3). apply (D3 v); auto. simpl. auto.
  Qed.

  Definition inv (F : tfun) (T : rtree) : Prop :=
    ok (fpar F) (fsz F) (fla F) (-2) T /\ ring (fnx F) (fpv F) (pre T).

  Lemma NoDup_rot : forall (l1 l2 : list Z), NoDup (l1 ++ l2) -> NoDup (l2 ++ l1).
  Proof. intros l1 l2. rewrite !NoDup_app_iff. intros (A & B & C). repeat split; auto. intros x H1 H2. eapply C; eauto. Qed.

  Lemma NoDup_rot3 : forall (B A S : list Z), NoDup ((B ++ A) ++ S) -> NoDup (S ++ A ++ B).
  Proof.
    intros B A S. rewrite !NoDup_app_iff. setoid_rewrite in_app_iff. firstorder.
  Qed.

  Lemma up_ext : forall (par par' : Z -> Z) l v p, up par v l p -> (forall u, In u (v :: l) -> par' u = par u) -> up par' v l p.
  Proof.
    intros par par'. induction l as [|u l IH]; simpl; intros v p H E.
    - rewrite E; auto.
    - destruct H as [H1 H2]. rewrite E by auto. split; auto.
  Qed.

  Lemma remove_correct : forall fuel ts F s t a b fs tk,
    rep ts F -> inv F (plug ((s, a, b) :: fs) (Node t tk)) ->
    NoDup (pre (plug ((s, a, b) :: fs) (Node t tk))) ->
    Forall inr (pre (plug ((s, a, b) :: fs) (Node t tk))) -> 0 <= t -> (length fs < fuel)%nat ->
    exists ts' F', remove_edge fuel ts s t = Done ts' /\ rep ts' F' /\
      inv F' (plug fs (Node s (a ++ b))) /\ inv F' (Node t tk) /\
      fpar F' = fupd (fpar F) t (-2) /\ fed F' = fupd (fed F) t (-2).
  Proof.
    intros fuel ts F s t a b fs tk R [Hok Hring] Hn Hin Ht Hfuel.
    pose proof (ok_up _ _ _ _ _ _ _ Hok) as Hup. cbn [labs map] in Hup. fold (labs fs) in Hup.
    change (flab (s, a, b)) with s in Hup. destruct Hup as [Hpt Hup].
    rewrite pre_plug in Hn, Hin, Hring.
    set (S := pre (Node t tk)) in *. set (A := before ((s, a, b) :: fs)) in *. set (B := after ((s, a, b) :: fs)) in *.
    assert (HS : S <> []) by apply pre_ne.
    assert (HhS : hdz S = t) by reflexivity.
    assert (HA : A <> []). { unfold A. simpl. intro Q. apply app_eq_nil in Q. destruct Q. congruence. }
    set (W := B ++ A) in *.
    assert (HW : W <> []) by (intro Q; apply app_eq_nil in Q; tauto).
    assert (HlW : lst W = lst A) by (apply lst_app; auto).
    assert (HrWS : ring (fnx F) (fpv F) (W ++ S)).
    { apply ring_rot. unfold W. rewrite app_assoc. apply ring_rot. exact Hring. }
    assert (HnWS : NoDup (W ++ S)).
    { apply NoDup_rot. unfold W. rewrite app_assoc. apply NoDup_rot. exact Hn. }
    assert (HinWS : Forall inr (W ++ S)).
    { unfold W. rewrite !Forall_app in *. tauto. }
    rewrite Forall_forall in HinWS.
    assert (HlWr : inr (lst W)) by (apply HinWS, in_or_app; left; apply lst_in; auto).
    assert (HlSr : inr (lst S)) by (apply HinWS, in_or_app; right; apply lst_in; auto).
    assert (HhWr : inr (hdz W)) by (apply HinWS, in_or_app; left; apply hdz_in; auto).
    assert (Htr : inr t) by (apply HinWS, in_or_app; right; rewrite <- HhS; apply hdz_in; auto).
    assert (Ht0 : 0 <= t < n) by (unfold inr in Htr; lia).
    pose proof HnWS as HnWS'. apply NoDup_app_iff in HnWS'. destruct HnWS' as (NW & NS & ND).
    assert (Dl : lst W <> lst S).
    { intros Q. apply (ND (lst W)); [apply lst_in; auto|]. rewrite Q. apply lst_in; auto. }
    assert (Dh : hdz W <> hdz S).
    { intros Q. apply (ND (hdz W)); [apply hdz_in; auto|]. rewrite Q. apply hdz_in; auto. }
    apply ok_plug in Hok. destruct Hok as [Hf HoS]. fold S in Hf.
    pose proof (ok_size_pos _ _ _ _ _ HoS) as Esz. pose proof (ok_last _ _ _ _ _ HoS) as Ela.
    cbn [lab] in Esz, Ela. fold S in Esz, Ela.
    assert (Epv : fpv F t = lst W /\ fnx F (lst S) = hdz W).
    { pose proof HrWS as Q. apply ring_iff in Q; [|intro Q'; apply app_eq_nil in Q'; tauto].
      rewrite lst_app, hdz_app in Q by auto. rewrite chain_app2 in Q by auto. rewrite HhS in Q. tauto. }
    destruct Epv as [Epv Enx].
    destruct R as [Rp Rs Rx Rl Rv Re].
    unfold remove_edge.
    rewrite (narr_get _ _ _ Rs Htr). cbn [obind]. rewrite (narr_get _ _ _ Rv Htr). cbn [obind].
    rewrite (narr_get _ _ _ Rl Htr). cbn [obind]. rewrite Esz, Ela, Epv.
    rewrite (narr_get _ _ _ Rx HlSr). cbn [obind]. rewrite Enx.
    destruct (narr_set _ _ t (-2) Rp Htr) as (par' & -> & Rp'). cbn [obind].
    destruct (earr_set _ _ t (-2) Re Ht0) as (ed' & -> & Re'). cbn [obind].
    destruct (narr_set _ _ (lst W) (hdz W) Rx HlWr) as (nx1 & -> & Rx1). cbn [obind].
    destruct (narr_set _ _ (hdz W) (lst W) Rv HhWr) as (pv1 & -> & Rv1). cbn [obind].
    destruct (narr_set _ _ (lst S) t Rx1 HlSr) as (nx2 & -> & Rx2). cbn [obind].
    destruct (narr_set _ _ t (lst S) Rv1 Htr) as (pv2 & -> & Rv2). cbn [obind].
    assert (HAin : forall u, In u A -> In u (W ++ S)) by (intros; unfold W; rewrite !in_app_iff; auto).
    assert (Hsl : forall u, In u (s :: labs fs) -> In u A).
    { intros u Hu. apply (labs_in_before ((s, a, b) :: fs)). exact Hu. }
    assert (HAS : forall u, In u A -> ~ In u S).
    { intros u Hu. apply ND. unfold W. apply in_or_app. auto. }
    assert (Hup' : up (fupd (fpar F) t (-2)) s (labs fs) (-2)).
    { eapply up_ext; [exact Hup|]. intros u Hu. apply fupd_neq. intros ->.
      apply (HAS t); auto. rewrite <- HhS. apply hdz_in; auto. }
    assert (NA : NoDup A) by (unfold W in NW; apply NoDup_app_iff in NW; tauto).
    assert (Hnl : NoDup (s :: labs fs)) by (apply (labs_nodup ((s, a, b) :: fs)); exact NA).
    destruct (climb_correct (labs fs) fuel par' (size ts) (last_node ts) _ _ _ s (- Z.of_nat (length S)) (lst S) (lst W) Rp' Rs Rl Hup')
      as (sz' & la' & -> & Rs' & Rl'); [| exact Hnl | unfold labs; rewrite map_length; exact Hfuel|].
    { apply Forall_forall. intros u Hu. auto. }
    cbn [obind].
    set (path := s :: labs fs) in *.
    eexists. exists (TF (fupd (fpar F) t (-2)) (climb_sz (fsz F) path (- Z.of_nat (length S)))
      (fupd (fupd (fnx F) (lst W) (hdz W)) (lst S) t) (climb_la (fla F) path (lst S) (lst W))
      (fupd (fupd (fpv F) (hdz W) (lst W)) t (lst S)) (fupd (fed F) t (-2))).
    split; [reflexivity|]. split; [constructor; simpl; assumption|].
    assert (Hrings : ring (fupd (fupd (fnx F) (lst W) (hdz W)) (lst S) t) (fupd (fupd (fpv F) (hdz W) (lst W)) t (lst S)) W
      /\ ring (fupd (fupd (fnx F) (lst W) (hdz W)) (lst S) t) (fupd (fupd (fpv F) (hdz W) (lst W)) t (lst S)) S).
    { rewrite HhS in Dh. eapply ring_split; try exact HrWS; auto.
      - rewrite fupd_neq by auto. apply fupd_eq.
      - rewrite fupd_neq by auto. apply fupd_eq.
      - now rewrite fupd_eq.
      - rewrite HhS. now rewrite fupd_eq.
      - intros x H1 H2. now rewrite !fupd_neq.
      - intros x H1 H2. rewrite HhS in H2. now rewrite !fupd_neq. }
    destruct Hrings as [RW RS].
    assert (HtS : In t S) by (rewrite <- HhS; apply hdz_in; auto).
    assert (Hsz_out : forall u, ~ In u path -> climb_sz (fsz F) path (- Z.of_nat (length S)) u = fsz F u /\
      climb_la (fla F) path (lst S) (lst W) u = fla F u).
    { intros u Hu. unfold climb_sz, climb_la. apply mem_nin in Hu. rewrite Hu. auto. }
    assert (Hsz_in : forall u, In u path -> climb_sz (fsz F) path (- Z.of_nat (length S)) u = fsz F u - Z.of_nat (length S) /\
      climb_la (fla F) path (lst S) (lst W) u = if fla F u =? lst S then lst W else fla F u).
    { intros u Hu. unfold climb_sz, climb_la. apply mem_in in Hu. rewrite Hu. cbn [andb]. split; [lia|auto]. }
    split; [|split; [|split; reflexivity]].
    - split; cbn [fpar fsz fla fnx fpv].
      + destruct Hf as (Hks & Hfa & Hfb & Hfr).
        assert (Habs : forall u, In u (pres a ++ pres b) -> ~ In u path).
        { intros u Hu Q. unfold path in Q. destruct Q as [<- | Q].
          - clear -Hn Hu. unfold A, B in Hn. cbn [before after] in Hn. rewrite <- !app_assoc in Hn.
            apply NoDup_app_iff in Hn. destruct Hn as (_ & Hn & _). cbn [app] in Hn. apply NoDup_cons_iff in Hn.
            destruct Hn as [Hn _]. apply Hn. rewrite !in_app_iff in *. tauto.
          - apply labs_in_before in Q. clear -Hn Hu Q. unfold A, B in Hn. cbn [before after] in Hn. rewrite <- !app_assoc in Hn.
            apply NoDup_app_iff in Hn. destruct Hn as (_ & _ & Hn). apply (Hn _ Q). cbn [app]. right.
            rewrite !in_app_iff in *. tauto. }
        assert (Habt : forall u, In u (pres a ++ pres b) -> u <> t).
        { intros u Hu ->. clear -Hn Hu HtS. unfold A, B in Hn. cbn [before after] in Hn.
          rewrite in_app_iff in Hu. destruct Hu as [Hu | Hu].
          - apply NoDup_app_iff in Hn. destruct Hn as (_ & _ & Hn). apply (Hn t).
            + rewrite in_app_iff. right. right. auto.
            + rewrite in_app_iff. auto.
          - apply NoDup_app_iff in Hn. destruct Hn as (_ & Hn & _). apply NoDup_app_iff in Hn.
            destruct Hn as (_ & _ & Hn). apply (Hn t); auto. rewrite in_app_iff. auto. }
        assert (Hst : s <> t) by (intros ->; apply (HAS t); auto; apply Hsl; simpl; auto).
        assert (HnL : NoDup (before fs ++ ((s :: pres a) ++ S ++ pres b) ++ after fs)).
        { revert Hn. unfold A, B. cbn [before after]. lnorm. auto. }
        assert (HlA : lst W = lst (s :: pres a)).
        { rewrite HlW. unfold A. cbn [before]. apply lst_app. congruence. }
        apply ok_plug. split.
        * rewrite pre_node, pres_app. change (s :: pres a ++ pres b) with ((s :: pres a) ++ pres b).
          eapply okf_out with (X := S); [exact Hfr | congruence | auto | exact HnL | |].
          -- intros v Hv. rewrite <- HlA. destruct (Hsz_in v) as [E1 E2]; [right; auto|]. repeat split; auto.
             rewrite fupd_neq; auto. intros ->. apply (HAS t); auto. apply Hsl. right. auto.
          -- intros v Hv Hv2.
             assert (v <> t).
             { intros ->. clear -HnL Hv HtS. apply NoDup_app_iff in HnL. destruct HnL as (_ & H1 & H2).
               apply in_app_iff in Hv. destruct Hv as [Hv | Hv].
               - apply (H2 _ Hv). rewrite !in_app_iff. auto.
               - apply NoDup_app_iff in H1. destruct H1 as (_ & _ & H1). apply (H1 t); auto. rewrite !in_app_iff. auto. }
             assert (v <> s).
             { intros ->. clear -HnL Hv HtS. apply NoDup_app_iff in HnL. destruct HnL as (_ & H1 & H2).
               apply in_app_iff in Hv. destruct Hv as [Hv | Hv].
               - apply (H2 _ Hv). simpl. auto.
               - apply NoDup_app_iff in H1. destruct H1 as (_ & _ & H1). apply (H1 s); auto. simpl. auto. }
             rewrite fupd_neq by auto. split; auto. apply Hsz_out. intros [Q | Q]; auto.
        * rewrite ok_node. split.
          -- destruct Hks as (E1 & E2 & E3). destruct (Hsz_in s) as [E4 E5]; [simpl; auto|].
             repeat split.
             ++ rewrite fupd_neq by auto. exact E1.
             ++ rewrite E4, E2. cbn [length]. rewrite pres_app, !app_length. lia.
             ++ rewrite E5, E3. rewrite pres_app. change (s :: pres a ++ pres b) with ((s :: pres a) ++ pres b).
                change (s :: pres a ++ S ++ pres b) with ((s :: pres a) ++ S ++ pres b).
                rewrite HlA. symmetry. apply lst_two; [congruence | auto |].
                apply NoDup_app_iff in HnL. destruct HnL as (_ & D & _). apply NoDup_app_iff in D. tauto.
          -- apply Forall_app. split.
             ++ eapply Forall_ok_ext; [|exact Hfa]. intros v Hv.
                assert (Hv2 : In v (pres a ++ pres b)) by (apply in_or_app; auto).
                rewrite fupd_neq by auto. split; auto.
             ++ eapply Forall_ok_ext; [|exact Hfb]. intros v Hv.
                assert (Hv2 : In v (pres a ++ pres b)) by (apply in_or_app; auto).
                rewrite fupd_neq by auto. split; auto.
      + apply ring_rot in RW. rewrite pre_plug, pre_node, pres_app.
        replace (before fs ++ (s :: pres a ++ pres b) ++ after fs) with (A ++ B); auto.
        unfold A, B. cbn [before after]. lnorm. auto.
    - split; cbn [fpar fsz fla fnx fpv]; auto.
      eapply ok_ext with (sz := fsz F) (la := fla F) (par := fupd (fpar F) t (-2)).
      + intros v Hv. split; auto. apply Hsz_out. intros Q. apply (HAS v); auto.
      + eapply ok_reparent; [exact NS | | | exact HoS].
        * intros v Hv Hv2. apply fupd_neq. exact Hv2.
        * apply fupd_eq.
  Qed.

  (** * Re-rooting *)

  Definition agree_out (l : list Z) (F F' : tfun) : Prop :=
    forall v, ~ In v l -> fpar F' v = fpar F v /\ fsz F' v = fsz F v /\ fnx F' v = fnx F v /\
      fla F' v = fla F v /\ fpv F' v = fpv F v /\ fed F' v = fed F v.

  Lemma ancestors_correct : forall l fuel par fp q acc,
    narr par fp -> up fp q l (-2) -> Forall inr (q :: l) -> (length l < fuel)%nat ->
    ancestors fuel par q acc = Done (rev (q :: l) ++ acc).
  Proof.
    induction l as [|u l IH]; intros fuel par fp q acc Hp Hup Hr Hf; destruct fuel as [|fuel]; try (simpl in Hf; lia).
    - apply Forall_inv in Hr. pose proof Hr as Hr0. unfold inr in Hr0. cbn [ancestors].
      destruct (Z.eqb_spec q (-2)); [lia|]. rewrite (narr_get _ _ _ Hp Hr). cbn [obind]. simpl in Hup. rewrite Hup.
      destruct fuel; reflexivity.
    - assert (Hr' : Forall inr (u :: l)) by (inversion Hr; auto).
      apply Forall_inv in Hr. pose proof Hr as Hr0. unfold inr in Hr0. cbn [ancestors].
      destruct (Z.eqb_spec q (-2)); [lia|]. rewrite (narr_get _ _ _ Hp Hr). cbn [obind]. destruct Hup as [E Hup].
      rewrite E. rewrite (IH fuel par fp u (q :: acc)); auto; [|simpl in Hf; lia].
      f_equal. simpl. rewrite <- !app_assoc. reflexivity.
  Qed.

  Lemma reroot_correct : forall ts F p q qs l r,
    rep ts F -> inv F (Node p (l ++ Node q qs :: r)) ->
    NoDup (pre (Node p (l ++ Node q qs :: r))) ->
    Forall inr (pre (Node p (l ++ Node q qs :: r))) -> 0 <= p -> 0 <= q ->
    exists ts' F', reroot_step ts p q = Done ts' /\ rep ts' F' /\
      inv F' (Node q (qs ++ [Node p (l ++ r)])) /\
      fpar F' = fupd (fupd (fpar F) p q) q (-2) /\ fed F' = fupd (fupd (fed F) p (fed F q)) q (-2) /\
      agree_out (pre (Node p (l ++ Node q qs :: r))) F F'.
  Proof.
    intros ts F p q qs l r R [Hok Hring] Hn Hin Hp0 Hq0.
    rewrite pre_node, pres_app, pres_cons in Hn, Hin, Hring.
    change (p :: pres l ++ pre (Node q qs) ++ pres r) with ((p :: pres l) ++ pre (Node q qs) ++ pres r) in *.
    set (S := pre (Node q qs)) in *. set (A := p :: pres l) in *. set (B := pres r) in *.
    assert (HS : S <> []) by apply pre_ne.
    assert (HhS : hdz S = q) by reflexivity.
    assert (HA : A <> []) by (unfold A; congruence).
    set (W := B ++ A) in *.
    assert (HW : W <> []) by (intro Q; apply app_eq_nil in Q; tauto).
    assert (HAB : A ++ B <> []) by (intro Q; apply app_eq_nil in Q; tauto).
    assert (HlW : lst W = lst A) by (apply lst_app; auto).
    assert (HrWS : ring (fnx F) (fpv F) (W ++ S)).
    { apply ring_rot. unfold W. rewrite app_assoc. apply ring_rot. exact Hring. }
    assert (HnWS : NoDup (W ++ S)).
    { apply NoDup_rot. unfold W. rewrite app_assoc. apply NoDup_rot. exact Hn. }
    assert (HinWS : Forall inr (W ++ S)).
    { unfold W. rewrite !Forall_app in *. tauto. }
    rewrite Forall_forall in HinWS.
    assert (HlWr : inr (lst W)) by (apply HinWS, in_or_app; left; apply lst_in; auto).
    assert (HlSr : inr (lst S)) by (apply HinWS, in_or_app; right; apply lst_in; auto).
    assert (HhWr : inr (hdz W)) by (apply HinWS, in_or_app; left; apply hdz_in; auto).
    assert (Hqr : inr q) by (apply HinWS, in_or_app; right; rewrite <- HhS; apply hdz_in; auto).
    assert (Hpr : inr p) by (apply HinWS, in_or_app; left; apply in_or_app; right; left; auto).
    assert (HlABin : In (lst (A ++ B)) W).
    { unfold W. pose proof (lst_in _ HAB) as Q. rewrite in_app_iff in *. tauto. }
    assert (HlABr : inr (lst (A ++ B))) by (apply HinWS, in_or_app; left; auto).
    assert (Hqn : 0 <= q < n) by (unfold inr in Hqr; lia).
    assert (Hpn : 0 <= p < n) by (unfold inr in Hpr; lia).
    pose proof HnWS as HnWS'. apply NoDup_app_iff in HnWS'. destruct HnWS' as (NW & NS & ND).
    assert (Dl : lst W <> lst S).
    { intros Q. apply (ND (lst W)); [apply lst_in; auto|]. rewrite Q. apply lst_in; auto. }
    assert (Dh : hdz W <> q).
    { intros Q. apply (ND (hdz W)); [apply hdz_in; auto|]. rewrite Q. rewrite <- HhS. apply hdz_in; auto. }
    assert (HqS : In q S) by (rewrite <- HhS; apply hdz_in; auto).
    assert (HpW : In p W) by (apply in_or_app; right; left; auto).
    assert (Dpq : p <> q) by (intros ->; apply (ND q); auto).
    assert (Dl2 : lst (A ++ B) <> lst S).
    { intros Q. apply (ND _ HlABin). rewrite Q. apply lst_in; auto. }
    rewrite ok_node in Hok. destruct Hok as [(Ep1 & Ep2 & Ep3) Hkids].
    apply Forall_app in Hkids. destruct Hkids as [Hl Hqr2]. apply Forall_cons_iff in Hqr2. destruct Hqr2 as [Hq Hr].
    rewrite pres_app, pres_cons in Ep2, Ep3. fold S in Ep2, Ep3. fold B in Ep2, Ep3.
    change (p :: pres l ++ S ++ B) with (A ++ S ++ B) in *.
    rewrite ok_node in Hq. destruct Hq as [(Eq1 & Eq2 & Eq3) Hqs]. fold (pre (Node q qs)) in Eq2, Eq3.
    change (q :: pres qs) with S in Eq2, Eq3.
    assert (Epv : fpv F q = lst W /\ fnx F (lst S) = hdz W).
    { pose proof HrWS as Q. apply ring_iff in Q; [|intro Q'; apply app_eq_nil in Q'; tauto].
      rewrite lst_app, hdz_app in Q by auto. rewrite chain_app2 in Q by auto. rewrite HhS in Q. tauto. }
    destruct Epv as [Epv Enx].
    destruct R as [Rp Rs Rx Rl Rv Re].
    unfold reroot_step.
    rewrite (narr_get _ _ _ Rs Hpr). cbn [obind]. rewrite (narr_get _ _ _ Rl Hpr). cbn [obind].
    rewrite (narr_get _ _ _ Rv Hqr). cbn [obind]. rewrite (narr_get _ _ _ Rl Hqr). cbn [obind].
    rewrite Ep2, Ep3, Epv, Eq3.
    rewrite (narr_get _ _ _ Rx HlSr). cbn [obind]. rewrite Enx.
    destruct (narr_set _ _ p q Rp Hpr) as (par1 & -> & Rp1). cbn [obind].
    destruct (narr_set _ _ q (-2) Rp1 Hqr) as (par2 & -> & Rp2). cbn [obind].
    rewrite (earr_get _ _ _ Re Hqn). cbn [obind].
    destruct (earr_set _ _ p (fed F q) Re Hpn) as (ed1 & -> & Re1). cbn [obind].
    destruct (earr_set _ _ q (-2) Re1 Hqn) as (ed2 & -> & Re2). cbn [obind].
    rewrite (narr_get _ _ _ Rs Hqr). cbn [obind]. rewrite Eq2.
    destruct (narr_set _ _ p (Z.of_nat (length (A ++ S ++ B)) - Z.of_nat (length S)) Rs Hpr) as (sz1 & -> & Rs1). cbn [obind].
    destruct (narr_set _ _ q (Z.of_nat (length (A ++ S ++ B))) Rs1 Hqr) as (sz2 & -> & Rs2). cbn [obind].
    destruct (narr_set _ _ (lst W) (hdz W) Rx HlWr) as (nx1 & -> & Rx1). cbn [obind].
    destruct (narr_set _ _ (hdz W) (lst W) Rv HhWr) as (pv1 & -> & Rv1). cbn [obind].
    destruct (narr_set _ _ (lst S) q Rx1 HlSr) as (nx2 & -> & Rx2). cbn [obind].
    destruct (narr_set _ _ q (lst S) Rv1 Hqr) as (pv2 & -> & Rv2). cbn [obind].
    assert (Hset : exists la1, (if lst (A ++ S ++ B) =? lst S
                        then (l0 <- setZ (last_node ts) p (lst W) ;; Done (l0, lst W))
                        else Done (last_node ts, lst (A ++ S ++ B))) = Done (la1, lst (A ++ B)) /\
       narr la1 (fupd (fla F) p (lst (A ++ B)))).
    { pose proof (lst_two A S B HA HS Hn) as Q. destruct (Z.eqb_spec (lst (A ++ S ++ B)) (lst S)) as [E | E].
      - destruct (narr_set _ _ p (lst W) Rl Hpr) as (la1 & -> & Rl1). cbn [obind]. rewrite HlW in *.
        rewrite Q. exists la1. auto.
      - rewrite Q. eexists. split; [reflexivity|]. eapply narr_ext; [exact Rl|].
        intros v _. unfold fupd. destruct (Z.eqb_spec v p) as [E1|]; auto. rewrite E1. auto. }
    destruct Hset as (la1 & -> & Rl1). cbn [obind].
    destruct (narr_set _ _ p (lst S) Rv2 Hpr) as (pv3 & -> & Rv3). cbn [obind].
    destruct (narr_set _ _ (lst S) p Rx2 HlSr) as (nx3 & -> & Rx3). cbn [obind].
    destruct (narr_set _ _ (lst (A ++ B)) q Rx3 HlABr) as (nx4 & -> & Rx4). cbn [obind].
    destruct (narr_set _ _ q (lst (A ++ B)) Rv3 Hqr) as (pv4 & -> & Rv4). cbn [obind].
    destruct (narr_set _ _ q (lst (A ++ B)) Rl1 Hqr) as (la2 & -> & Rl2). cbn [obind].
    eexists. eexists (TF _ _ _ _ _ _).
    split; [reflexivity|]. split; [constructor; cbn [fpar fsz fnx fla fpv fed parent size next_node last_node prev_node edge]; eassumption|].
    cbn [fpar fed]. split; [|split; [reflexivity|split; [reflexivity|]]].
    2: { intros v Hv. rewrite pre_node, pres_app, pres_cons in Hv.
      change (p :: pres l ++ pre (Node q qs) ++ pres r) with (A ++ S ++ B) in Hv.
      assert (HvW : ~ In v (W ++ S)) by (unfold W; rewrite !in_app_iff in *; tauto).
      assert (Hne : forall u, In u (W ++ S) -> v <> u) by (intros u Hu ->; auto).
      assert (v <> p) by (apply Hne; apply in_or_app; auto).
      assert (v <> q) by (apply Hne; apply in_or_app; auto).
      assert (v <> lst W) by (apply Hne; apply in_or_app; left; apply lst_in; auto).
      assert (v <> lst S) by (apply Hne; apply in_or_app; right; apply lst_in; auto).
      assert (v <> hdz W) by (apply Hne; apply in_or_app; left; apply hdz_in; auto).
      assert (v <> lst (A ++ B)) by (apply Hne; apply in_or_app; left; auto).
      cbn [fpar fsz fnx fla fpv fed]. rewrite !fupd_neq by auto. repeat split. }
    assert (Hrings : ring (fupd (fupd (fnx F) (lst W) (hdz W)) (lst S) q) (fupd (fupd (fpv F) (hdz W) (lst W)) q (lst S)) W
      /\ ring (fupd (fupd (fnx F) (lst W) (hdz W)) (lst S) q) (fupd (fupd (fpv F) (hdz W) (lst W)) q (lst S)) S).
    { eapply ring_split; try exact HrWS; auto.
      - rewrite fupd_neq by auto. apply fupd_eq.
      - rewrite fupd_neq by auto. apply fupd_eq.
      - now rewrite fupd_eq.
      - rewrite HhS. now rewrite fupd_eq.
      - intros x H1 H2. now rewrite !fupd_neq.
      - intros x H1 H2. rewrite HhS in H2. now rewrite !fupd_neq. }
    destruct Hrings as [RW RS]. apply ring_rot in RW.
    split; cbn [fpar fsz fla fnx fpv].
    - assert (Hsep : forall u, In u (pres l ++ pres r ++ pres qs) -> u <> p /\ u <> q).
      { intros u Hu. unfold A, B, S in Hn. rewrite pre_node in Hn. cbn [app] in Hn.
        apply NoDup_cons_iff in Hn. destruct Hn as [N1 N2]. split.
        - intros ->. apply N1. rewrite !in_app_iff in *. simpl. rewrite !in_app_iff in *. tauto.
        - intros ->. apply NoDup_remove_2 in N2. apply N2. rewrite !in_app_iff in *. tauto. }
      rewrite ok_node, pres_app, pres_one, pre_node, pres_app.
      change (q :: pres qs ++ p :: pres l ++ pres r) with (S ++ A ++ B). split; [split; [|split]|].
      + apply fupd_eq.
      + rewrite fupd_eq. rewrite !app_length. lia.
      + rewrite fupd_eq. now rewrite (lst_app S).
      + apply Forall_app. split.
        * eapply Forall_ok_ext; [|exact Hqs]. intros u Hu. destruct (Hsep u); [rewrite !in_app_iff; auto|].
          now rewrite !fupd_neq.
        * constructor; [|constructor]. rewrite ok_node. rewrite pres_app. change (p :: pres l ++ pres r) with (A ++ B).
          split; [split; [|split]|].
          -- rewrite fupd_neq by auto. apply fupd_eq.
          -- rewrite fupd_neq by auto. rewrite fupd_eq. rewrite !app_length. lia.
          -- rewrite fupd_neq by auto. apply fupd_eq.
          -- apply Forall_app. split.
             ++ eapply Forall_ok_ext; [|exact Hl]. intros u Hu. destruct (Hsep u); [rewrite !in_app_iff; auto|].
                now rewrite !fupd_neq.
             ++ eapply Forall_ok_ext; [|exact Hr]. intros u Hu. destruct (Hsep u); [rewrite !in_app_iff; auto|].
                now rewrite !fupd_neq.
    - rewrite pre_node, pres_app, pres_one, pre_node, pres_app.
      change (q :: pres qs ++ p :: pres l ++ pres r) with (S ++ A ++ B).
      eapply ring_join; [auto | auto | | exact RS | exact RW | | | | | |].
      + apply NoDup_rot3. exact HnWS.
      + rewrite fupd_neq by auto. rewrite fupd_eq. reflexivity.
      + change (hdz (A ++ B)) with p. rewrite fupd_neq by auto. apply fupd_eq.
      + apply fupd_eq.
      + rewrite HhS. apply fupd_eq.
      + intros x H1 H2. rewrite (fupd_neq _ (lst (A ++ B))) by auto. now rewrite fupd_neq by auto.
      + intros x H1 H2. change (hdz (A ++ B)) with p in H2. rewrite HhS in H1. rewrite (fupd_neq _ q) by auto. now rewrite fupd_neq by auto.
  Qed.

  (** The path leads down from the root of the tree. *)
  Fixpoint descends (D : rtree) (path : list Z) : Prop :=
    match path with
    | [] => True
    | q :: rest => exists l qs r, kids D = l ++ Node q qs :: r /\ descends (Node q qs) rest
    end.

  (** Along the path parents are reversed, elsewhere nothing changes. *)
  Fixpoint flipped (F F' : tfun) (l : list Z) : Prop :=
    match l with
    | a :: ((b :: _) as r) => (fpar F' a = b /\ fed F' a = fed F b) /\ flipped F F' r
    | _ => True
    end.

  Lemma descends_in : forall path D v, descends D path -> In v path -> In v (pres (kids D)).
  Proof.
    induction path as [|q rest IH]; intros D v H Hv; [destruct Hv|].
    destruct H as (l & qs & r & E & H). rewrite E, pres_app, pres_cons. rewrite !in_app_iff. right. left.
    destruct Hv as [<- | Hv]; [simpl; auto|]. right. apply (IH (Node q qs)); auto.
  Qed.

  Lemma flipped_ext : forall l F F1 F', flipped F1 F' l -> (forall v, In v (tl l) -> fed F1 v = fed F v) -> flipped F F' l.
  Proof.
    induction l as [|a l IH]; intros F F1 F' H E; [exact I|].
    destruct l as [|b l]; [exact I|]. destruct H as [[H1 H2] H3]. split.
    - split; auto. rewrite H2. apply E. simpl. auto.
    - eapply IH; [exact H3|]. intros v Hv. apply E. simpl in *. auto.
  Qed.

  Lemma reroot_loop_correct : forall path ts F D,
    rep ts F -> inv F D -> NoDup (pre D) -> Forall inr (pre D) -> Forall (fun v => 0 <= v) (pre D) ->
    descends D path ->
    exists ts' F' D', reroot_loop ts (lab D :: path) = Done ts' /\ rep ts' F' /\ inv F' D' /\
      lab D' = lst (lab D :: path) /\ NoDup (pre D') /\ (forall v, In v (pre D') <-> In v (pre D)) /\
      agree_out (pre D) F F' /\ flipped F F' (lab D :: path) /\
      (forall v, ~ In v (lab D :: path) -> fpar F' v = fpar F v /\ fed F' v = fed F v).
  Proof.
    induction path as [|q rest IH]; intros ts F D R Hi Hn Hr H0 Hd.
    - exists ts, F, D. split; [reflexivity|]. split; auto. split; auto. split; [reflexivity|]. split; auto.
      split; [tauto|]. split; [intros v _; tauto|]. split; [exact I|]. tauto.
    - destruct D as [p ks]. destruct Hd as (l & qs & r & E & Hd). cbn [kids] in E. subst ks. cbn [lab].
      assert (Hq : In q (pre (Node p (l ++ Node q qs :: r)))).
      { rewrite pre_node, pres_app, pres_cons. right. rewrite !in_app_iff. right. left. simpl. auto. }
      rewrite Forall_forall in H0.
      destruct (reroot_correct ts F p q qs l r R Hi Hn Hr) as (ts1 & F1 & E1 & R1 & I1 & P1 & G1 & O1).
      { apply H0. simpl. auto. } { apply H0. auto. }
      change (reroot_loop ts (p :: q :: rest)) with (ts' <- reroot_step ts p q ;; reroot_loop ts' (q :: rest)).
      rewrite E1. cbn [obind].
      set (D1 := Node q (qs ++ [Node p (l ++ r)])) in *.
      assert (Hpre : forall v, In v (pre D1) <-> In v (pre (Node p (l ++ Node q qs :: r)))).
      { intros v. unfold D1. rewrite !pre_node, !pres_app, pres_one, pres_cons, !pre_node, pres_app.
        cbn [In]. rewrite !in_app_iff. cbn [In]. rewrite !in_app_iff. tauto. }
      assert (Hn1 : NoDup (pre D1)).
      { unfold D1. rewrite pre_node, pres_app, pres_one, pre_node, pres_app.
        rewrite pre_node, pres_app, pres_cons, pre_node in Hn.
        change (q :: pres qs ++ p :: pres l ++ pres r) with ((q :: pres qs) ++ (p :: pres l) ++ pres r).
        apply NoDup_rot3. apply NoDup_rot. rewrite app_assoc. apply NoDup_rot. exact Hn. }
      destruct (IH ts1 F1 D1) as (ts2 & F2 & D2 & E2 & R2 & I2 & L2 & N2 & S2 & O2 & Fl2 & U2); auto.
      { apply Forall_forall. intros v Hv. apply Hpre in Hv. rewrite Forall_forall in Hr. auto. }
      { apply Forall_forall. intros v Hv. apply Hpre in Hv. auto. }
      { destruct rest as [|q2 rest]; [exact I|]. destruct Hd as (l2 & qs2 & r2 & E3 & Hd). cbn [kids] in E3.
        exists l2, qs2, (r2 ++ [Node p (l ++ r)]). split; auto. unfold D1. cbn [kids]. rewrite E3. now rewrite <- app_assoc. }
      assert (Hrest : forall v, In v (q :: rest) -> In v (pre (Node q qs))).
      { intros v [<- | Hv]; [simpl; auto|]. right. apply (descends_in rest (Node q qs)); auto. }
      assert (Hp : ~ In p (q :: rest)).
      { intros Q. apply Hrest in Q. rewrite pre_node in Hn. apply NoDup_cons_iff in Hn. destruct Hn as [Hn _].
        apply Hn. rewrite pres_app, pres_cons, !in_app_iff. auto. }
      assert (Hqr : ~ In q rest).
      { intros Q. apply (descends_in rest (Node q qs)) in Q; auto. cbn [kids] in Q.
        rewrite pre_node, pres_app, pres_cons in Hn. apply NoDup_cons_iff in Hn. destruct Hn as [_ Hn].
        apply NoDup_app_iff in Hn. destruct Hn as (_ & Hn & _). apply NoDup_app_iff in Hn. destruct Hn as (Hn & _).
        rewrite pre_node in Hn. apply NoDup_cons_iff in Hn. tauto. }
      exists ts2, F2, D2. split; [exact E2|]. split; auto. split; auto. split.
      { rewrite L2. cbn [lab D1]. symmetry. apply lst_cons. congruence. }
      split; auto. split. { intros v. rewrite S2. apply Hpre. }
      split.
      { intros v Hv. assert (Hv1 : ~ In v (pre D1)) by (rewrite Hpre; auto).
        pose proof (O1 v Hv) as (A1 & A2 & A3 & A4 & A5 & A6). pose proof (O2 v Hv1) as (B1 & B2 & B3 & B4 & B5 & B6).
        repeat split; congruence. }
      split.
      { change ((fpar F2 p = q /\ fed F2 p = fed F q) /\ flipped F F2 (q :: rest)). split.
        - destruct (U2 p Hp) as [-> ->]. rewrite P1, G1. assert (p <> q) by (intros ->; apply Hp; simpl; auto).
          rewrite !(fupd_neq _ q) by auto. rewrite !fupd_eq. auto.
        - eapply flipped_ext; [exact Fl2|]. cbn [tl lab D1]. intros v Hv. rewrite G1.
          rewrite !fupd_neq; auto; intros ->; auto. apply Hp. simpl. auto. }
      { intros v Hv. assert (v <> p /\ v <> q /\ ~ In v (q :: rest)) as (V1 & V2 & V3).
        { repeat split; intros Q; apply Hv; simpl in *; intuition. }
        destruct (U2 v V3) as [-> ->]. rewrite P1, G1. now rewrite !fupd_neq by auto. }
  Qed.

  Lemma plug_descends : forall fs q ts, exists path,
    rev (q :: labs fs) = lab (plug fs (Node q ts)) :: path /\ descends (plug fs (Node q ts)) path.
  Proof.
    intros fs q ts. induction fs as [|[[v a] b] fs IH] using rev_ind.
    - exists []. simpl. auto.
    - destruct IH as (path & E & Hd). exists (lab (plug fs (Node q ts)) :: path).
      rewrite plug_app. unfold labs in *. rewrite map_app. cbn [map plug]. change (flab (v, a, b)) with v.
      unfold fill. cbn [lab]. split.
      + cbn [rev] in *. rewrite rev_app_distr. cbn [rev app]. now rewrite E.
      + cbn [descends kids]. destruct (plug fs (Node q ts)) as [u us] eqn:Ep. exists a, us, b. split; auto.
  Qed.

  Lemma make_root_correct : forall fuel ts F fs q qs,
    rep ts F -> inv F (plug fs (Node q qs)) -> NoDup (pre (plug fs (Node q qs))) ->
    Forall inr (pre (plug fs (Node q qs))) -> Forall (fun v => 0 <= v) (pre (plug fs (Node q qs))) ->
    (length fs < fuel)%nat ->
    exists ts' F' D', make_root fuel ts q = Done ts' /\ rep ts' F' /\ inv F' D' /\
      lab D' = q /\ NoDup (pre D') /\ (forall v, In v (pre D') <-> In v (pre (plug fs (Node q qs)))) /\
      agree_out (pre (plug fs (Node q qs))) F F' /\ flipped F F' (rev (q :: labs fs)) /\
      (forall v, ~ In v (q :: labs fs) -> fpar F' v = fpar F v /\ fed F' v = fed F v).
  Proof.
    intros fuel ts F fs q qs R Hi Hn Hr H0 Hf.
    destruct (plug_descends fs q qs) as (path & E & Hd).
    assert (Hsub : forall v, In v (q :: labs fs) -> In v (pre (plug fs (Node q qs)))).
    { intros v Hv. rewrite pre_plug, !in_app_iff. destruct Hv as [<- | Hv]; [right; left; simpl; auto|].
      left. now apply labs_in_before. }
    unfold make_root. rewrite (ancestors_correct (labs fs) fuel _ (fpar F)).
    - cbn [obind]. rewrite app_nil_r, E.
      destruct (reroot_loop_correct path ts F _ R Hi Hn Hr H0 Hd) as (ts2 & F2 & D2 & E2 & R2 & I2 & L2 & N2 & S2 & O2 & Fl2 & U2).
      exists ts2, F2, D2. split; auto. split; auto. split; auto. split.
      + rewrite L2, <- E. cbn [rev]. apply lst_snoc.
      + split; auto. split; auto. split; auto. split; auto. intros v Hv. apply U2. rewrite <- E, <- in_rev. auto.
    - apply R.
    - destruct Hi as [Hi _]. eapply ok_up. exact Hi.
    - rewrite Forall_forall in *. intros v Hv. auto.
    - unfold labs. rewrite map_length. auto.
  Qed.

  (** * Adding a subtree *)
  Lemma add_correct : forall fuel ts F i p ps fs Q,
    rep ts F -> inv F (plug fs (Node p ps)) -> inv F Q ->
    NoDup (pre (plug fs (Node p ps)) ++ pre Q) ->
    Forall inr (pre (plug fs (Node p ps))) -> Forall inr (pre Q) -> 0 <= lab Q -> (length fs < fuel)%nat ->
    exists ts' F', add_edge fuel ts i p (lab Q) = Done ts' /\ rep ts' F' /\
      inv F' (plug fs (Node p (ps ++ [Q]))) /\
      fpar F' = fupd (fpar F) (lab Q) p /\ fed F' = fupd (fed F) (lab Q) i.
  Proof.
    intros fuel ts F i p ps fs Q R [Hok Hring] [HokQ HringQ] Hn Hin HinQ Hq0 Hfuel.
    pose proof (ok_up _ _ _ _ _ _ _ Hok) as Hup.
    rewrite pre_plug in Hn, Hin, Hring.
    set (S := pre (Node p ps)) in *. set (q := lab Q) in *.
    set (A := before fs ++ S) in *. set (B := after fs) in *.
    assert (HS : S <> []) by apply pre_ne.
    assert (HQ : pre Q <> []) by apply pre_ne.
    assert (HhQ : hdz (pre Q) = q) by apply pre_hd.
    assert (HA : A <> []) by (intro Q'; apply app_eq_nil in Q'; tauto).
    rewrite app_assoc in Hring, Hn, Hin. fold A in Hring, Hn, Hin.
    set (W := B ++ A) in *.
    assert (HW : W <> []) by (intro Q'; apply app_eq_nil in Q'; tauto).
    assert (HlW : lst W = lst S).
    { unfold W, A. rewrite !lst_app; auto. }
    apply ring_rot in Hring. fold W in Hring.
    assert (HnW : NoDup (W ++ pre Q)).
    { rewrite NoDup_app_iff in Hn. destruct Hn as (N1 & N2 & N3). apply NoDup_rot in N1.
      apply NoDup_app_iff. repeat split; auto. intros x Hx. apply N3. unfold W in Hx. rewrite in_app_iff in *. tauto. }
    assert (HinW : forall v, In v (W ++ pre Q) -> inr v).
    { intros v Hv. rewrite Forall_forall in *. unfold W in Hv. rewrite !in_app_iff in Hv.
      destruct Hv as [[Hv | Hv] | Hv]; auto; apply Hin; rewrite in_app_iff; auto. }
    assert (HlWr : inr (lst W)) by (apply HinW, in_or_app; left; apply lst_in; auto).
    assert (HhWr : inr (hdz W)) by (apply HinW, in_or_app; left; apply hdz_in; auto).
    assert (HlQr : inr (lst (pre Q))) by (apply HinW, in_or_app; right; apply lst_in; auto).
    assert (HqQ : In q (pre Q)) by apply lab_in.
    assert (Hqr : inr q) by (apply HinW, in_or_app; right; auto).
    assert (HpS : In p S) by (simpl; auto).
    assert (HpW : In p W) by (unfold W, A; rewrite !in_app_iff; auto).
    assert (Hpr : inr p) by (apply HinW, in_or_app; auto).
    assert (Hqn : 0 <= q < n) by (unfold inr in Hqr; lia).
    pose proof HnW as HnW'. apply NoDup_app_iff in HnW'. destruct HnW' as (NW & NQ & ND).
    assert (Dl : lst W <> lst (pre Q)).
    { intros Q'. apply (ND (lst W)); [apply lst_in; auto|]. rewrite Q'. apply lst_in; auto. }
    assert (Dh : hdz W <> q).
    { intros Q'. apply (ND (hdz W)); [apply hdz_in; auto|]. now rewrite Q'. }
    assert (Dpq : p <> q) by (intros Q'; apply (ND p); auto; now rewrite Q').
    apply ok_plug in Hok. destruct Hok as [Hf HoS]. fold S in Hf.
    pose proof (ok_last _ _ _ _ _ HoS) as Ela. cbn [lab] in Ela. fold S in Ela.
    pose proof (ok_last _ _ _ _ _ HokQ) as ElaQ. fold q in ElaQ.
    pose proof (ok_size_pos _ _ _ _ _ HokQ) as EszQ. fold q in EszQ.
    assert (Enx : fnx F (lst W) = hdz W) by (apply ring_iff in Hring; auto; tauto).
    destruct R as [Rp Rs Rx Rl Rv Re].
    unfold add_edge.
    rewrite (narr_get _ _ _ Rl Hpr). cbn [obind]. rewrite Ela, <- HlW.
    rewrite (narr_get _ _ _ Rx HlWr). cbn [obind]. rewrite Enx.
    rewrite (narr_get _ _ _ Rs Hqr). cbn [obind]. rewrite EszQ.
    rewrite (narr_get _ _ _ Rl Hqr). cbn [obind]. rewrite ElaQ.
    destruct (narr_set _ _ q p Rp Hqr) as (par' & -> & Rp'). cbn [obind].
    destruct (earr_set _ _ q i Re Hqn) as (ed' & -> & Re'). cbn [obind].
    destruct (narr_set _ _ (lst W) q Rx HlWr) as (nx1 & -> & Rx1). cbn [obind].
    destruct (narr_set _ _ q (lst W) Rv Hqr) as (pv1 & -> & Rv1). cbn [obind].
    destruct (narr_set _ _ (hdz W) (lst (pre Q)) Rv1 HhWr) as (pv2 & -> & Rv2). cbn [obind].
    destruct (narr_set _ _ (lst (pre Q)) (hdz W) Rx1 HlQr) as (nx2 & -> & Rx2). cbn [obind].
    assert (Hsl : forall u, In u (p :: labs fs) -> In u W).
    { intros u [<- | Hu]; auto. unfold W, A. rewrite !in_app_iff. right. left. now apply labs_in_before. }
    assert (Hup' : up (fupd (fpar F) q p) p (labs fs) (-2)).
    { eapply up_ext; [exact Hup|]. intros u Hu. apply fupd_neq. intros Q'.
      apply (ND u); auto. now rewrite Q'. }
    assert (NA : NoDup A) by (unfold W in NW; apply NoDup_app_iff in NW; tauto).
    assert (Hnl : NoDup (p :: labs fs)).
    { unfold A in NA. apply NoDup_app_iff in NA. destruct NA as (N1 & N2 & N3). constructor.
      - intros Q'. apply labs_in_before in Q'. apply (N3 p); auto.
      - apply labs_nodup; auto. }
    destruct (climb_correct (labs fs) fuel par' (size ts) (last_node ts) _ _ _ p (Z.of_nat (length (pre Q))) (lst W) (lst (pre Q)) Rp' Rs Rl Hup')
      as (sz' & la' & -> & Rs' & Rl'); [| exact Hnl | unfold labs; rewrite map_length; exact Hfuel|].
    { apply Forall_forall. intros u Hu. apply HinW. apply in_or_app. auto. }
    cbn [obind].
    set (path := p :: labs fs) in *.
    eexists. eexists (TF _ _ _ _ _ _).
    split; [reflexivity|]. split; [constructor; cbn [fpar fsz fnx fla fpv fed parent size next_node last_node prev_node edge]; eassumption|].
    cbn [fpar fed]. split; [|split; reflexivity].
    assert (Hsz_out : forall u, ~ In u path -> climb_sz (fsz F) path (Z.of_nat (length (pre Q))) u = fsz F u /\
      climb_la (fla F) path (lst W) (lst (pre Q)) u = fla F u).
    { intros u Hu. unfold climb_sz, climb_la. apply mem_nin in Hu. rewrite Hu. auto. }
    assert (Hsz_in : forall u, In u path -> climb_sz (fsz F) path (Z.of_nat (length (pre Q))) u = fsz F u + Z.of_nat (length (pre Q)) /\
      climb_la (fla F) path (lst W) (lst (pre Q)) u = if fla F u =? lst W then lst (pre Q) else fla F u).
    { intros u Hu. unfold climb_sz, climb_la. apply mem_in in Hu. rewrite Hu. cbn [andb]. auto. }
    split; cbn [fpar fsz fla fnx fpv].
    - assert (HnS : NoDup (before fs ++ (S ++ []) ++ after fs)).
      { rewrite app_nil_r. apply NoDup_app_iff in Hn. destruct Hn as [Hn _]. unfold A, B in Hn. now rewrite <- app_assoc in Hn. }
      assert (Hout : forall v, In v (before fs ++ after fs) -> ~ In v (labs fs) -> ~ In v path).
      { intros v Hv Hv2 [Q' | Q']; auto. subst v. clear -HnS Hv HpS. apply NoDup_app_iff in HnS.
        destruct HnS as (_ & N1 & N2). apply in_app_iff in Hv. destruct Hv as [Hv | Hv].
        - apply (N2 _ Hv). rewrite !in_app_iff. auto.
        - apply NoDup_app_iff in N1. destruct N1 as (_ & _ & N1). apply (N1 p); auto. rewrite in_app_iff. auto. }
      assert (HoutS : forall v, In v (pres ps) -> ~ In v path).
      { intros v Hv Q'. rewrite app_nil_r in HnS. apply NoDup_app_iff in HnS. destruct HnS as (_ & N1 & N2). destruct Q' as [Q' | Q'].
        - subst v. apply NoDup_app_iff in N1. destruct N1 as (N1 & _). unfold S in N1. rewrite pre_node in N1.
          apply NoDup_cons_iff in N1. tauto.
        - apply labs_in_before in Q'. apply (N2 _ Q'). rewrite in_app_iff. left. right. auto. }
      assert (Hmq : forall v, In v W -> v <> q) by (intros v Hv ->; apply (ND q); auto).
      apply ok_plug. split.
      + rewrite pre_node, pres_app, pres_one. change (p :: pres ps ++ pre Q) with (S ++ pre Q).
        replace (S ++ pre Q) with (S ++ pre Q ++ []) by now rewrite app_nil_r.
        eapply okf_in with (par := fpar F) (sz := fsz F) (la := fla F); [rewrite app_nil_r; exact Hf | auto | auto | exact HnS | |].
        * intros v Hv. rewrite <- HlW. destruct (Hsz_in v) as [E1 E2]; [right; auto|]. repeat split; auto.
          apply fupd_neq. apply Hmq. apply Hsl. right. auto.
        * intros v Hv Hv2. split; [|apply Hsz_out; auto].
          apply fupd_neq. apply Hmq. unfold W, A, B. rewrite !in_app_iff in *. tauto.
      + rewrite ok_node in HoS. destruct HoS as [(E1 & E2 & E3) E4]. rewrite ok_node. rewrite pres_app, pres_one.
        destruct (Hsz_in p) as [E5 E6]; [simpl; auto|]. split; [split; [|split]|].
        * rewrite fupd_neq by auto. exact E1.
        * rewrite E5, E2. cbn [length]. rewrite app_length. lia.
        * rewrite E6, Ela, <- HlW, Z.eqb_refl. change (p :: pres ps ++ pre Q) with (S ++ pre Q). now rewrite lst_app.
        * apply Forall_app. split.
          -- eapply Forall_ok_ext; [|exact E4]. intros v Hv. split; [|apply Hsz_out; auto].
             apply fupd_neq. apply Hmq. unfold W, A, S. rewrite !in_app_iff. simpl. auto.
          -- constructor; [|constructor]. eapply ok_ext with (sz := fsz F) (la := fla F) (par := fupd (fpar F) q p).
             ++ intros v Hv. split; auto. apply Hsz_out. intros Q'. apply (ND v); auto.
             ++ eapply ok_reparent; [exact NQ | | | exact HokQ].
                ** intros v Hv Hv2. apply fupd_neq. exact Hv2.
                ** apply fupd_eq.
    - rewrite pre_plug, pre_node, pres_app, pres_one.
      replace (before fs ++ (p :: pres ps ++ pre Q) ++ after fs) with ((A ++ pre Q) ++ B)
        by (unfold A, B, S; rewrite pre_node; lnorm; auto).
      apply ring_rot. rewrite app_assoc. fold W.
      eapply ring_join; [auto | auto | exact HnW | exact Hring | exact HringQ | | | | | |].
      + rewrite fupd_neq by auto. rewrite HhQ. apply fupd_eq.
      + rewrite HhQ. rewrite fupd_neq by auto. apply fupd_eq.
      + apply fupd_eq.
      + apply fupd_eq.
      + intros x H1 H2. now rewrite !fupd_neq by auto.
      + intros x H1 H2. rewrite HhQ in H2. now rewrite !fupd_neq by auto.
  Qed.
End Ops.
