(** Paths in the tree: apex, cycle, and the traversal of a subtree. *)
From Coq Require Import List ZArith Bool Lia.
From Verif Require Import Outcome EmdModel EmdArr EmdTree EmdOps.
Import ListNotations.
Open Scope outcome_scope.
Open Scope Z_scope.

Section Paths.
  Variables par sz : Z -> Z.

  (** [l] leads from its first element to the root. *)
  Definition rpath (l : list Z) : Prop :=
    match l with [] => False | v :: t => up par v t (-2) /\ incr sz v t end.

  Lemma rpath_tail : forall v u t, rpath (v :: u :: t) -> par v = u /\ sz v < sz u /\ rpath (u :: t).
  Proof. intros v u t [H1 H2]. simpl in *. tauto. Qed.

  Lemma rpath_suffix : forall l1 l2, l2 <> [] -> rpath (l1 ++ l2) -> rpath l2.
  Proof.
    induction l1 as [|v l1 IH]; intros l2 H Hp; auto. apply IH; auto.
    destruct (l1 ++ l2) as [|u t] eqn:E.
    - apply app_eq_nil in E. tauto.
    - cbn [app] in Hp. rewrite E in Hp. apply rpath_tail in Hp. tauto.
  Qed.

  Lemma rpath_lt : forall t v x, rpath (v :: t) -> In x t -> sz v < sz x.
  Proof.
    induction t as [|u t IH]; intros v x H Hx; [destruct Hx|].
    apply rpath_tail in H. destruct H as (_ & H1 & H2). destruct Hx as [<- | Hx]; auto.
    specialize (IH u x H2 Hx). lia.
  Qed.

  Lemma rpath_nodup : forall l, rpath l -> NoDup l.
  Proof.
    induction l as [|v t IH]; intros H; constructor.
    - intros Q. pose proof (rpath_lt _ _ _ H Q). lia.
    - destruct t as [|u t]; [constructor|]. apply IH. apply rpath_tail in H. tauto.
  Qed.

  Lemma rpath_det : forall l v t, (forall x, In x (v :: t) -> x <> -2) -> (forall x, In x (v :: l) -> x <> -2) ->
    rpath (v :: l) -> rpath (v :: t) -> l = t.
  Proof.
    induction l as [|u l IH]; intros v t Ht Hl H1 H2.
    - destruct t as [|w t]; auto. destruct H1 as [H1 _]. simpl in H1. apply rpath_tail in H2. destruct H2 as [H2 _].
      exfalso. apply (Ht w); [simpl; auto|]. congruence.
    - destruct t as [|w t].
      + destruct H2 as [H2 _]. simpl in H2. apply rpath_tail in H1. destruct H1 as [H1 _].
        exfalso. apply (Hl u); [simpl; auto|]. congruence.
      + pose proof (rpath_tail _ _ _ H1) as (A1 & A2 & A3). pose proof (rpath_tail _ _ _ H2) as (B1 & B2 & B3).
        assert (w = u) by congruence. clear A1 B1. subst w. f_equal. apply (IH u); auto.
        * intros x Hx. apply Ht. simpl in *. tauto.
        * intros x Hx. apply Hl. simpl in *. tauto.
  Qed.

  (** First element of a list that is in another one. *)
  Lemma first_common : forall (l1 l2 : list Z), (exists x, In x l1 /\ In x l2) ->
    exists P w U, l1 = P ++ w :: U /\ In w l2 /\ (forall x, In x P -> ~ In x l2).
  Proof.
    induction l1 as [|a l1 IH]; intros l2 (x & H1 & H2); [destruct H1|].
    destruct (in_dec Z.eq_dec a l2) as [Ha | Ha].
    - exists [], a, l1. simpl. repeat split; auto.
    - destruct H1 as [<- | H1]; [tauto|]. destruct (IH l2) as (P & w & U & E & Hw & HP); [eauto|].
      exists (a :: P), w, U. rewrite E. repeat split; auto. intros y [<- | Hy]; auto.
  Qed.

  Lemma apex_split : forall lp lq, rpath lp -> rpath lq -> (forall x, In x (lp ++ lq) -> x <> -2) ->
    (exists x, In x lp /\ In x lq) ->
    exists P Q w U, lp = P ++ w :: U /\ lq = Q ++ w :: U /\
      (forall x, In x P -> ~ In x lq) /\ (forall x, In x Q -> ~ In x lp).
  Proof.
    intros lp lq Hp Hq H2 Hx. destruct (first_common lp lq Hx) as (P & w & U & E & Hw & HP).
    apply in_split in Hw. destruct Hw as (Q & U2 & E2).
    assert (U = U2).
    { apply (rpath_det U w).
      - intros x Hi. apply H2. rewrite in_app_iff. right. rewrite E2, in_app_iff. auto.
      - intros x Hi. apply H2. rewrite in_app_iff. left. rewrite E, in_app_iff. auto.
      - apply (rpath_suffix P); [congruence|]. now rewrite <- E.
      - apply (rpath_suffix Q); [congruence|]. now rewrite <- E2. }
    subst U2. exists P, Q, w, U. repeat split; auto.
    intros x Hxq Hxp. rewrite E in Hxp. apply in_app_iff in Hxp. destruct Hxp as [Hxp | Hxp].
    - apply (HP x); auto. rewrite E2, in_app_iff. auto.
    - pose proof (rpath_nodup _ Hq) as N. rewrite E2 in N. apply NoDup_app_iff in N. destruct N as (_ & _ & N).
      apply (N x); auto.
  Qed.
End Paths.

Section Cycle.
  Variable n : Z.
  Variables (ts : tree_st) (F : tfun).
  Hypothesis R : rep n ts F.
  Notation path := (rpath (fpar F) (fsz F)).

  Lemma find_apex_correct : forall fuel P Q w U,
    path (P ++ w :: U) -> path (Q ++ w :: U) ->
    (forall x, In x P -> ~ In x Q) -> Forall (inr n) (P ++ w :: U) -> Forall (inr n) (Q ++ w :: U) ->
    (length P + length Q < fuel)%nat ->
    find_apex fuel ts (hdz (P ++ w :: U)) (hdz (Q ++ w :: U)) = Done w.
  Proof.
    destruct R as [Rp Rs _ _ _ _].
    induction fuel as [|fuel IH]; intros P Q w U Hp Hq Hd Ip Iq Hf; [lia|].
    assert (Iw : inr n w). { apply Forall_app in Ip. destruct Ip as [_ Ip]. apply Forall_inv in Ip. exact Ip. }
    destruct P as [|p P], Q as [|q Q]; cbn [hdz hd app find_apex].
    - rewrite (narr_get _ _ _ _ Rs Iw). cbn [obind]. now rewrite Z.ltb_irrefl, Z.eqb_refl.
    - assert (Iqq : inr n q) by (apply Forall_inv in Iq; exact Iq).
      rewrite (narr_get _ _ _ _ Rs Iw), (narr_get _ _ _ _ Rs Iqq). cbn [obind].
      assert (fsz F q < fsz F w). { cbn [app] in Hq. apply (rpath_lt _ _ _ _ _ Hq). rewrite in_app_iff. simpl. auto. }
      destruct (Z.ltb_spec (fsz F w) (fsz F q)); [lia|]. destruct (Z.ltb_spec (fsz F q) (fsz F w)); [|lia].
      rewrite (narr_get _ _ _ _ Rp Iqq). cbn [obind].
      specialize (IH [] Q w U). cbn [app hdz hd] in IH. cbn [app] in Hq, Iq.
      destruct (Q ++ w :: U) as [|u t] eqn:E; [destruct Q; discriminate|].
      apply rpath_tail in Hq. destruct Hq as (E1 & _ & Hq). rewrite E1. apply IH; auto.
      + inversion Iq; auto.
      + simpl in *. lia.
    - assert (Ipp : inr n p) by (apply Forall_inv in Ip; exact Ip).
      rewrite (narr_get _ _ _ _ Rs Iw), (narr_get _ _ _ _ Rs Ipp). cbn [obind].
      assert (fsz F p < fsz F w). { cbn [app] in Hp. apply (rpath_lt _ _ _ _ _ Hp). rewrite in_app_iff. simpl. auto. }
      destruct (Z.ltb_spec (fsz F p) (fsz F w)); [|lia].
      rewrite (narr_get _ _ _ _ Rp Ipp). cbn [obind].
      specialize (IH P [] w U). cbn [app hdz hd] in IH. cbn [app] in Hp, Ip.
      destruct (P ++ w :: U) as [|u t] eqn:E; [destruct P; discriminate|].
      apply rpath_tail in Hp. destruct Hp as (E1 & _ & Hp). rewrite E1. apply IH; auto.
      + inversion Ip; auto.
      + simpl in *. lia.
    - assert (Ipp : inr n p) by (apply Forall_inv in Ip; exact Ip).
      assert (Iqq : inr n q) by (apply Forall_inv in Iq; exact Iq).
      rewrite (narr_get _ _ _ _ Rs Ipp), (narr_get _ _ _ _ Rs Iqq). cbn [obind].
      rewrite (narr_get _ _ _ _ Rp Ipp), (narr_get _ _ _ _ Rp Iqq). cbn [obind].
      pose proof Hp as Hp'. pose proof Hq as Hq'.
      assert (Ep : fpar F p = hdz (P ++ w :: U) /\ path (P ++ w :: U)).
      { cbn [app] in Hp. destruct (P ++ w :: U) as [|u t] eqn:E; [destruct P; discriminate|].
        apply rpath_tail in Hp. tauto. }
      assert (Eq : fpar F q = hdz (Q ++ w :: U) /\ path (Q ++ w :: U)).
      { cbn [app] in Hq. destruct (Q ++ w :: U) as [|u t] eqn:E; [destruct Q; discriminate|].
        apply rpath_tail in Hq. tauto. }
      destruct Ep as [-> Hp2], Eq as [-> Hq2].
      assert (p <> q) by (intros ->; apply (Hd q); simpl; auto).
      cbn [app] in Ip, Iq.
      assert (Ip2 : Forall (inr n) (P ++ w :: U)) by (inversion Ip; auto).
      assert (Iq2 : Forall (inr n) (Q ++ w :: U)) by (inversion Iq; auto).
      destruct (Z.ltb_spec (fsz F p) (fsz F q)).
      + change q with (hdz ((q :: Q) ++ w :: U)). apply IH; auto.
        * intros x G1. apply Hd. right. auto.
        * simpl in *. lia.
      + destruct (Z.ltb_spec (fsz F q) (fsz F p)).
        * change p with (hdz ((p :: P) ++ w :: U)). apply IH; auto.
          -- intros x G1 G2. apply (Hd x); auto. right. auto.
          -- simpl in *. lia.
        * destruct (Z.eqb_spec p q); [tauto|]. apply IH; auto.
          -- intros x G1 G2. apply (Hd x); right; auto.
          -- simpl in *. lia.
  Qed.

  Lemma trace_path_correct : forall P fuel w U,
    path (P ++ w :: U) -> Forall (inr n) P -> Forall (fun v => 0 <= v) P -> (length P <= fuel)%nat ->
    trace_path fuel ts (hdz (P ++ w :: U)) w = Done (P ++ [w], map (fed F) P).
  Proof.
    destruct R as [Rp _ _ _ _ Re].
    induction P as [|p P IH]; intros fuel w U Hp Ir I0 Hf.
    - cbn [app hdz hd]. destruct fuel; cbn [trace_path]; rewrite Z.eqb_refl; reflexivity.
    - destruct fuel as [|fuel]; [simpl in Hf; lia|]. cbn [app hdz hd trace_path].
      assert (p <> w).
      { pose proof (rpath_lt _ _ _ _ w Hp) as Q. intros ->.
        assert (In w (P ++ w :: U)) by (rewrite in_app_iff; simpl; auto). specialize (Q H). lia. }
      destruct (Z.eqb_spec p w); [tauto|].
      assert (Ip : inr n p) by (apply Forall_inv in Ir; auto).
      assert (Ip0 : 0 <= p < n) by (apply Forall_inv in I0; unfold inr in Ip; lia).
      rewrite (earr_get _ _ _ _ Re Ip0), (narr_get _ _ _ _ Rp Ip). cbn [obind].
      assert (Ep : fpar F p = hdz (P ++ w :: U) /\ path (P ++ w :: U)).
      { cbn [app] in Hp. destruct (P ++ w :: U) as [|u t] eqn:E; [destruct P; discriminate|].
        apply rpath_tail in Hp. tauto. }
      destruct Ep as [-> Hp2]. rewrite IH; auto.
      + inversion Ir; auto.
      + inversion I0; auto.
      + simpl in Hf. lia.
  Qed.

  Lemma find_cycle_correct : forall fuel i P Q w U,
    path (P ++ w :: U) -> path (Q ++ w :: U) ->
    (forall x, In x P -> ~ In x Q) -> Forall (inr n) (P ++ w :: U) -> Forall (inr n) (Q ++ w :: U) ->
    Forall (fun v => 0 <= v) (P ++ Q) -> ~ In i (map (fed F) P) ->
    (length P + length Q < fuel)%nat ->
    find_cycle fuel ts i (hdz (P ++ w :: U)) (hdz (Q ++ w :: U)) =
      Done (w :: rev P ++ Q, rev (map (fed F) P) ++ i :: map (fed F) Q).
  Proof.
    intros fuel i P Q w U Hp Hq Hd Ip Iq I0 Hi Hf. unfold find_cycle.
    rewrite (find_apex_correct fuel P Q w U) by auto. cbn [obind].
    apply Forall_app in I0. destruct I0 as [I1 I2].
    rewrite (trace_path_correct P fuel w U) by (auto; try lia; apply Forall_app in Ip; tauto). cbn [obind].
    rewrite (trace_path_correct Q fuel w U) by (auto; try lia; apply Forall_app in Iq; tauto). cbn [obind].
    rewrite removelast_last. rewrite rev_app_distr. cbn [rev app]. f_equal. f_equal.
    destruct (rev (map (fed F) P)) as [|a t] eqn:E; [reflexivity|].
    destruct (Z.eqb_spec a i) as [->|]; [|reflexivity].
    exfalso. apply Hi. rewrite in_rev, E. simpl. auto.
  Qed.

  Lemma shift_subtree_correct : forall l fuel pots fp q d,
    chain (fnx F) (fpv F) (q :: l) -> NoDup (q :: l) -> Forall (fun v => 0 <= v < n) (q :: l) ->
    earr n pots fp -> (length l <= fuel)%nat ->
    exists pots', shift_subtree fuel pots (next_node ts) q (lst (q :: l)) d = Done pots' /\
      earr n pots' (fun v => if mem v l then fp v + d else fp v).
  Proof.
    destruct R as [_ _ Rx _ _ _].
    induction l as [|u l IH]; intros fuel pots fp q d Hc Hn Hr Hp Hf.
    - exists pots. split; auto. change (lst [q]) with q. destruct fuel; cbn [shift_subtree]; rewrite Z.eqb_refl; reflexivity.
    - destruct fuel as [|fuel]; [simpl in Hf; lia|]. destruct Hc as [[E1 E2] Hc].
      apply NoDup_cons_iff in Hn. destruct Hn as [Hn1 Hn2]. rewrite lst_cons by congruence.
      cbn [shift_subtree].
      destruct (Z.eqb_spec q (lst (u :: l))) as [E|E].
      { exfalso. apply Hn1. rewrite E. apply lst_in. congruence. }
      assert (Hr2 : Forall (fun v => 0 <= v < n) (u :: l)) by (inversion Hr; auto).
      apply Forall_inv in Hr. pose proof (Forall_inv Hr2) as Hu. cbv beta in Hu.
      rewrite (narr_get _ _ _ _ Rx) by (unfold inr; lia). cbn [obind]. rewrite E1.
      rewrite (earr_get _ _ _ _ Hp Hu). cbn [obind].
      destruct (earr_set _ _ _ u (fp u + d) Hp Hu) as (p1 & -> & Hp1). cbn [obind].
      destruct (IH fuel p1 _ u d Hc Hn2 Hr2 Hp1) as (p2 & -> & Hp2); [simpl in Hf; lia|].
      exists p2. split; auto. eapply earr_ext; [exact Hp2|]. intros v Hv. unfold fupd.
      change (mem v (u :: l)) with ((v =? u) || mem v l). destruct (Z.eqb_spec v u) as [->|]; cbn [orb]; auto.
      apply NoDup_cons_iff in Hn2. destruct Hn2 as [Hn2 _]. apply mem_nin in Hn2. now rewrite Hn2.
  Qed.
End Cycle.
