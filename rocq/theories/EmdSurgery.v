(** Exchange of one tree edge for another: remove, re-root, add. *)
From Coq Require Import List ZArith Bool Lia Permutation.
From Verif Require Import Outcome EmdModel EmdArr EmdTree EmdOps EmdPath.
Import ListNotations.
Open Scope outcome_scope.
Open Scope Z_scope.

Lemma lst_labs : forall fs v ts, lst (v :: labs fs) = lab (plug fs (Node v ts)).
Proof.
  induction fs as [|[[u a] b] fs IH]; intros v ts; [reflexivity|].
  cbn [plug]. unfold fill. rewrite <- (IH u (a ++ Node v ts :: b)). cbn [labs map]. change (flab (u, a, b)) with u.
  fold (labs fs). apply lst_cons. congruence.
Qed.

Lemma labs_app : forall f1 f2, labs (f1 ++ f2) = labs f1 ++ labs f2.
Proof. intros. unfold labs. apply map_app. Qed.

(** Cutting the context of a node at one of its ancestors. *)
Lemma cut_frames : forall fs v Za z Zb, v :: labs fs = Za ++ z :: Zb ->
  exists g1 g2, fs = g1 ++ g2 /\ v :: labs g1 = Za ++ [z] /\ labs g2 = Zb.
Proof.
  intros fs v Za z Zb H. destruct Za as [|u Za].
  - cbn [app] in H. inversion H; subst. exists [], fs. auto.
  - cbn [app] in H. inversion H as [[H1 H2]]. subst u. clear H. revert fs H2.
    assert (Hcut : forall l1 l2 (fs : list frame), labs fs = l1 ++ l2 ->
      exists g1 g2, fs = g1 ++ g2 /\ labs g1 = l1 /\ labs g2 = l2).
    { induction l1 as [|a l1 IH]; intros l2 fs E.
      - exists [], fs. auto.
      - destruct fs as [|f fs]; [discriminate|]. cbn [labs map app] in E. inversion E as [[E1 E2]].
        destruct (IH l2 fs E2) as (g1 & g2 & -> & A & B). exists (f :: g1), g2. split; [reflexivity|]. split; auto.
        cbn [labs map]. fold (labs g1). now rewrite A. }
    intros fs H2. destruct (Hcut (Za ++ [z]) Zb fs) as (g1 & g2 & A & B & C).
    { rewrite <- app_assoc. exact H2. }
    exists g1, g2. split; auto. split; auto. rewrite B. reflexivity.
Qed.

Lemma ok_plug_inner : forall par sz la fs p t, ok par sz la p (plug fs t) -> ok par sz la (top p fs) t.
Proof. intros par sz la fs p t H. apply ok_plug in H. tauto. Qed.

Lemma head_split : forall (X1 X2 : list Z) v A B, NoDup (X1 ++ v :: A) -> X1 ++ v :: A = X2 ++ v :: B -> X1 = X2 /\ A = B.
Proof.
  induction X1 as [|a X1 IH]; intros [|b X2] v A B Hn E.
  - cbn [app] in E. inversion E. auto.
  - cbn [app] in *. inversion E. subst b A. exfalso. apply NoDup_cons_iff in Hn. destruct Hn as [Hn _]. apply Hn.
    rewrite in_app_iff. simpl. auto.
  - cbn [app] in *. inversion E. subst a. exfalso. apply NoDup_cons_iff in Hn. destruct Hn as [Hn _]. apply Hn.
    rewrite in_app_iff. simpl. auto.
  - cbn [app] in *. inversion E. subst b. apply NoDup_cons_iff in Hn. destruct Hn as [_ Hn].
    destruct (IH X2 v A B Hn) as [-> ->]; auto.
Qed.

Lemma subtree_unique : forall par sz la p f1 f2 A B, ok par sz la p (plug f1 A) -> plug f1 A = plug f2 B ->
  NoDup (pre (plug f1 A)) -> lab A = lab B -> pre A = pre B.
Proof.
  intros par sz la p f1 f2 A B Hok E Hn Hl.
  pose proof (ok_plug_inner _ _ _ _ _ _ Hok) as HA. rewrite E in Hok.
  pose proof (ok_plug_inner _ _ _ _ _ _ Hok) as HB.
  apply ok_size_pos in HA. apply ok_size_pos in HB. rewrite Hl in HA.
  assert (Hlen : length (pre A) = length (pre B)) by lia.
  assert (E2 : pre (plug f1 A) = pre (plug f2 B)) by now rewrite E.
  rewrite !pre_plug in E2. rewrite pre_plug in Hn.
  destruct A as [a ka], B as [b kb]. cbn [lab] in Hl. subst b.
  rewrite !pre_node in *. cbn [app] in E2, Hn.
  destruct (head_split _ _ _ _ _ Hn E2) as [_ E3]. f_equal.
  cbn [length] in Hlen. clear -Hlen E3. revert E3 Hlen. generalize (after f1) (after f2) (pres ka) (pres kb).
  intros a1 a2 l1. induction l1 as [|x l1 IH]; intros [|y l2] E H; try discriminate; auto.
  cbn [app] in E. inversion E. f_equal. apply IH; auto.
Qed.

Lemma path_of : forall F T fs v tv, inv F T -> T = plug fs (Node v tv) -> rpath (fpar F) (fsz F) (v :: labs fs).
Proof.
  intros F T fs v tv [Hok _] ->. split; [eapply ok_up | eapply ok_incr]; exact Hok.
Qed.

Lemma path_in : forall T fs v tv x, T = plug fs (Node v tv) -> In x (v :: labs fs) -> In x (pre T).
Proof.
  intros T fs v tv x -> [<- | H].
  - apply plug_in_pre. simpl. auto.
  - rewrite pre_plug, in_app_iff. left. now apply labs_in_before.
Qed.

(** A node is in a subtree iff the root of the subtree is on the node's path. *)
Lemma in_subtree : forall F T g D k v tv, inv F T -> NoDup (pre T) -> (forall x, In x (pre T) -> x <> -2) ->
  T = plug g D -> T = plug k (Node v tv) -> (In v (pre D) <-> In (lab D) (v :: labs k)).
Proof.
  intros F T g D k v tv Hi Hn H2 E1 E2. split.
  - intros Hv. destruct (find_node D v Hv) as (h & tv' & ED).
    assert (E3 : T = plug (h ++ g) (Node v tv')) by (rewrite plug_app, <- ED; exact E1).
    assert (Hk : labs (h ++ g) = labs k).
    { apply (rpath_det (fpar F) (fsz F) _ v).
      - intros x Hx. apply H2. apply (path_in T k v tv); auto.
      - intros x Hx. apply H2. apply (path_in T (h ++ g) v tv'); auto.
      - apply (path_of F T _ v tv'); auto.
      - apply (path_of F T _ v tv); auto. }
    rewrite <- Hk, labs_app, ED. rewrite <- (lst_labs h v tv').
    assert (In (lst (v :: labs h)) (v :: labs h)) by (apply lst_in; congruence).
    simpl in *. rewrite in_app_iff. tauto.
  - intros Hd. apply in_split in Hd. destruct Hd as (Za & Zb & EZ).
    destruct (cut_frames k v Za (lab D) Zb EZ) as (g1 & g2 & -> & A & B).
    rewrite plug_app in E2.
    assert (Hl : lab D = lab (plug g1 (Node v tv))).
    { rewrite <- (lst_labs g1 v tv), A. now rewrite lst_snoc. }
    destruct Hi as [Hok _]. rewrite E1 in Hok, Hn.
    rewrite (subtree_unique _ _ _ _ _ _ _ _ Hok (eq_trans (eq_sym E1) E2) Hn Hl). apply plug_in_pre. simpl. auto.
Qed.

Lemma flipped_ext2 : forall l F F2 F3, flipped F F2 l ->
  (forall v, In v (removelast l) -> fpar F3 v = fpar F2 v /\ fed F3 v = fed F2 v) -> flipped F F3 l.
Proof.
  induction l as [|a l IH]; intros F F2 F3 H E; [exact I|].
  destruct l as [|b l]; [exact I|]. destruct H as [[H1 H2] H3]. split.
  - destruct (E a) as [-> ->]; [simpl; auto|]. auto.
  - eapply IH; [exact H3|]. intros v Hv. apply E. simpl in *. auto.
Qed.

Lemma inv_agree : forall F F' T l, agree_out l F F' -> (forall v, In v (pre T) -> ~ In v l) -> inv F T -> inv F' T.
Proof.
  intros F F' T l Ha Hd [H1 H2]. split.
  - eapply ok_ext; [|exact H1]. intros v Hv. destruct (Ha v (Hd v Hv)) as (A & B & C & D & E & G). auto.
  - unfold ring in *. eapply chain_ext; [exact H2 | |].
    + intros x Hx. rewrite removelast_last in Hx. destruct (Ha x (Hd x Hx)) as (A & B & C & D & E & G). auto.
    + intros x Hx. assert (In x (pre T)).
      { destruct T as [v ts]. cbn [pre hdz hd app tl] in Hx. rewrite in_app_iff in Hx. simpl in Hx.
        rewrite pre_node. simpl. tauto. }
      destruct (Ha x (Hd x H)) as (A & B & C & D & E & G). auto.
Qed.

Section Surgery.
  Variable n : Z.

  Lemma frames_len : forall fs t, NoDup (pre (plug fs t)) -> (forall v, In v (pre (plug fs t)) -> inr n v) ->
    (length fs <= Z.to_nat (n + 1))%nat.
  Proof.
    intros fs t Hn Hr. destruct (Z_lt_ge_dec n (-1)) as [Hneg | Hpos].
    { exfalso. destruct (Hr (lab (plug fs t)) (lab_in _)). lia. }
    assert (L : (length (labs fs) <= Z.to_nat (n + 1))%nat).
    { rewrite pre_plug in Hn. apply NoDup_app_iff in Hn. destruct Hn as (Hn & _).
      apply labs_nodup in Hn.
      assert (Hinc : incl (labs fs) (map (fun k => Z.of_nat k - 1) (seq 0 (Z.to_nat (n + 1))))).
      { intros v Hv. assert (inr n v). { apply Hr. rewrite pre_plug, in_app_iff. left. now apply labs_in_before. }
        unfold inr in *. apply in_map_iff. exists (Z.to_nat (v + 1)). split; [lia|]. apply in_seq. lia. }
      apply NoDup_incl_length in Hinc; auto. now rewrite map_length, seq_length in Hinc. }
    unfold labs in L. now rewrite map_length in L.
  Qed.

  Lemma surgery : forall fuel ts F T fsq q tq fsp p tp Za z Zb i,
    rep n ts F -> inv F T -> lab T = -1 -> NoDup (pre T) -> (forall v, In v (pre T) <-> inr n v) ->
    T = plug fsq (Node q tq) -> q :: labs fsq = Za ++ z :: Zb -> z <> -1 ->
    T = plug fsp (Node p tp) -> ~ In z (p :: labs fsp) -> (Z.to_nat (n + 1) < fuel)%nat ->
    exists ts1 ts2 ts3 F3 T3 fs3 D',
      remove_edge fuel ts (fpar F z) z = Done ts1 /\ make_root fuel ts1 q = Done ts2 /\
      add_edge fuel ts2 i p q = Done ts3 /\ rep n ts3 F3 /\ inv F3 T3 /\ lab T3 = -1 /\
      NoDup (pre T3) /\ (forall v, In v (pre T3) <-> inr n v) /\
      fpar F3 q = p /\ fed F3 q = i /\ flipped F F3 (rev (Za ++ [z])) /\
      (forall v, ~ In v (Za ++ [z]) -> fpar F3 v = fpar F v /\ fed F3 v = fed F v) /\
      T3 = plug fs3 D' /\ lab D' = q /\ ~ In (-1) (pre D') /\ ~ In p (pre D') /\
      (forall v, inr n v -> v <> -1 -> v <> q -> (In v (pre D') <-> In (fpar F3 v) (pre D'))).
  Proof.
    intros fuel ts F T fsq q tq fsp p tp Za z Zb i R Hi HlT HnT HrT ETq EZ Hz ETp Hzp Hf.
    assert (H2 : forall x, In x (pre T) -> x <> -2) by (intros x Hx; apply HrT in Hx; unfold inr in Hx; lia).
    destruct (cut_frames fsq q Za z Zb EZ) as (g1 & g2 & -> & A & B).
    rewrite plug_app in ETq. set (D := plug g1 (Node q tq)) in *.
    assert (HlD : lab D = z). { unfold D. rewrite <- (lst_labs g1 q tq), A. apply lst_snoc. }
    destruct g2 as [|[[s a] b] fs].
    { exfalso. apply Hz. cbn [plug] in ETq. rewrite ETq in HlT. congruence. }
    assert (HzT : In z (pre T)). { rewrite ETq. apply plug_in_pre. rewrite <- HlD. apply lab_in. }
    assert (Hz0 : 0 <= z). { apply HrT in HzT. unfold inr in HzT. lia. }
    assert (Hs : fpar F z = s).
    { destruct Hi as [Hok _]. rewrite ETq in Hok. apply ok_plug_inner in Hok. rewrite <- HlD. apply ok_parent in Hok. exact Hok. }
    assert (HFr : Forall (inr n) (pre T)) by (apply Forall_forall; intros v Hv; now apply HrT).
    assert (Hlen : (length fs < fuel)%nat).
    { assert (length (@cons frame (s, a, b) fs) <= Z.to_nat (n + 1))%nat.
      { pose proof HnT as Q1. pose proof HrT as Q2. rewrite ETq in Q1, Q2.
        apply (frames_len ((s, a, b) :: fs) D); [exact Q1 | intros v Hv; apply Q2; exact Hv]. }
      cbn [length] in *. lia. }
    destruct D as [z' tk] eqn:ED. cbn [lab] in HlD. subst z'.
    assert (HpD : ~ In p (pre (Node z tk))).
    { intros Q. apply (in_subtree F T ((s, a, b) :: fs) (Node z tk) fsp p tp) in Q; auto. }
    destruct (remove_correct n fuel ts F s z a b fs tk) as (ts1 & F1 & E1 & R1 & I1 & I1' & P1 & G1); auto;
      try (pose proof HnT as Q1; pose proof HFr as Q2; pose proof Hi as Q3; rewrite ETq in Q1, Q2, Q3; assumption).
    set (M := plug fs (Node s (a ++ b))) in *.
    assert (HP : Permutation (pre T) (pre M ++ pre (Node z tk))).
    { rewrite ETq. unfold M. cbn [plug]. rewrite !pre_plug, pre_fill, (pre_node s), pres_app. lnorm.
      apply Permutation_app_head. apply perm_skip. apply Permutation_app_head.
      rewrite (Permutation_app_comm (pre (Node z tk))). lnorm. reflexivity. }
    assert (HnMD : NoDup (pre M ++ pre (Node z tk))) by (eapply Permutation_NoDup; eauto).
    assert (HT : forall v, In v (pre T) <-> In v (pre M) \/ In v (pre (Node z tk))).
    { intros v. rewrite <- in_app_iff. split; apply Permutation_in; auto. now apply Permutation_sym. }
    pose proof HnMD as HnMD'. apply NoDup_app_iff in HnMD'. destruct HnMD' as (HnM & HnD & Hdis).
    assert (HrD : Forall (inr n) (pre (Node z tk))) by (apply Forall_forall; intros v Hv; apply HrT, HT; auto).
    assert (HM1 : In (-1) (pre M)).
    { unfold M. rewrite <- HlT, ETq. cbn [plug]. destruct fs as [|f fs]; [simpl; auto|].
      replace (lab (plug (f :: fs) (fill (s, a, b) (Node z tk)))) with (lab (plug (f :: fs) (Node s (a ++ b)))); [apply lab_in|].
      unfold fill. rewrite <- !lst_labs. reflexivity. }
    assert (HD0 : forall v, In v (pre (Node z tk)) -> 0 <= v).
    { intros v Hv. rewrite Forall_forall in HrD. pose proof (HrD v Hv) as Q. unfold inr in Q.
      assert (v <> -1) by (intros ->; apply (Hdis (-1)); auto). lia. }
    rewrite <- ED in *.
    assert (Hg1 : (length g1 < fuel)%nat).
    { assert (length g1 <= Z.to_nat (n + 1))%nat; [|lia]. apply (frames_len g1 (Node q tq)); fold D; auto.
      intros v Hv. rewrite Forall_forall in HrD. auto. }
    destruct (make_root_correct n fuel ts1 F1 g1 q tq R1 I1' HnD HrD) as
      (ts2 & F2 & D' & E2 & R2 & I2 & L2 & N2 & S2 & O2 & Fl2 & U2); auto.
    { apply Forall_forall. auto. }
    fold D in S2, O2.
    assert (I2M : inv F2 M). { apply (inv_agree F1 F2 M (pre D)); auto. }
    assert (HpT : In p (pre T)) by (rewrite ETp; apply plug_in_pre; simpl; auto).
    assert (HpM : In p (pre M)) by (apply HT in HpT; tauto).
    destruct (find_node M p HpM) as (fp & tpp & EM).
    assert (HnQ : NoDup (pre (plug fp (Node p tpp)) ++ pre D')).
    { rewrite <- EM. apply NoDup_app_iff. split; auto. split; auto. intros v H1 H3. apply S2 in H3. apply (Hdis v); auto. }
    assert (HrM : forall v, In v (pre M) -> inr n v) by (intros v Hv; apply HrT, HT; auto).
    destruct (add_correct n fuel ts2 F2 i p tpp fp D' R2) as (ts3 & F3 & E3 & R3 & I3 & P3 & G3); auto.
    { now rewrite <- EM. }
    { rewrite <- EM. apply Forall_forall. auto. }
    { apply Forall_forall. intros v Hv. apply S2 in Hv. rewrite Forall_forall in HrD. auto. }
    { rewrite L2. apply HD0. unfold D. apply plug_in_pre. simpl. auto. }
    { assert (length fp <= Z.to_nat (n + 1))%nat; [|lia]. apply (frames_len fp (Node p tpp)); rewrite <- EM; auto. }
    rewrite L2 in *.
    set (T3 := plug fp (Node p (tpp ++ [D']))) in *.
    assert (HP3 : Permutation (pre T3) (pre M ++ pre D')).
    { rewrite EM. unfold T3. rewrite !pre_plug, !pre_node, pres_app, pres_one. lnorm.
      apply Permutation_app_head. apply perm_skip. apply Permutation_app_head. apply Permutation_app_comm. }
    assert (HnT3 : NoDup (pre T3)).
    { eapply Permutation_NoDup; [apply Permutation_sym; exact HP3|]. now rewrite EM. }
    assert (HrT3 : forall v, In v (pre T3) <-> inr n v).
    { intros v. rewrite <- HrT, HT, <- S2, <- in_app_iff. split; apply Permutation_in; auto. now apply Permutation_sym. }
    assert (ET3 : T3 = plug ((p, tpp, []) :: fp) D') by reflexivity.
    assert (HZn : NoDup (Za ++ [z])).
    { rewrite <- A. pose proof (path_of F1 D g1 q tq I1' eq_refl) as Q. now apply rpath_nodup in Q. }
    assert (Hlab3 : lab T3 = -1).
    { rewrite <- HlT, ETq. cbn [plug]. unfold fill, T3. rewrite <- !lst_labs. rewrite (lst_labs fp p tpp), (lst_labs fs s (a ++ b)).
      now rewrite <- EM. }
    exists ts1, ts2, ts3, F3, T3, ((p, tpp, []) :: fp), D'. rewrite Hs.
    split; [exact E1|]. split; [exact E2|]. split; [exact E3|]. split; [exact R3|]. split; [exact I3|].
    split; [exact Hlab3|]. split; [exact HnT3|]. split; [exact HrT3|].
    split; [rewrite P3; apply fupd_eq|]. split; [rewrite G3; apply fupd_eq|].
    rewrite A in Fl2, U2.
    assert (Hq3 : forall v, v <> q -> fpar F3 v = fpar F2 v /\ fed F3 v = fed F2 v).
    { intros v Hv. rewrite P3, G3. now rewrite !fupd_neq by auto. }
    split.
    { apply (flipped_ext2 _ _ F2).
      - apply (flipped_ext _ _ F1); auto. intros v Hv. rewrite G1. apply fupd_neq. intros ->.
        rewrite rev_app_distr in Hv. cbn [rev app tl] in Hv. rewrite <- in_rev in Hv.
        apply NoDup_app_iff in HZn. destruct HZn as (_ & _ & Q). apply (Q z); simpl; auto.
      - intros v Hv. apply Hq3. intros ->. rewrite <- A in Hv. cbn [rev] in Hv. rewrite removelast_last in Hv.
        rewrite <- in_rev in Hv. rewrite <- A in HZn. apply NoDup_cons_iff in HZn. tauto. }
    split.
    { intros v Hv. assert (Hvq : v <> q). { intros ->. apply Hv. rewrite <- A. simpl. auto. }
      assert (Hvz : v <> z). { intros ->. apply Hv. rewrite in_app_iff. simpl. auto. }
      destruct (Hq3 v Hvq) as [-> ->]. destruct (U2 v Hv) as [-> ->]. rewrite P1, G1. now rewrite !fupd_neq by auto. }
    split; [exact ET3|]. split; [exact L2|].
    split. { intros Q. apply S2 in Q. apply (Hdis (-1)); auto. }
    split. { intros Q. apply S2 in Q. apply (Hdis p); auto. }
    intros v Hv Hv1 Hvq.
    assert (H23 : forall x, In x (pre T3) -> x <> -2) by (intros x Hx; apply HrT3 in Hx; unfold inr in Hx; lia).
    assert (HvT : In v (pre T3)) by (now apply HrT3).
    destruct (find_node T3 v HvT) as (k & tv & Ek).
    destruct k as [|[[u ka] kb] k].
    { exfalso. apply Hv1. rewrite Ek in Hlab3. exact Hlab3. }
    assert (Hu : fpar F3 v = u).
    { pose proof (path_of F3 T3 _ v tv I3 Ek) as Q. apply rpath_tail in Q. tauto. }
    rewrite Hu. rewrite (in_subtree F3 T3 _ D' _ v tv I3 HnT3 H23 ET3 Ek).
    rewrite (in_subtree F3 T3 _ D' k u (ka ++ Node v tv :: kb) I3 HnT3 H23 ET3) by (rewrite Ek; reflexivity).
    rewrite L2. cbn [labs map]. change (flab (u, ka, kb)) with u. fold (labs k). simpl. intuition congruence.
  Qed.
End Surgery.
