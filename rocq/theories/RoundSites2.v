(** Two runs of the expansion of an asymmetric unit which compare alike keep the same sites. *)
From Coq Require Import List ZArith Arith Bool Lia Reals Lra.
From Verif Require Import Num Base Outcome NNModel VecR SpecGeom CalcModel CalcProofs CompareModel
  SitesModel SpecSites SitesProofs SitesExpand RoundModel SpecRound RoundCalc RoundSitesModel SpecRoundSites RoundSites.
Import ListNotations.
Open Scope R_scope.
Open Scope list_scope.
Notation length := List.length.

Lemma site_eq_neq_r : forall ar tol (p q : list R), @site_eq R (num_of ar) tol p q = negb (@site_neq R (num_of ar) tol p q).
Proof.
  intros ar tol. unfold site_eq, site_neq. induction p as [|a p IH]; intros [|b q]; auto.
  cbn [map2 forallb existsb]. rewrite IH, negb_orb. f_equal. unfold coord_neq. cbv zeta. cbn [nltb nleb num_of].
  rewrite negb_andb. f_equal; match goal with |- Rleb ?x _ = _ => generalize x end; intros x;
    destruct (Rleb x tol) eqn:E, (Rltb tol x) eqn:F; auto;
    rewrite ?Rleb_true, ?Rleb_false, ?Rltb_true, ?Rltb_false in *; lra.
Qed.

Section Alike.
  Variables (ar : arith) (tol : R) (Rel : list R -> list R -> Prop).
  Let N := num_of ar.
  Hypothesis Same : forall p p' q q', Rel p p' -> Rel q q' -> @site_neq R N tol p' q' = site_neq tol p q.

  Lemma same_eq : forall p p' q q', Rel p p' -> Rel q q' -> @site_eq R N tol p' q' = site_eq tol p q.
  Proof. intros. unfold N. rewrite site_eq_neq_r, site_eq_neq. f_equal. apply Same; auto. Qed.

  Lemma alike_forallb : forall p p' seen seen', Rel p p' -> Forall2 Rel seen seen' ->
    forallb (fun q => @site_neq R N tol q p') seen' = forallb (fun q => site_neq tol q p) seen.
  Proof. intros p p' seen seen' Hp F. induction F as [|q q' l l' Hq F IH]; [reflexivity|]. cbn [forallb]. rewrite IH. f_equal. apply Same; auto. Qed.

  Lemma alike_unique_from : forall sites sites' seen seen', Forall2 Rel sites sites' -> Forall2 Rel seen seen' ->
    @unique_from R N tol seen' sites' = unique_from tol seen sites.
  Proof.
    intros sites sites' seen seen' F. revert seen seen'. induction F as [|p p' l l' Hp F IH]; intros seen seen' G; [reflexivity|]. cbn [unique_from]. f_equal.
    - apply alike_forallb; auto.
    - apply IH. apply Forall2_app; auto.
  Qed.
  Lemma alike_unique : forall sites sites', Forall2 Rel sites sites' -> @unique_sites R N tol sites' = unique_sites tol sites.
  Proof. intros. apply alike_unique_from; auto. Qed.

  Lemma alike_select : forall A B (Q : A -> B -> Prop) mask l l', Forall2 Q l l' -> Forall2 Q (select mask l) (select mask l').
  Proof.
    intros A B Q mask. unfold select. induction mask as [|b mask IH]; intros l l' F; [constructor|]. destruct F as [|x x' l l' Hx F]; [constructor|].
    cbn [combine filter fst]. destruct b; cbn [map snd]; [constructor; auto|auto].
  Qed.
  Lemma alike_images : forall sites sites', Forall2 Rel sites sites' -> Forall2 Rel (unique_images tol sites) (@unique_images R N tol sites').
  Proof. intros sites sites' F. unfold unique_images. rewrite (alike_unique _ _ F). apply alike_select; auto. Qed.

  Lemma alike_enumerate : forall A B (Q : A -> B -> Prop) l l', Forall2 Q l l' -> Forall2 (fun x y => fst x = fst y /\ Q (snd x) (snd y)) (enumerate l) (enumerate l').
  Proof.
    intros A B Q l l' F. unfold enumerate. rewrite <- (F2_len _ _ _ _ _ F). generalize (seq 0 (length l)). induction F as [|x x' l l' Hx F IH]; intros [|i s]; cbn; constructor; auto.
  Qed.

  Lemma alike_reduce : forall ex ex', Forall2 (Forall2 Rel) ex ex' ->
    Forall2 Rel (fst (reduce_expanded_sites tol ex)) (fst (@reduce_expanded_sites R N tol ex')) /\
    snd (@reduce_expanded_sites R N tol ex') = snd (reduce_expanded_sites tol ex).
  Proof.
    intros ex ex' F. unfold reduce_expanded_sites. cbn [fst snd]. split.
    - induction F as [|x x' ex ex' Hx F IH]; [constructor|]. cbn [flat_map]. apply Forall2_app; auto. apply alike_images; auto.
    - pose proof (alike_enumerate _ _ _ _ _ F) as G. change (vec R) with (list R). revert G. generalize (enumerate ex) (enumerate ex'). clear F. intros l l' G. induction G as [|[i x] [i' x'] l l' [Hi Hx] G IH]; [reflexivity|]. cbn [flat_map fst snd] in *. subst i'. rewrite IH. f_equal. f_equal.
      symmetry. apply (F2_len _ _ _ _ _ (alike_images _ _ Hx)).
  Qed.

  Lemma alike_first : forall p p' motif motif', Rel p p' -> Forall2 Rel motif motif' -> @first_eq R N tol p' motif' = first_eq tol p motif.
  Proof. intros p p' motif motif' Hp F. induction F as [|q q' l l' Hq F IH]; [reflexivity|]. cbn [first_eq]. rewrite (same_eq _ _ _ _ Hp Hq), IH. reflexivity. Qed.

  Definition alike_state (st st' : list (list R) * list nat * list warning) : Prop :=
    Forall2 Rel (fst (fst st)) (fst (fst st')) /\ snd (fst st) = snd (fst st') /\ snd st = snd st'.

  Lemma alike_step : forall st st' ie ie', alike_state st st' -> fst ie = fst ie' /\ Forall2 Rel (snd ie) (snd ie') ->
    alike_state (equiv_step tol st ie) (@equiv_step R N tol st' ie').
  Proof.
    intros [[motif invs] warn] [[motif' invs'] warn'] [i sites] [i' sites'] (F & E1 & E2) [E3 G]. cbn [fst snd] in *. subst invs' warn' i'. unfold equiv_step.
    pose proof (alike_images _ _ G) as K. set (images := unique_images tol sites) in *. set (images' := @unique_images R N tol sites') in *. clearbody images images'.
    assert (P : Forall2 Rel (filter (fun s => match first_eq tol s motif with None => true | _ => false end) images) (filter (fun s => match @first_eq R N tol s motif' with None => true | _ => false end) images')).
    { induction K as [|p p' l l' Hp K IH]; [constructor|]. cbn [filter]. rewrite (alike_first _ _ _ _ Hp F). destruct (first_eq tol p motif); auto. }
    unfold alike_state. cbn [fst snd]. split; [apply Forall2_app; auto|]. split.
    - f_equal. f_equal. exact (F2_len _ _ _ _ _ P).
    - f_equal. clear P. induction K as [|p p' l l' Hp K IH]; [reflexivity|]. cbn [flat_map]. rewrite (alike_first _ _ _ _ Hp F), IH. reflexivity.
  Qed.

  Lemma alike_equiv : forall ex ex', Forall2 (Forall2 Rel) ex ex' ->
    match reduce_expanded_equiv_sites tol ex, @reduce_expanded_equiv_sites R N tol ex' with
    | Done st, Done st' => alike_state st st' | Raise e, Raise e' => e = e' | _, _ => False end.
  Proof.
    intros ex ex' F. unfold reduce_expanded_equiv_sites. pose proof (alike_enumerate _ _ _ _ _ F) as G. change (vec R) with (list R). revert G. generalize (enumerate ex) (enumerate ex'). clear F. intros e e' G. destruct G as [|[i x] [i' x'] l l' [Hi Hx] G]; [reflexivity|]. cbn [fst snd] in *. subst i'.
    pose proof (alike_images _ _ Hx) as K.
    assert (ST : alike_state (unique_images tol x, repeat 0%nat (length (unique_images tol x)), []) (@unique_images R N tol x', repeat 0%nat (length (@unique_images R N tol x')), [])).
    { unfold alike_state. cbn [fst snd]. split; [exact K|]. split; [f_equal; exact (F2_len _ _ _ _ _ K)|reflexivity]. }
    assert (FO : forall st st', alike_state st st' -> alike_state (fold_left (equiv_step tol) l st) (fold_left (@equiv_step R N tol) l' st')).
    { clear - G Same. induction G as [|ie ie' l l' H G IH]; intros st st' ST; cbn [fold_left]; auto. apply IH. apply alike_step; auto. }
    exact (FO _ _ ST).
  Qed.

  Variables (m m' : R -> R) (asym : list (list R)) (ops : list operation).
  Hypothesis Images : forall g q, In g ops -> In q asym -> Rel (map m (apply_op g q)) (map m' (@apply_op R N g q)).

  Lemma alike_expand : forall uniquify,
    match expand_asym_unit m tol uniquify asym ops, @expand_asym_unit R N m' tol uniquify asym ops with
    | Done st, Done st' => alike_state st st' | Raise e, Raise e' => e = e' | _, _ => False end.
  Proof.
    intros uniquify. unfold expand_asym_unit.
    assert (EX : Forall2 (Forall2 Rel) (expand_sites m asym ops) (@expand_sites R N m' asym ops)).
    { unfold expand_sites. clear Same. induction asym as [|q l IH]; [constructor|]. cbn [map]. constructor; [|apply IH; intros; apply Images; auto; right; auto].
      assert (I : forall g, In g ops -> Rel (map m (apply_op g q)) (map m' (@apply_op R N g q))) by (intros; apply Images; auto; left; auto). clear - I.
      induction ops as [|g t IH]; [constructor|]. cbn [map]. constructor; [apply I; left; auto|apply IH; intros; apply I; right; auto]. }
    destruct (alike_reduce _ _ EX) as [F E]. destruct (reduce_expanded_sites tol (expand_sites m asym ops)) as [motif invs]. destruct (@reduce_expanded_sites R N tol (@expand_sites R N m' asym ops)) as [motif' invs'].
    cbn [fst snd] in *. subst invs'. rewrite (alike_unique _ _ F). destruct (uniquify && negb _)%bool; [apply alike_equiv; auto|]. unfold alike_state. auto.
  Qed.
End Alike.
