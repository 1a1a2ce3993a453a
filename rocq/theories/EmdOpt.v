(** The state in which the pivot loop ends carries dual variables for its flow. *)
From Coq Require Import List ZArith Bool Lia Permutation.
From Verif Require Import Outcome EmdModel EmdArr EmdTree EmdOps EmdPath EmdFlow EmdSurgery EmdCycle EmdPivot EmdTerm
  EmdInit Sums EmdCert.
Import ListNotations.
Open Scope outcome_scope.
Open Scope Z_scope.

Lemma lsum_arange : forall f a k, lsum f (arange a (a + Z.of_nat k)) = ZSum k (fun j => f (a + Z.of_nat j)).
Proof.
  intros f a. induction k as [|k IH].
  - rewrite arange_nil by lia. reflexivity.
  - rewrite arange_snoc by lia. replace (a + Z.of_nat (S k) - 1) with (a + Z.of_nat k) by lia.
    rewrite lsum_app, lsum_cons, IH. cbn [ZSum lsum fold_right]. lia.
Qed.

Lemma lsum_rect : forall f k l, lsum f (arange 0 (Z.of_nat k * Z.of_nat l)) =
  ZSum k (fun i => ZSum l (fun j => f (Z.of_nat i * Z.of_nat l + Z.of_nat j))).
Proof.
  intros f k l. induction k as [|k IH].
  - rewrite arange_nil by lia. reflexivity.
  - rewrite (arange_split 0 (Z.of_nat k * Z.of_nat l)) by lia. rewrite lsum_app, IH. cbn [ZSum]. f_equal.
    replace (Z.of_nat (S k) * Z.of_nat l) with (Z.of_nat k * Z.of_nat l + Z.of_nat l) by lia. apply lsum_arange.
Qed.

Lemma lsum_incl : forall f l L, NoDup l -> incl l L -> (forall a, In a L -> 0 <= f a) -> lsum f l <= lsum f L.
Proof.
  intros f l. induction l as [|a l IH]; intros L Hn Hi Hp.
  - cbn [lsum fold_right]. now apply lsum_nonneg.
  - assert (Ha : In a L) by (apply Hi; simpl; auto). apply in_split in Ha. destruct Ha as (l1 & l2 & ->).
    apply NoDup_cons_iff in Hn. destruct Hn as [Hn1 Hn2].
    specialize (IH (l1 ++ l2) Hn2). rewrite lsum_app, lsum_cons in *.
    assert (Q : lsum f l <= lsum f l1 + lsum f l2); [|rewrite lsum_cons; lia].
    apply IH.
    + intros b Hb. assert (Hb' : In b (l1 ++ a :: l2)) by (apply Hi; simpl; auto).
      rewrite in_app_iff in *. simpl in Hb'. destruct Hb' as [H | [-> | H]]; auto. contradiction.
    + intros b Hb. apply Hp. rewrite in_app_iff in *. simpl. tauto.
Qed.

Section Opt.
  Variable I : inst.
  Notation n := (ns I + nd I).
  Notation e := (ns I * nd I).
  Notation m := (e + n).
  Hypothesis G : good I.
  Notation n1 := (Z.to_nat (ns I)).
  Notation n2 := (Z.to_nat (nd I)).

  Definition arcid (i j : nat) : Z := Z.of_nat i * nd I + Z.of_nat j.

  Lemma arcid_spec : forall i j, (i < n1)%nat -> (j < n2)%nat ->
    0 <= arcid i j < e /\ tl_ I (arcid i j) = Z.of_nat i /\ hd_ I (arcid i j) = ns I + Z.of_nat j.
  Proof.
    intros i j Hi Hj. unfold arcid, tl_, hd_. assert (0 <= Z.of_nat i * nd I + Z.of_nat j < e) by nia.
    split; auto. destruct (Z.ltb_spec (Z.of_nat i * nd I + Z.of_nat j) e); [|lia].
    rewrite Z.div_add_l by lia. rewrite (Z.add_comm (Z.of_nat i * nd I)), Z.mod_add by lia.
    rewrite Z.div_small, Z.mod_small by lia. lia.
  Qed.

  Lemma arcs_sum : forall f, lsum f (arange 0 m) =
    ZSum n1 (fun i => ZSum n2 (fun j => f (arcid i j))) + lsum f (arange e m).
  Proof.
    intros f. destruct G as [g1 g2 _ _ _ _ _ _]. rewrite (arange_split 0 e m) by nia. rewrite lsum_app. f_equal.
    replace e with (Z.of_nat n1 * Z.of_nat n2) by lia. rewrite lsum_rect. apply ZSum_ext. intros i Hi. apply ZSum_ext. intros j Hj.
    unfold arcid. f_equal. lia.
  Qed.

  Lemma art_sum : forall x v, 0 <= v < n ->
    lsum (fun a => inc I a v * x a) (arange e m) = (if v <? ns I then 1 else -1) * x (e + v).
  Proof.
    intros x v Hv. destruct G as [g1 g2 _ _ _ _ _ _]. rewrite (lsum_single _ _ (e + v)).
    - f_equal. pose proof (arc_art I G (e + v) ltac:(lia)) as A. unfold inc. replace (e + v - e) with v in A by lia.
      destruct A as [(A1 & A2 & _ & A4) | (A1 & A2 & _ & A4)]; rewrite A1, A2; rewrite Z.eqb_refl;
        destruct (Z.eqb_spec (-1) v); destruct (Z.ltb_spec v (ns I)); lia.
    - apply arange_nodup.
    - apply arange_in. lia.
    - intros b Hb Hne. apply arange_in in Hb. pose proof (arc_art I G b ltac:(lia)) as A. unfold inc.
      destruct (Z.eqb_spec (tl_ I b) v) as [K1|K1]; destruct (Z.eqb_spec (hd_ I b) v) as [K2|K2]; lia.
  Qed.

  Section State.
    Variables (F : tfun) (T : rtree) (x pi : Z -> Z).
    Hypothesis HT : TInv I F T.
    Hypothesis HF : FInv I F x pi.

    Lemma row_sum : forall i, (i < n1)%nat -> ZSum n2 (fun j => x (arcid i j)) + x (e + Z.of_nat i) = sup I (Z.of_nat i).
    Proof.
      intros i Hi. pose proof (f_con _ _ _ _ HF (Z.of_nat i)) as Q. destruct (Z.ltb_spec (Z.of_nat i) (ns I)) as [H|H]; [|lia].
      rewrite <- Q by (destruct G; lia). rewrite arcs_sum, art_sum by (destruct G; lia).
      destruct (Z.ltb_spec (Z.of_nat i) (ns I)) as [_|]; [|lia].
      rewrite (ZSum_single n1 _ i Hi).
      - rewrite (ZSum_ext n2 (fun j => inc I (arcid i j) (Z.of_nat i) * x (arcid i j)) (fun j => x (arcid i j))); [lia|].
        intros j Hj. destruct (arcid_spec i j Hi Hj) as (_ & A1 & A2). unfold inc. rewrite A1, A2, Z.eqb_refl.
        destruct (Z.eqb_spec (ns I + Z.of_nat j) (Z.of_nat i)); lia.
      - intros k Hk Hne. apply ZSum_zero. intros j Hj. destruct (arcid_spec k j Hk Hj) as (_ & A1 & A2). unfold inc. rewrite A1, A2.
        destruct (Z.eqb_spec (Z.of_nat k) (Z.of_nat i)); [lia|]. destruct (Z.eqb_spec (ns I + Z.of_nat j) (Z.of_nat i)); lia.
    Qed.

    Lemma col_sum : forall j, (j < n2)%nat ->
      ZSum n1 (fun i => x (arcid i j)) + x (e + (ns I + Z.of_nat j)) = sup I (ns I + Z.of_nat j).
    Proof.
      intros j Hj. pose proof (f_con _ _ _ _ HF (ns I + Z.of_nat j)) as Q.
      destruct (Z.ltb_spec (ns I + Z.of_nat j) (ns I)) as [H|H]; [lia|].
      specialize (Q ltac:(destruct G; lia)). rewrite arcs_sum, art_sum in Q by (destruct G; lia).
      destruct (Z.ltb_spec (ns I + Z.of_nat j) (ns I)) as [|_]; [lia|].
      rewrite ZSum_swap in Q. rewrite (ZSum_single n2 _ j Hj) in Q.
      - rewrite (ZSum_ext n1 _ (fun i => -1 * x (arcid i j))) in Q; [rewrite ZSum_scal in Q; lia|].
        intros i Hi. destruct (arcid_spec i j Hi Hj) as (_ & A1 & A2). unfold inc. rewrite A1, A2, Z.eqb_refl.
        destruct (Z.eqb_spec (Z.of_nat i) (ns I + Z.of_nat j)); lia.
      - intros k Hk Hne. apply ZSum_zero. intros i Hi. destruct (arcid_spec i k Hi Hk) as (_ & A1 & A2). unfold inc. rewrite A1, A2.
        destruct (Z.eqb_spec (Z.of_nat i) (ns I + Z.of_nat j)); [lia|].
        destruct (Z.eqb_spec (ns I + Z.of_nat k) (ns I + Z.of_nat j)); lia.
    Qed.

    (** Artificial edges with flow are tree edges. *)
    Lemma art_tree : forall v, 0 <= v < n -> 0 < x (e + v) -> rc I pi (e + v) = 0.
    Proof.
      intros v Hv Hx. pose proof (g_ns _ G) as g1. pose proof (g_nd _ G) as g2. destruct (in_dec Z.eq_dec (e + v) (map (fed F) (arange 0 n))) as [Hin | Hin].
      - apply in_map_iff in Hin. destruct Hin as (u & E & Hu). apply arange_in in Hu. rewrite <- E. apply (f_rc _ _ _ _ HF u Hu).
      - exfalso. assert (x (e + v) = 0); [|lia]. apply (f_art _ _ _ _ HF); [lia|]. intros u Hu E. apply Hin.
        apply in_map_iff. exists u. split; auto. now apply arange_in.
    Qed.

    Lemma art_pi : forall v, 0 <= v < n -> rc I pi (e + v) = 0 -> pi v = if v <? ns I then big I else - big I.
    Proof.
      intros v Hv R. unfold rc, cost_ in R. destruct (Z.ltb_spec (e + v) e); [lia|].
      pose proof (arc_art I G (e + v) ltac:(lia)) as A. replace (e + v - e) with v in A by lia.
      pose proof (f_pi0 _ _ _ _ HF) as P0.
      destruct A as [(A1 & A2 & _ & A4) | (A1 & A2 & _ & A4)]; rewrite A1, A2, P0 in R; destruct (Z.ltb_spec v (ns I)); lia.
    Qed.

    Hypothesis HS : forall a, 0 <= a < e -> 0 <= srch I x pi a.

    Lemma slack_arc : forall a, 0 <= a < e -> (x a < cap_ I a -> 0 <= rc I pi a) /\ (0 < x a -> rc I pi a <= 0).
    Proof.
      intros a Ha. pose proof (g_ns _ G) as g1. pose proof (g_nd _ G) as g2. specialize (HS a Ha). unfold srch in HS. pose proof (f_cap _ _ _ _ HF a ltac:(lia)) as Hc.
      destruct (Z.eqb_spec (x a) 0) as [E|E]; split; intros L; try lia.
      destruct (in_dec Z.eq_dec a (map (fed F) (arange 0 n))) as [Hin | Hin].
      - apply in_map_iff in Hin. destruct Hin as (u & Eu & Hu). apply arange_in in Hu. rewrite <- Eu. rewrite (f_rc _ _ _ _ HF u Hu). lia.
      - exfalso. assert (x a = 0 \/ x a = cap_ I a); [|lia]. apply (f_nt _ _ _ _ HF); [lia|]. intros u Hu Eu. apply Hin.
        apply in_map_iff. exists u. split; auto. now apply arange_in.
    Qed.

    Hypothesis Hbig : lsum (cst I) (arange 0 e) < 2 * big I.

    Theorem cert_inv : cert n1 n2 (fun i => sup I (Z.of_nat i)) (fun j => sup I (ns I + Z.of_nat j))
      (fun i j => cst I (arcid i j)) (fun i j => cpc I (arcid i j)) (fun i j => x (arcid i j))
      (fun i => x (e + Z.of_nat i)) (fun j => x (e + (ns I + Z.of_nat j)))
      (fun i => pi (Z.of_nat i)) (fun j => pi (ns I + Z.of_nat j)) (big I).
    Proof.
      pose proof (g_ns _ G) as g1. pose proof (g_nd _ G) as g2.
      assert (Hc : forall i j, (i < n1)%nat -> (j < n2)%nat -> cap_ I (arcid i j) = cpc I (arcid i j) /\ cost_ I (arcid i j) = cst I (arcid i j)).
      { intros i j Hi Hj. destruct (arcid_spec i j Hi Hj) as (H & _). unfold cap_, cost_. destruct (Z.ltb_spec (arcid i j) e); [auto|lia]. }
      constructor.
      - intros i j Hi Hj. destruct (arcid_spec i j Hi Hj) as (H & _). destruct (Hc i j Hi Hj) as [<- _].
        apply (f_cap _ _ _ _ HF). lia.
      - apply row_sum.
      - apply col_sum.
      - intros i Hi. apply (f_cap _ _ _ _ HF). destruct G. lia.
      - intros j Hj. apply (f_cap _ _ _ _ HF). destruct G. lia.
      - intros i Hi Hx. rewrite art_pi; [|destruct G; lia|apply art_tree; auto; destruct G; lia].
        destruct (Z.ltb_spec (Z.of_nat i) (ns I)); lia.
      - intros j Hj Hx. rewrite art_pi; [|destruct G; lia|apply art_tree; auto; destruct G; lia].
        destruct (Z.ltb_spec (ns I + Z.of_nat j) (ns I)); lia.
      - constructor; intros i j Hi Hj L; destruct (arcid_spec i j Hi Hj) as (H & A1 & A2);
          destruct (Hc i j Hi Hj) as [Ec1 Ec2]; destruct (slack_arc _ H) as [S1 S2]; unfold rc in *; rewrite A1, A2, Ec2 in *.
        + rewrite Ec1 in S1. specialize (S1 L). lia.
        + specialize (S2 L). lia.
      - intros i j Hi Hj. destruct (arcid_spec i j Hi Hj) as (H & _). apply (g_cst _ G). lia.
      - assert (E : lsum (cst I) (arange 0 e) = ZSum n1 (fun i => ZSum n2 (fun j => cst I (arcid i j)))).
        { replace e with (Z.of_nat n1 * Z.of_nat n2) by lia. rewrite lsum_rect.
          apply ZSum_ext. intros i Hi. apply ZSum_ext. intros j Hj. unfold arcid. f_equal. lia. }
        lia.
      - pose proof (g_bal _ G) as Bl.
        replace (ns I) with (0 + Z.of_nat n1) in Bl at 1 by lia. rewrite lsum_arange in Bl.
        replace n with (ns I + Z.of_nat n2) in Bl by lia. rewrite lsum_arange in Bl. exact Bl.
    Qed.

    (** * Potentials are near [big] or [-big] *)
    Definition rcst (v : Z) : Z := if fed F v <? e then cst I (fed F v) else 0.

    Lemma pi_near : forall P v, rpath (fpar F) (fsz F) ((v :: P) ++ [-1]) -> Forall (inr n) (v :: P) -> ~ In (-1) (v :: P) ->
      Z.abs (pi v - big I) <= lsum rcst (v :: P) \/ Z.abs (pi v + big I) <= lsum rcst (v :: P).
    Proof.
      induction P as [|u P IH]; intros v Hp Hr Hn.
      - cbn [app] in Hp. apply rpath_tail in Hp. destruct Hp as (E & _).
        assert (Hv : 0 <= v < n). { apply Forall_inv in Hr. unfold inr in Hr. simpl in Hn. lia. }
        destruct (t_ed _ _ _ HT v Hv) as [Ha Hc]. rewrite E in Hc. pose proof (f_rc _ _ _ _ HF v Hv) as R.
        assert (Hf : e <= fed F v).
        { destruct (Z_lt_ge_dec (fed F v) e); [|lia]. pose proof (arc_real I G (fed F v) ltac:(lia)). destruct Hc as [Hc | Hc]; lia. }
        pose proof (arc_art I G (fed F v) ltac:(lia)) as A.
        assert (Ev : fed F v = e + v). { destruct A as [A | A], Hc as [Hc | Hc]; lia. }
        rewrite Ev in R. pose proof (art_pi v Hv R) as Q. cbn [lsum fold_right]. unfold rcst.
        destruct (Z.ltb_spec (fed F v) e); [lia|]. destruct (Z.ltb_spec v (ns I)); [left|right]; lia.
      - cbn [app] in Hp. apply rpath_tail in Hp. destruct Hp as (E & _ & Hp).
        assert (Hv : 0 <= v < n). { apply Forall_inv in Hr. unfold inr in Hr. simpl in Hn. lia. }
        assert (Hr' : Forall (inr n) (u :: P)) by (inversion Hr; auto).
        assert (Hn' : ~ In (-1) (u :: P)) by (intros K; apply Hn; right; exact K).
        specialize (IH u Hp Hr' Hn').
        assert (Hu : 0 <= u < n). { apply Forall_inv in Hr'. unfold inr in Hr'. simpl in Hn'. lia. }
        destruct (t_ed _ _ _ HT v Hv) as [Ha Hc]. rewrite E in Hc. pose proof (f_rc _ _ _ _ HF v Hv) as R.
        assert (Hf : fed F v < e).
        { destruct (Z_lt_ge_dec (fed F v) e); [auto|]. pose proof (arc_art I G (fed F v) ltac:(lia)) as A. destruct A as [A | A], Hc as [Hc | Hc]; lia. }
        assert (S : Z.abs (pi v - pi u) <= rcst v).
        { unfold rcst. unfold rc, cost_ in R. destruct (Z.ltb_spec (fed F v) e); [|lia].
          pose proof (g_cst _ G (fed F v) ltac:(lia)). destruct Hc as [[-> ->] | [-> ->]] in R; lia. }
        rewrite lsum_cons. lia.
    Qed.

    Variable cm : Z.
    Hypothesis Hcm : forall a, 0 <= a < e -> cst I a <= cm.

    Theorem pi_close : forall v, 0 <= v < n -> exists D, (Z.abs (pi v - big I) <= D \/ Z.abs (pi v + big I) <= D) /\
      0 <= D <= lsum (cst I) (arange 0 e) /\ D <= n * cm.
    Proof.
      intros v Hv. destruct (node_path I F T HT v) as (fs & tv & E & Hp & Hl & Hr); [unfold inr; lia|].
      pose proof (rpath_nodup _ _ _ Hp) as Hnd.
      assert (Hne : v :: labs fs <> []) by congruence.
      rewrite (removelast_lst _ Hne), Hl in Hp, Hnd, Hr.
      assert (Hq : exists P, removelast (v :: labs fs) = v :: P).
      { destruct (labs fs) as [|u t]; [unfold lst in Hl; simpl in Hl; lia|]. simpl. eauto. }
      destruct Hq as (P & Hq). rewrite Hq in *.
      assert (Hn1 : ~ In (-1) (v :: P)). { apply NoDup_remove_2 in Hnd. now rewrite app_nil_r in Hnd. }
      assert (Hr1 : Forall (inr n) (v :: P)) by (apply Forall_app in Hr; apply Hr).
      assert (Hd1 : NoDup (v :: P)) by (apply NoDup_app_iff in Hnd; apply Hnd).
      assert (Hin : forall u, In u (v :: P) -> 0 <= u < n).
      { intros u Hu. rewrite Forall_forall in Hr1. pose proof (Hr1 u Hu) as R. unfold inr in R. assert (u <> -1) by congruence. lia. }
      exists (lsum rcst (v :: P)). split; [apply pi_near; auto|].
      set (f := fun a => if a <? e then cst I a else 0).
      assert (Hf : forall a, 0 <= a < m -> 0 <= f a).
      { intros a Ha. unfold f. destruct (Z.ltb_spec a e); [|lia]. apply (g_cst _ G). lia. }
      assert (Ef : lsum rcst (v :: P) = lsum f (map (fed F) (v :: P))) by (rewrite lsum_map; reflexivity).
      assert (Hnd2 : NoDup (map (fed F) (v :: P))).
      { clear Hq Hn1 Hr1 Hnd Hp Hr Ef. revert Hin Hd1. generalize (v :: P). induction l as [|a l IH]; intros Hin Hd; [constructor|].
        apply NoDup_cons_iff in Hd. destruct Hd as [Hd1 Hd2]. cbn [map]. constructor.
        - intros K. apply in_map_iff in K. destruct K as (b & Eb & Hb).
          apply (fed_inj I G F T HT) in Eb; [|apply Hin; simpl; auto|apply Hin; simpl; auto]. congruence.
        - apply IH; auto. intros u Hu. apply Hin. simpl. auto. }
      assert (Hincl : incl (map (fed F) (v :: P)) (arange 0 m)).
      { intros a Ha. apply in_map_iff in Ha. destruct Ha as (u & <- & Hu). apply arange_in. apply (t_ed _ _ _ HT u (Hin u Hu)). }
      assert (Es : lsum f (arange 0 m) = lsum (cst I) (arange 0 e)).
      { pose proof G as [g1 g2 _ _ _ _ _ _]. rewrite (arange_split 0 e m) by nia. rewrite lsum_app.
        rewrite (lsum_ext f (cst I) (arange 0 e)) by (intros a Ha; apply arange_in in Ha; unfold f; destruct (Z.ltb_spec a e); lia).
        rewrite (lsum_zero f (arange e m)) by (intros a Ha; apply arange_in in Ha; unfold f; destruct (Z.ltb_spec a e); lia). lia. }
      assert (Hcm0 : 0 <= cm). { pose proof (e_pos I G). pose proof (Hcm 0 ltac:(lia)). pose proof (g_cst _ G 0 ltac:(lia)). lia. }
      split; [split|].
      - rewrite Ef. apply lsum_nonneg. intros a Ha. apply Hf. apply Hincl in Ha. now apply arange_in in Ha.
      - rewrite Ef, <- Es. apply lsum_incl; auto. intros a Ha. apply Hf. now apply arange_in in Ha.
      - assert (L : lsum rcst (v :: P) <= lsum (fun _ => cm) (v :: P)).
        { apply lsum_le. intros u Hu. unfold rcst. destruct (Z.ltb_spec (fed F u) e); [|lia]. apply Hcm.
          pose proof (proj1 (t_ed _ _ _ HT u (Hin u Hu))). lia. }
        rewrite lsum_const in L.
        assert (Q : (length (v :: P) <= length (arange 0 n))%nat).
        { apply NoDup_incl_length; auto. intros u Hu. apply arange_in. auto. }
        rewrite arange_length in Q. pose proof G as [g1 g2 _ _ _ _ _ _]. nia.
    Qed.
  End State.
End Opt.
