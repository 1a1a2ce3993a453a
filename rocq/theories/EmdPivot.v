(** One pivot of _emd.py keeps the invariant and makes progress. *)
From Coq Require Import List ZArith Bool Lia Permutation.
From Verif Require Import Outcome EmdModel EmdArr EmdTree EmdOps EmdPath EmdFlow EmdSurgery EmdCycle.
Import ListNotations.
Open Scope outcome_scope.
Open Scope Z_scope.

Lemma app_split : forall (A : Type) (c1 : list A) y c2 l r, c1 ++ y :: c2 = l ++ r ->
  (exists l2, l = c1 ++ y :: l2 /\ c2 = l2 ++ r) \/ (exists r1, c1 = l ++ r1 /\ r = r1 ++ y :: c2).
Proof.
  induction c1 as [|a c1 IH]; intros y c2 l r E.
  - destruct l as [|b l].
    + right. exists []. simpl in *. auto.
    + left. simpl in E. inversion E; subst. exists l. auto.
  - destruct l as [|b l].
    + right. exists (a :: c1). simpl in *. auto.
    + simpl in E. inversion E; subst. destruct (IH y c2 l r H1) as [(l2 & -> & ->) | (r1 & -> & ->)].
      * left. exists l2. auto.
      * right. exists r1. auto.
Qed.

Lemma map_split : forall (A B : Type) (f : A -> B) l b1 y b2, map f l = b1 ++ y :: b2 ->
  exists l1 x l2, l = l1 ++ x :: l2 /\ map f l1 = b1 /\ f x = y /\ map f l2 = b2.
Proof.
  induction l as [|a l IH]; intros b1 y b2 E.
  - destruct b1; discriminate.
  - destruct b1 as [|b b1]; simpl in E; inversion E; subst.
    + exists [], a, l. auto.
    + destruct (IH b1 y b2 H1) as (l1 & x & l2 & -> & A1 & A2 & A3). exists (a :: l1), x, l2. simpl. rewrite A1. auto.
Qed.

Lemma leaves_first_true : forall l1 i j l2, ~ In i l1 -> leaves_first (l1 ++ j :: l2) i j = true.
Proof.
  induction l1 as [|a l1 IH]; intros i j l2 H; cbn [app leaves_first].
  - now rewrite Z.eqb_refl.
  - destruct (a =? j); auto. destruct (Z.eqb_spec a i) as [->|]; [exfalso; apply H; simpl; auto|].
    apply IH. intros Q. apply H. simpl. auto.
Qed.

Lemma leaves_first_false : forall l1 i j l2, ~ In j l1 -> i <> j -> leaves_first (l1 ++ i :: l2) i j = false.
Proof.
  induction l1 as [|a l1 IH]; intros i j l2 H Hn; cbn [app leaves_first].
  - destruct (Z.eqb_spec i j); [tauto|]. now rewrite Z.eqb_refl.
  - destruct (Z.eqb_spec a j) as [->|]; [exfalso; apply H; simpl; auto|]. destruct (a =? i); auto.
    apply IH; auto. intros Q. apply H. simpl. auto.
Qed.

Section Pivot.
  Variable I : inst.
  Notation n := (ns I + nd I).
  Notation e := (ns I * nd I).
  Notation m := (e + n).
  Hypothesis G : good I.

  Section Step.
    Variables (F : tfun) (T : rtree) (x pi : Z -> Z) (i p q : Z) (P Q : list Z) (w : Z) (U : list Z).
    Notation path := (rpath (fpar F) (fsz F)).
    Hypothesis HT : TInv I F T.
    Hypothesis HF : FInv I F x pi.
    Hypothesis Hi : 0 <= i < e.
    Hypothesis Hneg : srch I x pi i < 0.
    Hypothesis Hpq : (x i = 0 /\ p = tl_ I i /\ q = hd_ I i) \/ (x i <> 0 /\ p = hd_ I i /\ q = tl_ I i).
    Hypothesis Ep : p = hdz (P ++ w :: U).
    Hypothesis Eq : q = hdz (Q ++ w :: U).
    Hypothesis Pp : path (P ++ w :: U).
    Hypothesis Pq : path (Q ++ w :: U).
    Hypothesis Dp : forall v, In v P -> ~ In v (Q ++ w :: U).
    Hypothesis Dq : forall v, In v Q -> ~ In v (P ++ w :: U).
    Hypothesis Ip : Forall (inr n) (P ++ w :: U).
    Hypothesis Iq : Forall (inr n) (Q ++ w :: U).
    Hypothesis I0 : Forall (fun v => 0 <= v < n) (P ++ Q).
    Variables (j s : Z) (c1 c2 : list (Z * Z)).
    Hypothesis Ec : cyc F P Q i p = c1 ++ (j, s) :: c2.
    Hypothesis H1 : forall a u, In (a, u) c1 -> res I x j s < res I x a u.
    Hypothesis H2 : forall a u, In (a, u) c2 -> res I x j s <= res I x a u.

    Lemma i_m : 0 <= i < m.
    Proof. destruct G as [g1 g2 _ _ _ _ _ _]. lia. Qed.

    Lemma i_conn : conn I i p q.
    Proof. unfold conn. destruct Hpq as [(_ & -> & ->) | (_ & -> & ->)]; auto. Qed.

    Lemma i_nontree : forall v, 0 <= v < n -> fed F v <> i.
    Proof.
      intros v Hv E. pose proof (f_rc _ _ _ _ HF v Hv) as R. rewrite E in R. unfold srch in Hneg.
      rewrite R in Hneg. destruct (x i =? 0); lia.
    Qed.

    Lemma i_res : res I x i p = cap_ I i /\ 1 <= cap_ I i.
    Proof.
      split; [|apply (cap_pos I G), i_m]. pose proof (arc_ends I G i i_m) as [Hne _]. unfold res.
      destruct Hpq as [(E & -> & _) | (E & -> & _)].
      - rewrite Z.eqb_refl. lia.
      - destruct (Z.eqb_spec (tl_ I i) (hd_ I i)); [tauto|].
        destruct (f_nt _ _ _ _ HF i i_m i_nontree); tauto.
    Qed.

    Lemma i_dir : dir I i p * rc I pi i = srch I x pi i.
    Proof.
      pose proof (arc_ends I G i i_m) as [Hne _]. unfold dir, srch.
      destruct Hpq as [(E & -> & _) | (E & -> & _)].
      - rewrite Z.eqb_refl. rewrite E. cbn [Z.eqb]. lia.
      - destruct (Z.eqb_spec (tl_ I i) (hd_ I i)); [tauto|]. destruct (Z.eqb_spec (x i) 0); lia.
    Qed.

    Lemma P_in : forall v, In v P -> 0 <= v < n.
    Proof. intros v Hv. rewrite Forall_forall in I0. apply I0. apply in_app_iff. auto. Qed.
    Lemma Q_in : forall v, In v Q -> 0 <= v < n.
    Proof. intros v Hv. rewrite Forall_forall in I0. apply I0. apply in_app_iff. auto. Qed.

    Lemma q_in_path : In q (Q ++ w :: U).
    Proof. rewrite Eq. apply hdz_in. destruct Q; simpl; congruence. Qed.

    Lemma i_ends : 0 <= tl_ I i < ns I /\ ns I <= hd_ I i < n.
    Proof. pose proof (arc_real I G i Hi). lia. Qed.

    (** The arc from the root to a sink of the whole weight is not on the way down. *)
    Lemma P_pos : forall z, In z P -> 1 <= res I x (fed F z) (fpar F z).
    Proof.
      intros z Hz. destruct (f_sf _ _ _ _ HF z (P_in z Hz)) as [|(A & B & C)]; auto. exfalso.
      pose proof (P_in z Hz) as Rz. pose proof (sup_bound I G z Rz) as Sz.
      pose proof G as [g1 g2 _ _ _ _ _ _].
      assert (Hart : hd_ I (e + z) = z) by (pose proof (arc_art I G (e + z)); lia).
      assert (Hb : hd_ I (z - ns I) = z).
      { unfold hd_. destruct (Z.ltb_spec (z - ns I) e); [|nia]. rewrite Z.mod_small by lia. lia. }
      assert (Hx : x (z - ns I) + x (e + z) <= sup I z).
      { apply (in_bound I G x (f_cap _ _ _ _ HF) (f_con _ _ _ _ HF)); auto; nia. }
      assert (0 <= x (z - ns I)) by (apply (f_cap _ _ _ _ HF); nia).
      assert (Ho : hd_ I i = z) by (apply (only_sink I G z); try lia; apply i_ends).
      assert (x i + x (e + z) <= sup I z).
      { apply (in_bound I G x (f_cap _ _ _ _ HF) (f_con _ _ _ _ HF)); auto; nia. }
      destruct Hpq as [(E1 & E2 & E3) | (E1 & E2 & E3)].
      - apply (Dp z Hz). rewrite <- Ho, <- E3. apply q_in_path.
      - assert (0 <= x i) by (apply (f_cap _ _ _ _ HF); lia). lia.
    Qed.

    (** Where the leaving edge is. *)
    Lemma leaving_cases :
      (exists Pa z Pb, P = Pa ++ z :: Pb /\ j = fed F z /\ s = fpar F z /\ c1 = rev (map (down F) Pb) /\
        c2 = rev (map (down F) Pa) ++ (i, p) :: map (upw F) Q) \/
      (j = i /\ s = p /\ c1 = rev (map (down F) P) /\ c2 = map (upw F) Q) \/
      (exists Qa z Qb, Q = Qa ++ z :: Qb /\ j = fed F z /\ s = z /\
        c1 = rev (map (down F) P) ++ (i, p) :: map (upw F) Qa /\ c2 = map (upw F) Qb).
    Proof.
      unfold cyc in Ec. symmetry in Ec. apply app_split in Ec. destruct Ec as [(l2 & A & B) | (r1 & A & B)].
      - left. rewrite <- map_rev in A. apply map_split in A. destruct A as (l1 & z & l3 & A & A1 & A2 & A3).
        exists (rev l3), z, (rev l1). split.
        + rewrite <- (rev_involutive P), A, rev_app_distr. cbn [rev]. now rewrite <- app_assoc.
        + unfold down in A2. inversion A2. split; auto. split; auto. split.
          * rewrite <- map_rev, rev_involutive. now rewrite A1.
          * rewrite B, <- map_rev, rev_involutive. now rewrite A3.
      - destruct r1 as [|b r1].
        + right. left. cbn [app] in B. inversion B; subst. rewrite app_nil_r. auto.
        + right. right. cbn [app] in B. inversion B; subst. apply map_split in H3.
          destruct H3 as (l1 & z & l3 & A & A1 & A2 & A3). unfold upw in A2. inversion A2; subst.
          exists l1, s, l3. auto.
    Qed.

    Lemma path_pair : forall X y z Y, path (X ++ y :: z :: Y) -> fpar F y = z.
    Proof. intros X y z Y H. apply rpath_suffix in H; [|congruence]. apply rpath_tail in H. tauto. Qed.

    (** An artificial edge never leaves forwards. *)
    Lemma no_art_forward : e <= j -> tl_ I j <> s.
    Proof.
      intros Hj Es.
      pose proof G as [g1 g2 _ _ _ _ _ _]. pose proof i_ends as Hends.
      pose proof (f_cap _ _ _ _ HF) as Hcap. pose proof (f_con _ _ _ _ HF) as Hcon.
      destruct leaving_cases as [(Pa & z & Pb & EP & Ej & Ez & C1 & C2) | [(Ej & _) | (Qa & z & Qb & EQ & Ej & Ez & C1 & C2)]];
        [| lia |].
      - assert (Hz : In z P) by (rewrite EP, in_app_iff; simpl; auto).
        pose proof (P_in z Hz) as Rz. destruct (t_ed _ _ _ HT z Rz) as [Ja Jc]. rewrite <- Ej in Ja, Jc.
        pose proof (arc_art I G j ltac:(lia)) as Art. rewrite <- Ez in Jc.
        assert (Hs : s = -1 /\ hd_ I j = z /\ ns I <= z < n /\ j = e + z).
        { destruct Jc as [[A B] | [A B]]; destruct Art as [(B1 & B2 & B3 & B4) | (B1 & B2 & B3 & B4)]; try lia. }
        destruct Hs as (Hs & Hh & Rz2 & Ej2).
        assert (Rj : res I x j s = FP - x j).
        { unfold res. rewrite Es, Z.eqb_refl. unfold cap_. destruct (Z.ltb_spec j e); lia. }
        pose proof (sup_bound I G z Rz) as Sz.
        assert (Hfull : FP <= sup I z).
        { destruct Pa as [|y Pa] using rev_ind.
          - assert (Epz : p = z) by (rewrite Ep, EP; reflexivity).
            assert (Hin : In (i, p) c2) by (rewrite C2, in_app_iff; right; simpl; auto).
            specialize (H2 _ _ Hin). destruct Hpq as [(E1 & E2 & E3) | (E1 & E2 & E3)]; [lia|].
            assert (res I x i p = x i).
            { unfold res. destruct (Z.eqb_spec (tl_ I i) p); [lia|reflexivity]. }
            assert (x i + x j <= sup I z) by (apply (in_bound I G x Hcap Hcon); auto; lia). lia.
          - clear IHPa. assert (Hy : In y P) by (rewrite EP, !in_app_iff; simpl; auto).
            pose proof (P_in y Hy) as Ry. destruct (t_ed _ _ _ HT y Ry) as [Ya Yc].
            assert (Ey : fpar F y = z).
            { apply (path_pair Pa y z (Pb ++ w :: U)). rewrite EP in Pp. rewrite <- !app_assoc in Pp. exact Pp. }
            rewrite Ey in Yc.
            assert (Yr : fed F y < e).
            { destruct (Z_lt_ge_dec (fed F y) e); auto. pose proof (arc_art I G (fed F y) ltac:(lia)).
              destruct Yc as [[? ?] | [? ?]]; lia. }
            pose proof (arc_real I G (fed F y) ltac:(lia)) as Yr2.
            assert (Hyz : hd_ I (fed F y) = z /\ tl_ I (fed F y) = y) by (destruct Yc as [[? ?] | [? ?]]; lia).
            assert (Hin : In (fed F y, z) c2).
            { rewrite C2, in_app_iff. left. rewrite <- in_rev. apply in_map_iff. exists y. unfold down. rewrite Ey.
              split; auto. apply in_app_iff. simpl. auto. }
            specialize (H2 _ _ Hin).
            assert (res I x (fed F y) z = x (fed F y)).
            { unfold res. destruct (Z.eqb_spec (tl_ I (fed F y)) z); [lia|reflexivity]. }
            assert (x (fed F y) + x j <= sup I z) by (apply (in_bound I G x Hcap Hcon); try tauto; lia). lia. }
        assert (Ho : hd_ I i = z) by (apply (only_sink I G z); auto; lia).
        destruct Hpq as [(E1 & E2 & E3) | (E1 & E2 & E3)].
        { apply (Dp z Hz). rewrite <- Ho, <- E3. apply q_in_path. }
        assert (Rq : 0 <= q < n) by lia.
        destruct (t_ed _ _ _ HT q Rq) as [Qe Qc]. pose proof (par_size I F T HT q Rq) as [_ Qr].
        assert (Hpq1 : In (fpar F q) (Q ++ w :: U)).
        { destruct (Q ++ w :: U) as [|u [|u2 t]] eqn:E.
          - destruct Q; discriminate.
          - exfalso. cbn [hdz hd] in Eq. subst u. destruct Pq as [Pq1 _]. simpl in Pq1. unfold inr in Qr. lia.
          - cbn [hdz hd] in Eq. subst u. apply rpath_tail in Pq. destruct Pq as [-> _]. simpl. auto. }
        assert (Hroot : fpar F q = -1).
        { destruct (Z.eq_dec (fpar F q) (-1)) as [|Hne]; auto. exfalso. unfold inr in Qr.
          assert (Hqr : fed F q < e).
          { destruct (Z_lt_ge_dec (fed F q) e); auto. pose proof (arc_art I G (fed F q) ltac:(lia)).
            destruct Qc as [[? ?] | [? ?]]; lia. }
          pose proof (arc_real I G (fed F q) ltac:(lia)) as Qr2.
          assert (fpar F q = hd_ I (fed F q)) by (destruct Qc as [[? ?] | [? ?]]; lia).
          apply (Dp z Hz). rewrite <- (only_sink I G z Rz2 Hfull (fpar F q)) by lia. exact Hpq1. }
        assert (Hqa : tl_ I (fed F q) = q /\ hd_ I (fed F q) = -1 /\ e <= fed F q).
        { rewrite Hroot in Qc. destruct (Z_lt_ge_dec (fed F q) e).
          - pose proof (arc_real I G (fed F q) ltac:(lia)). destruct Qc as [[? ?] | [? ?]]; lia.
          - pose proof (arc_art I G (fed F q) ltac:(lia)). destruct Qc as [[? ?] | [? ?]]; lia. }
        pose proof (f_rc _ _ _ _ HF q Rq) as Rcq. pose proof (f_rc _ _ _ _ HF z Rz) as Rcz.
        pose proof (f_pi0 _ _ _ _ HF) as Pi0. pose proof (cost_bound I G i i_m) as Cb.
        rewrite <- Ej in Rcz. unfold rc in Rcq, Rcz. destruct Hqa as (Q1 & Q2 & Q3). rewrite Q1, Q2 in Rcq.
        rewrite Es, Hs, Hh in Rcz. unfold srch in Hneg. destruct (Z.eqb_spec (x i) 0); [tauto|].
        unfold rc in Hneg. rewrite Ho, <- E3 in Hneg.
        unfold cost_ at 1 in Rcq. unfold cost_ at 1 in Rcz. destruct (Z.ltb_spec (fed F q) e); [lia|].
        destruct (Z.ltb_spec j e); [lia|]. destruct G as [_ _ _ _ _ _ _ [g8 _]]. lia.
      - assert (Hz : In z Q) by (rewrite EQ, in_app_iff; simpl; auto).
        pose proof (Q_in z Hz) as Rz. destruct (t_ed _ _ _ HT z Rz) as [Ja Jc]. rewrite <- Ej in Ja, Jc.
        pose proof (arc_art I G j ltac:(lia)) as Art.
        assert (Hs : 0 <= z < ns I /\ hd_ I j = -1) by lia. destruct Hs as [Rz2 Hh].
        assert (Rj : res I x j s = FP - x j).
        { unfold res. rewrite Es, Z.eqb_refl. unfold cap_. destruct (Z.ltb_spec j e); lia. }
        pose proof (sup_bound I G z Rz) as Sz.
        destruct Qa as [|y Qa] using rev_ind.
        + assert (Eqz : q = z) by (rewrite Eq, EQ; reflexivity).
          assert (Hin : In (i, p) c1) by (rewrite C1, in_app_iff; right; simpl; auto).
          specialize (H1 _ _ Hin). destruct Hpq as [(E1 & E2 & E3) | (E1 & E2 & E3)]; [lia|].
          assert (res I x i p = x i).
          { unfold res. destruct (Z.eqb_spec (tl_ I i) p); [lia|reflexivity]. }
          assert (x i + x j <= sup I z) by (apply (out_bound I G x Hcap Hcon); auto; lia). lia.
        + clear IHQa. assert (Hy : In y Q) by (rewrite EQ, !in_app_iff; simpl; auto).
          pose proof (Q_in y Hy) as Ry. destruct (t_ed _ _ _ HT y Ry) as [Ya Yc].
          assert (Ey : fpar F y = z).
          { apply (path_pair Qa y z (Qb ++ w :: U)). rewrite EQ in Pq. rewrite <- !app_assoc in Pq. exact Pq. }
          rewrite Ey in Yc.
          assert (Yr : fed F y < e).
          { destruct (Z_lt_ge_dec (fed F y) e); auto. pose proof (arc_art I G (fed F y) ltac:(lia)).
            destruct Yc as [[? ?] | [? ?]]; lia. }
          pose proof (arc_real I G (fed F y) ltac:(lia)) as Yr2.
          assert (Hyz : hd_ I (fed F y) = y /\ tl_ I (fed F y) = z) by (destruct Yc as [[? ?] | [? ?]]; lia).
          assert (Hin : In (fed F y, y) c1).
          { rewrite C1, in_app_iff. right. right. apply in_map_iff. exists y. unfold upw. split; auto.
            apply in_app_iff. simpl. auto. }
          specialize (H1 _ _ Hin).
          assert (res I x (fed F y) y = x (fed F y)).
          { unfold res. destruct (Z.eqb_spec (tl_ I (fed F y)) y); [lia|reflexivity]. }
          assert (x (fed F y) + x j <= sup I z) by (apply (out_bound I G x Hcap Hcon); try tauto; lia). lia.
    Qed.

    (** The array [heads] is wrong for the artificial edges; the wrong entry is not used. *)
    Lemma heads_safe : tl_ I j = s -> fhd I j = hd_ I j.
    Proof.
      intros Es. destruct (Z_lt_ge_dec j e) as [Hj | Hj].
      - unfold fhd, hd_. destruct (Z.ltb_spec j e); [reflexivity | lia].
      - exfalso. apply no_art_forward; auto. lia.
    Qed.

    (** * The flow after the pivot *)
    Notation c := (cyc F P Q i p).
    Definition delta : Z := res I x j s.
    Definition x' : Z -> Z := push I x delta c.

    Lemma c_nodup : NoDup (map fst c).
    Proof. apply (cyc_nodup I G F T HT P Q w U i p Pp Pq Dp I0 i_nontree). Qed.

    Lemma c_edges : map fst c = rev (map (fed F) P) ++ i :: map (fed F) Q.
    Proof. apply (cyc_nodup I G F T HT P Q w U i p Pp Pq Dp I0 i_nontree). Qed.

    Lemma c_walk : walk I c w /\ start c w = w.
    Proof. apply (walk_cyc I F T HT P Q w U i p q); auto; [apply i_m | apply i_conn]. Qed.

    Lemma c_range : forall a, In a (map fst c) -> 0 <= a < m.
    Proof.
      intros a Ha. rewrite c_edges in Ha. apply in_app_iff in Ha. destruct Ha as [Ha | [<- | Ha]]; [| apply i_m |].
      - apply in_rev, in_map_iff in Ha. destruct Ha as (v & <- & Hv). apply (t_ed _ _ _ HT), P_in, Hv.
      - apply in_map_iff in Ha. destruct Ha as (v & <- & Hv). apply (t_ed _ _ _ HT), Q_in, Hv.
    Qed.

    Lemma js_in : In (j, s) c.
    Proof. rewrite Ec, in_app_iff. simpl. auto. Qed.

    Lemma j_range : 0 <= j < m.
    Proof. apply c_range. apply in_map_iff. exists (j, s). split; auto. apply js_in. Qed.

    Lemma delta_nonneg : 0 <= delta.
    Proof. apply res_nonneg. apply (f_cap _ _ _ _ HF), j_range. Qed.

    Lemma c_min : forall a u, In (a, u) c -> delta <= res I x a u.
    Proof.
      intros a u H. rewrite Ec in H. apply in_app_iff in H. destruct H as [H | [H | H]].
      - specialize (H1 a u H). unfold delta. lia.
      - inversion H; subst. unfold delta. lia.
      - apply H2 in H. exact H.
    Qed.

    Lemma x'_cap : forall a, 0 <= a < m -> 0 <= x' a <= cap_ I a.
    Proof. apply push_bounds; [apply c_nodup | apply delta_nonneg | apply HF | apply c_min]. Qed.

    Lemma x'_con : forall v, 0 <= v < n ->
      lsum (fun a => inc I a v * x' a) (arange 0 m) = if v <? ns I then sup I v else - sup I v.
    Proof.
      intros v Hv. unfold x'. destruct c_walk as [W1 W2].
      rewrite (push_conserve I G c w x delta v W1 W2). apply HF, Hv.
    Qed.

    Lemma x'_off : forall a, ~ In a (map fst c) -> x' a = x a.
    Proof. intros a Ha. unfold x'. now apply push_out. Qed.

    Lemma x'_j : x' j = 0 \/ x' j = cap_ I j.
    Proof.
      pose proof (res_push I c x delta j s c_nodup js_in) as R. fold x' in R. unfold delta in R.
      unfold res at 1 in R. destruct (tl_ I j =? s); lia.
    Qed.

    Lemma x'_j_art : e <= j -> x' j = 0.
    Proof.
      intros Hj. pose proof (res_push I c x delta j s c_nodup js_in) as R. fold x' in R. unfold delta in R.
      unfold res at 1 in R. destruct (Z.eqb_spec (tl_ I j) s) as [E|E]; [exfalso; now apply no_art_forward | lia].
    Qed.

    Lemma down_in : forall v, In v P -> In (fed F v, fpar F v) c.
    Proof.
      intros v Hv. unfold cyc. rewrite in_app_iff. left. rewrite <- in_rev. apply in_map_iff. exists v. auto.
    Qed.
    Lemma upw_in : forall v, In v Q -> In (fed F v, v) c.
    Proof. intros v Hv. unfold cyc. rewrite in_app_iff. right. right. apply in_map_iff. exists v. auto. Qed.

    (** Nodes whose tree edge stays in place keep the positive residual from the root. *)
    Lemma sf_keep : forall v, 0 <= v < n -> (In v P -> In (fed F v, fpar F v) c1) ->
      1 <= res I x' (fed F v) (fpar F v) \/ (ns I <= v /\ fed F v = e + v /\ x' (e + v) = FP).
    Proof.
      intros v Hv HP. destruct (in_dec Z.eq_dec v P) as [Hp | Hp].
      - left. unfold x'. rewrite (res_push I c x delta _ _ c_nodup (down_in v Hp)).
        specialize (H1 _ _ (HP Hp)). unfold delta. lia.
      - destruct (in_dec Z.eq_dec v Q) as [Hq | Hq].
        + destruct (t_ed _ _ _ HT v Hv) as [A B].
          pose proof (res_push_rev I G c x delta _ _ _ c_nodup (upw_in v Hq) A B) as R. fold x' in R. rewrite R.
          pose proof delta_nonneg. pose proof (res_nonneg I x (fed F v) (fpar F v) (f_cap _ _ _ _ HF _ A)).
          destruct (f_sf _ _ _ _ HF v Hv) as [S | (S1 & S2 & S3)]; [left; lia|].
          destruct (Z.eq_dec delta 0) as [E|E]; [right | left; lia].
          split; auto. split; auto. unfold x'. rewrite <- S2 in S3 |- *.
          rewrite (push_in I c x delta _ _ c_nodup (upw_in v Hq)). rewrite E. lia.
        + assert (Hn : ~ In (fed F v) (map fst c)).
          { rewrite c_edges. rewrite in_app_iff. intros [H | [H | H]].
            - apply in_rev, in_map_iff in H. destruct H as (u & E & Hu). apply Hp.
              rewrite <- (fed_inj I G F T HT u v (P_in u Hu) Hv E). auto.
            - apply (i_nontree v Hv). auto.
            - apply in_map_iff in H. destruct H as (u & E & Hu). apply Hq.
              rewrite <- (fed_inj I G F T HT u v (Q_in u Hu) Hv E). auto. }
          rewrite (res_ext I x' x) by (now apply x'_off).
          destruct (f_sf _ _ _ _ HF v Hv) as [S | (S1 & S2 & S3)]; [left; lia|right].
          split; auto. split; auto. rewrite <- S2 in *. rewrite x'_off by auto. auto.
    Qed.

    (** * Cost *)
    Definition total (y : Z -> Z) : Z := lsum (fun a => cost_ I a * y a) (arange 0 m).

    Lemma c_rc : fold_right (fun au t => dir I (fst au) (snd au) * rc I pi (fst au) + t) 0 c = srch I x pi i.
    Proof.
      assert (Hz : forall l, (forall a u, In (a, u) l -> rc I pi a = 0) -> forall t,
        fold_right (fun au t => dir I (fst au) (snd au) * rc I pi (fst au) + t) t l = t).
      { induction l as [|[a u] l IH]; intros Hl t; [reflexivity|]. cbn [fold_right fst snd].
        rewrite IH by (intros b y Hb; apply (Hl b y); simpl; auto). rewrite (Hl a u) by (simpl; auto). lia. }
      unfold cyc. rewrite fold_right_app. cbn [fold_right fst snd]. rewrite Hz.
      - rewrite (Hz (map (upw F) Q)).
        + rewrite i_dir. lia.
        + intros a u H. apply in_map_iff in H. destruct H as (v & E & Hv). unfold upw in E. inversion E; subst.
          apply HF, Q_in, Hv.
      - intros a u H. rewrite <- in_rev in H. apply in_map_iff in H. destruct H as (v & E & Hv). unfold down in E.
        inversion E; subst. apply HF, P_in, Hv.
    Qed.

    Lemma total_x' : total x' = total x + delta * srch I x pi i.
    Proof.
      unfold total, x'. destruct c_walk as [W1 W2]. rewrite (push_sum I (cost_ I) c x delta w _ (arange_nodup 0 m)).
      - rewrite (walk_cost I G pi c w W1), c_rc, W2. lia.
      - intros a Ha. now apply arange_in.
      - exact W1.
    Qed.

    (** The entering edge leaves at its other bound. *)
    Lemma case_same : j = i -> FInv I F x' pi /\ 1 <= delta.
    Proof.
      intros Eji. pose proof i_res as [Ri Rc].
      destruct leaving_cases as [(Pa & z & Pb & EP & Ej & _) | [(_ & Es & C1 & C2) | (Qa & z & Qb & EQ & Ej & _)]].
      { exfalso. apply (i_nontree z); [apply P_in; rewrite EP, in_app_iff; simpl; auto | congruence]. }
      2: { exfalso. apply (i_nontree z); [apply Q_in; rewrite EQ, in_app_iff; simpl; auto | congruence]. }
      split; [|unfold delta; rewrite Eji, Es; lia].
      constructor.
      - apply HF.
      - apply x'_cap.
      - apply x'_con.
      - intros a Ha Hnt. destruct (Z.eq_dec a i) as [->|Hne].
        + rewrite <- Eji. apply x'_j.
        + rewrite x'_off; [apply (f_nt _ _ _ _ HF a Ha Hnt)|]. rewrite c_edges, in_app_iff.
          intros [H | [H | H]]; [| congruence |].
          * apply in_rev, in_map_iff in H. destruct H as (u & E & Hu). apply (Hnt u (P_in u Hu) E).
          * apply in_map_iff in H. destruct H as (u & E & Hu). apply (Hnt u (Q_in u Hu) E).
      - apply HF.
      - intros v Hv. apply sf_keep; auto. intros HP. rewrite C1, <- in_rev. apply in_map_iff. exists v. auto.
      - intros a Ha Hnt. rewrite x'_off; [apply (f_art _ _ _ _ HF a Ha Hnt)|]. rewrite c_edges, in_app_iff.
        intros [H | [H | H]]; [| lia |].
        + apply in_rev, in_map_iff in H. destruct H as (u & E & Hu). apply (Hnt u (P_in u Hu) E).
        + apply in_map_iff in H. destruct H as (u & E & Hu). apply (Hnt u (Q_in u Hu) E).
    Qed.

    (** * Exchange of tree edges *)
    Section Exchange.
      Variables (F3 : tfun) (T3 : rtree) (fs3 : list frame) (D' : rtree) (p2 q2 z : Z) (Za : list Z).
      Hypothesis R_inv : inv F3 T3.
      Hypothesis R_lab : lab T3 = -1.
      Hypothesis R_nodup : NoDup (pre T3).
      Hypothesis R_nodes : forall v, In v (pre T3) <-> inr n v.
      Hypothesis R_par : fpar F3 q2 = p2.
      Hypothesis R_fed : fed F3 q2 = i.
      Hypothesis R_flip : flipped F F3 (rev (Za ++ [z])).
      Hypothesis R_same : forall v, ~ In v (Za ++ [z]) -> fpar F3 v = fpar F v /\ fed F3 v = fed F v.
      Hypothesis R_D : T3 = plug fs3 D'.
      Hypothesis R_lD : lab D' = q2.
      Hypothesis R_D1 : ~ In (-1) (pre D').
      Hypothesis R_Dp : ~ In p2 (pre D').
      Hypothesis R_cl : forall v, inr n v -> v <> -1 -> v <> q2 -> (In v (pre D') <-> In (fpar F3 v) (pre D')).
      (** The old path from [q2] up to [z]. *)
      Variables (rest : list Z).
      Hypothesis Z_path : path (Za ++ z :: rest).
      Hypothesis Z_hd : q2 = hdz (Za ++ [z]).
      Hypothesis Z_in : Forall (fun v => 0 <= v < n) (Za ++ [z]).
      Hypothesis Z_j : j = fed F z.
      Hypothesis E_conn : conn I i p2 q2.
      (** What the two cases have to provide. *)
      Hypothesis E_new : 1 <= res I x' i p2.
      Hypothesis E_flip : forall b, In b Za -> 1 <= res I x' (fed F b) b.
      Hypothesis E_keep : forall v, In v P -> ~ In v (Za ++ [z]) -> In (fed F v, fpar F v) c1.

      Lemma flipped_suffix : forall l1 l2 (A B : tfun), flipped A B (l1 ++ l2) -> flipped A B l2.
      Proof.
        induction l1 as [|a l1 IH]; intros l2 A B H; auto. apply IH. cbn [app] in H.
        destruct (l1 ++ l2) as [|b t]; [exact Logic.I|]. destruct H as [_ H]. exact H.
      Qed.

      Lemma new_edges : forall v, 0 <= v < n ->
        (v = q2 /\ fed F3 v = i /\ fpar F3 v = p2) \/
        (v <> q2 /\ exists b, In b Za /\ 0 <= b < n /\ fed F3 v = fed F b /\ fpar F3 v = b /\ v = fpar F b) \/
        (v <> q2 /\ ~ In v (Za ++ [z]) /\ fed F3 v = fed F v /\ fpar F3 v = fpar F v).
      Proof.
        intros v Hv. destruct (Z.eq_dec v q2) as [->|Hq]; [left; auto|right].
        destruct (in_dec Z.eq_dec v (Za ++ [z])) as [Hz | Hz]; [left|right; split; auto; destruct (R_same v Hz); auto].
        split; auto. apply in_split in Hz. destruct Hz as (X & Y & EZ).
        destruct X as [|b X] using rev_ind; [exfalso; apply Hq; rewrite Z_hd, EZ; reflexivity|]. clear IHX.
        rewrite <- app_assoc in EZ. cbn [app] in EZ.
        assert (Hb : In b Za).
        { destruct Y as [|y Y] using rev_ind.
          - assert (E : Za ++ [z] = (X ++ [b]) ++ [v]) by (rewrite <- app_assoc; exact EZ).
            apply app_inj_tail in E. destruct E as [-> _]. apply in_app_iff. simpl. auto.
          - clear IHY. assert (E : Za ++ [z] = (X ++ b :: v :: Y) ++ [y]) by (rewrite <- app_assoc; exact EZ).
            apply app_inj_tail in E. destruct E as [-> _]. apply in_app_iff. simpl. auto. }
        exists b. split; auto. split.
        { rewrite Forall_forall in Z_in. apply Z_in. apply in_app_iff. auto. }
        assert (Hfl : flipped F F3 (v :: b :: rev X)).
        { rewrite EZ in R_flip. apply (flipped_suffix (rev Y)). rewrite rev_app_distr in R_flip. cbn [rev] in R_flip.
          rewrite <- !app_assoc in R_flip. exact R_flip. }
        destruct Hfl as [[E1 E2] _]. split; auto. split; auto.
        symmetry. apply (path_pair X b v (Y ++ rest)).
        replace (Za ++ z :: rest) with ((Za ++ [z]) ++ rest) in Z_path by (rewrite <- app_assoc; reflexivity).
        rewrite EZ in Z_path. rewrite <- app_assoc in Z_path. exact Z_path.
      Qed.

      (** Old tree edges are still there, except the leaving one. *)
      Lemma old_edges : forall v, 0 <= v < n -> fed F v <> j -> exists u, 0 <= u < n /\ fed F3 u = fed F v.
      Proof.
        intros v Hv Hne. destruct (in_dec Z.eq_dec v (Za ++ [z])) as [Hz | Hz].
        - assert (Ha : In v Za).
          { apply in_app_iff in Hz. destruct Hz as [Hz | [-> | []]]; auto. congruence. }
          apply in_split in Ha. destruct Ha as (X & Y & EZ).
          assert (Hnext : exists u Y', Y ++ [z] = u :: Y').
          { destruct Y as [|u Y]; simpl; eauto. }
          destruct Hnext as (u & Y' & EY).
          assert (EZ2 : Za ++ [z] = X ++ v :: u :: Y') by (rewrite EZ, <- app_assoc; cbn [app]; now rewrite EY).
          exists u. split.
          + rewrite Forall_forall in Z_in. apply Z_in. rewrite EZ2, in_app_iff. simpl. auto.
          + rewrite EZ2, rev_app_distr in R_flip. cbn [rev] in R_flip. rewrite <- !app_assoc in R_flip. cbn [app] in R_flip.
            apply flipped_suffix in R_flip. destruct R_flip as [[_ E] _]. exact E.
        - exists v. split; auto. apply R_same, Hz.
      Qed.

      Lemma exchange_tree : TInv I F3 T3.
      Proof.
        constructor; auto. intros v Hv.
        destruct (new_edges v Hv) as [(E1 & E2 & E3) | [(_ & b & Hb & Rb & E1 & E2 & E3) | (_ & Hz & E1 & E2)]].
        - rewrite E2, E3, E1. split; [apply i_m|]. apply conn_sym. exact E_conn.
        - rewrite E1, E2. destruct (t_ed _ _ _ HT b Rb) as [A B]. split; auto. rewrite E3. apply conn_sym. exact B.
        - rewrite E1, E2. apply (t_ed _ _ _ HT v Hv).
      Qed.

      Variable d : Z.
      Definition pi' : Z -> Z := fun v => if mem v (pre D') then pi v + d else pi v.
      Hypothesis E_d : rc I pi' i = 0.

      Lemma exchange_flow : FInv I F3 x' pi'.
      Proof.
        constructor.
        - unfold pi'. destruct (mem (-1) (pre D')) eqn:E; [apply mem_in in E; tauto|]. apply HF.
        - apply x'_cap.
        - apply x'_con.
        - intros a Ha Hnt.
          destruct (in_dec Z.eq_dec a (map (fed F) (arange 0 n))) as [Hi' | Hi'].
          + apply in_map_iff in Hi'. destruct Hi' as (v & E & Hv). apply arange_in in Hv.
            destruct (Z.eq_dec a j) as [->|Hne]; [apply x'_j|]. exfalso.
            destruct (old_edges v Hv) as (u & Hu & Eu); [congruence|]. apply (Hnt u Hu). congruence.
          + assert (Hnt0 : forall v, 0 <= v < n -> fed F v <> a).
            { intros v Hv E. apply Hi'. apply in_map_iff. exists v. split; auto. now apply arange_in. }
            rewrite x'_off; [apply (f_nt _ _ _ _ HF a Ha Hnt0)|]. rewrite c_edges, in_app_iff.
            intros [H | [H | H]].
            * apply in_rev, in_map_iff in H. destruct H as (u & E & Hu). apply (Hnt0 u (P_in u Hu) E).
            * apply (Hnt q2); [|congruence]. rewrite Forall_forall in Z_in. apply Z_in. rewrite Z_hd. apply hdz_in.
              destruct Za; simpl; congruence.
            * apply in_map_iff in H. destruct H as (u & E & Hu). apply (Hnt0 u (Q_in u Hu) E).
        - intros v Hv.
          destruct (Z.eq_dec v q2) as [->|Hq]; [now rewrite R_fed|].
          pose proof (t_ed _ _ _ exchange_tree v Hv) as [A B].
          assert (Hrc : rc I pi (fed F3 v) = 0).
          { destruct (new_edges v Hv) as [(E1 & E2 & E3) | [(_ & b & Hb & Rb & E1 & E2 & E3) | (_ & Hz & E1 & E2)]];
              [tauto | rewrite E1; apply HF, Rb | rewrite E1; apply HF, Hv]. }
          assert (Hm : mem v (pre D') = mem (fpar F3 v) (pre D')).
          { pose proof (R_cl v) as C. specialize (C ltac:(unfold inr; lia) ltac:(lia) Hq).
            rewrite <- !mem_in in C. destruct (mem v (pre D')), (mem (fpar F3 v) (pre D')); auto;
              [symmetry; apply C; auto | apply C; auto]. }
          unfold rc in *. unfold pi'. destruct B as [[-> ->] | [-> ->]] in Hrc |- *; rewrite ?Hm in *;
            destruct (mem (fpar F3 v) (pre D')); lia.
        - intros v Hv.
          destruct (new_edges v Hv) as [(E1 & E2 & E3) | [(_ & b & Hb & Rb & E1 & E2 & E3) | (_ & Hz & E1 & E2)]].
          + left. rewrite E2, E3. exact E_new.
          + left. rewrite E1, E2. apply E_flip, Hb.
          + rewrite E1, E2. apply sf_keep; auto.
        - intros a Ha Hnt.
          destruct (in_dec Z.eq_dec a (map (fed F) (arange 0 n))) as [Hi' | Hi'].
          + apply in_map_iff in Hi'. destruct Hi' as (v & E & Hv). apply arange_in in Hv.
            destruct (Z.eq_dec a j) as [->|Hne]; [apply x'_j_art; lia|]. exfalso.
            destruct (old_edges v Hv) as (u & Hu & Eu); [congruence|]. apply (Hnt u Hu). congruence.
          + assert (Hnt0 : forall v, 0 <= v < n -> fed F v <> a).
            { intros v Hv E. apply Hi'. apply in_map_iff. exists v. split; auto. now apply arange_in. }
            rewrite x'_off; [apply (f_art _ _ _ _ HF a Ha Hnt0)|]. rewrite c_edges, in_app_iff.
            intros [H | [H | H]].
            * apply in_rev, in_map_iff in H. destruct H as (u & E & Hu). apply (Hnt0 u (P_in u Hu) E).
            * lia.
            * apply in_map_iff in H. destruct H as (u & E & Hu). apply (Hnt0 u (Q_in u Hu) E).
      Qed.

      (** Potentials only go up when the subtree is raised. *)
      Lemma pi'_sum : 0 < d -> lsum pi (arange 0 n) < lsum pi' (arange 0 n).
      Proof.
        intros Hd. rewrite (lsum_ext pi' (fun v => pi v + (if mem v (pre D') then d else 0))).
        2: { intros v _. unfold pi'. destruct (mem v (pre D')); lia. }
        rewrite lsum_plus.
        assert (Hq2 : 0 <= q2 < n).
        { rewrite Forall_forall in Z_in. apply Z_in. rewrite Z_hd. apply hdz_in. destruct Za; simpl; congruence. }
        pose proof (lsum_ge_one (fun v => if mem v (pre D') then d else 0) (arange 0 n) q2) as L. cbv beta in L.
        assert (Hm : mem q2 (pre D') = true) by (apply mem_in; rewrite <- R_lD; apply lab_in).
        rewrite Hm in L. specialize (L ltac:(intros b _; destruct (mem b (pre D')); lia) ltac:(now apply arange_in)). lia.
      Qed.
    End Exchange.

    (** * The model's updates *)
    Variable N : net.
    Hypothesis NR : netrep I N.

    Lemma path_unique : forall v l fs tv, path (v :: l) -> Forall (inr n) (v :: l) -> T = plug fs (Node v tv) -> labs fs = l.
    Proof.
      intros v l fs tv Hp Hr E. apply (rpath_det (fpar F) (fsz F) (labs fs) v); auto.
      - intros y Hy. rewrite Forall_forall in Hr. pose proof (Hr y Hy) as B. unfold inr in B. lia.
      - intros y Hy. assert (B : inr n y). { apply (t_nodes _ _ _ HT). eapply path_in; eauto. } unfold inr in B. lia.
      - eapply path_of; [apply HT | exact E].
    Qed.

    Lemma update_correct : forall fuel ts3 F3 T3 fs3 D' pots p2 q2,
      rep n ts3 F3 -> inv F3 T3 -> NoDup (pre T3) -> (forall v, In v (pre T3) <-> inr n v) ->
      T3 = plug fs3 D' -> lab D' = q2 -> ~ In (-1) (pre D') -> ~ In p2 (pre D') -> 0 <= p2 < n -> 0 <= q2 < n ->
      earr n pots pi -> (Z.to_nat n <= fuel)%nat ->
      exists pots', update_potentials N fuel pots ts3 i p2 q2 = Done pots' /\
        earr n pots' (pi' D' (if q2 =? hd_ I i then pi p2 - cost_ I i - pi q2 else pi p2 + cost_ I i - pi q2)).
    Proof.
      intros fuel ts3 F3 T3 fs3 D' pots p2 q2 R3 I3 N3 S3 E3 L3 D1 D2 Rp Rq Hpots Hf.
      pose proof i_m as Hm. unfold update_potentials. destruct NR as [_ _ _ _ Rh Rc _].
      rewrite (earr_get _ _ _ _ Rh Hm). cbn [obind]. rewrite (earr_get _ _ _ _ Hpots Rp). cbn [obind].
      rewrite (earr_get _ _ _ _ Rc Hm). cbn [obind]. rewrite (earr_get _ _ _ _ Hpots Rq). cbn [obind].
      pose proof (arc_real I G i Hi) as (_ & _ & ->).
      set (d := if q2 =? hd_ I i then pi p2 - cost_ I i - pi q2 else pi p2 + cost_ I i - pi q2).
      destruct (earr_set _ _ _ q2 (pi q2 + d) Hpots Rq) as (pots1 & -> & Hp1). cbn [obind].
      rewrite (narr_get _ _ _ _ (r_la _ _ _ R3)) by (unfold inr; lia). cbn [obind].
      destruct I3 as [Hok Hring]. rewrite E3 in Hok, Hring.
      pose proof (ok_plug_inner _ _ _ _ _ _ Hok) as HokD. apply ok_last in HokD. rewrite L3 in HokD. rewrite HokD.
      assert (Hch : chain (fnx F3) (fpv F3) (pre D')).
      { unfold ring in Hring. apply chain_prefix in Hring. rewrite pre_plug in Hring. apply chain_suffix in Hring.
        now apply chain_prefix in Hring. }
      assert (HnD : NoDup (pre D')).
      { rewrite E3, pre_plug in N3. apply NoDup_app_iff in N3. destruct N3 as (_ & N3 & _). apply NoDup_app_iff in N3. tauto. }
      assert (HrD : Forall (fun v => 0 <= v < n) (pre D')).
      { apply Forall_forall. intros v Hv. assert (B : inr n v) by (apply S3; rewrite E3; now apply plug_in_pre).
        assert (v <> -1) by (intros ->; auto). unfold inr in B. lia. }
      destruct D' as [v ks] eqn:ED. cbn [lab] in L3. subst v. rewrite pre_node in *.
      destruct (shift_subtree_correct n ts3 F3 R3 (pres ks) fuel pots1 _ q2 d Hch HnD HrD Hp1) as (pots2 & E2 & Hp2).
      { assert (L : (length (q2 :: pres ks) <= length (arange 0 n))%nat).
        { apply NoDup_incl_length; auto. intros v Hv. rewrite Forall_forall in HrD. apply arange_in. auto. }
        rewrite arange_length in L. cbn [length] in L. lia. }
      exists pots2. split; auto. eapply earr_ext; [exact Hp2|]. intros v Hv. unfold pi'. rewrite pre_node.
      change (mem v (q2 :: pres ks)) with ((v =? q2) || mem v (pres ks)). unfold fupd.
      destruct (Z.eqb_spec v q2) as [->|]; cbn [orb]; auto.
      apply NoDup_cons_iff in HnD. destruct HnD as [HnD _]. apply mem_nin in HnD. now rewrite HnD.
    Qed.

    Lemma finish : forall fuel ts pots p2 q2 Za z rest lp,
      rep n ts F -> earr n pots pi -> (Z.to_nat (n + 1) < fuel)%nat ->
      path (Za ++ z :: rest) -> Forall (inr n) (Za ++ z :: rest) -> q2 = hdz (Za ++ [z]) ->
      Forall (fun v => 0 <= v < n) (Za ++ [z]) -> j = fed F z ->
      path (p2 :: lp) -> Forall (inr n) (p2 :: lp) -> ~ In z (p2 :: lp) -> 0 <= p2 < n ->
      conn I i p2 q2 -> 1 <= res I x' i p2 -> (forall b, In b Za -> 1 <= res I x' (fed F b) b) ->
      (forall v, In v P -> ~ In v (Za ++ [z]) -> In (fed F v, fpar F v) c1) ->
      exists ts1 ts2 ts3 pots' F3 T3 pi3,
        remove_edge fuel ts (fpar F z) z = Done ts1 /\ make_root fuel ts1 q2 = Done ts2 /\
        add_edge fuel ts2 i p2 q2 = Done ts3 /\ update_potentials N fuel pots ts3 i p2 q2 = Done pots' /\
        rep n ts3 F3 /\ earr n pots' pi3 /\ TInv I F3 T3 /\ FInv I F3 x' pi3 /\
        (p2 = p -> q2 = q -> lsum pi (arange 0 n) < lsum pi3 (arange 0 n)).
    Proof.
      intros fuel ts pots p2 q2 Za z rest lp R Hpots Hf Zp Zr Zh Zin Zj Lp Lr Lz Rp2 Hc Enew Eflip Ekeep.
      assert (Rq2 : 0 <= q2 < n).
      { rewrite Forall_forall in Zin. apply Zin. rewrite Zh. apply hdz_in. destruct Za; simpl; congruence. }
      assert (Rz : 0 <= z < n). { rewrite Forall_forall in Zin. apply Zin. rewrite in_app_iff. simpl. auto. }
      destruct (node_path I F T HT q2) as (fq & tq & ETq & _ & _ & _); [unfold inr; lia|].
      destruct (node_path I F T HT p2) as (fp & tp & ETp & _ & _ & _); [unfold inr; lia|].
      assert (Elq : q2 :: labs fq = Za ++ z :: rest).
      { destruct (Za ++ z :: rest) as [|u t] eqn:E; [destruct Za; discriminate|].
        assert (u = q2). { rewrite Zh. destruct Za; cbn [app] in E; inversion E; reflexivity. }
        subst u. f_equal. eapply path_unique; eauto. }
      assert (Elp : labs fp = lp) by (eapply path_unique; eauto).
      destruct (surgery n fuel ts F T fq q2 tq fp p2 tp Za z rest i R (t_inv _ _ _ HT) (t_lab _ _ _ HT)
        (t_nodup _ _ _ HT) (t_nodes _ _ _ HT) ETq Elq) as
        (ts1 & ts2 & ts3 & F3 & T3 & fs3 & D' & E1 & E2 & E3 & R3 & I3 & L3 & N3 & S3 & A1 & A2 & A3 & A4 & A5 & A6 & A7 & A8 & A9);
        auto; [lia | now rewrite Elp |].
      destruct (update_correct fuel ts3 F3 T3 fs3 D' pots p2 q2 R3 I3 N3 S3 A5 A6 A7 A8 Rp2 Rq2 Hpots) as (pots' & E4 & Hp4); [lia|].
      set (d := if q2 =? hd_ I i then pi p2 - cost_ I i - pi q2 else pi p2 + cost_ I i - pi q2) in *.
      assert (Mq : mem q2 (pre D') = true) by (apply mem_in; rewrite <- A6; apply lab_in).
      assert (Mp : mem p2 (pre D') = false) by (now apply mem_nin).
      assert (Hrc : rc I (pi' D' d) i = 0).
      { pose proof (arc_ends I G i i_m) as [Hne _]. unfold rc, pi', d.
        destruct Hc as [[C1 C2] | [C1 C2]]; rewrite C1, C2, Mq, Mp.
        - rewrite Z.eqb_refl. lia.
        - destruct (Z.eqb_spec q2 p2); [congruence|]. lia. }
      exists ts1, ts2, ts3, pots', F3, T3, (pi' D' d).
      split; [exact E1|]. split; [exact E2|]. split; [exact E3|]. split; [exact E4|]. split; [exact R3|]. split; [exact Hp4|].
      split.
      { eapply exchange_tree with (p2 := p2) (q2 := q2) (z := z) (Za := Za); eauto. }
      split.
      { eapply exchange_flow with (p2 := p2) (q2 := q2) (z := z) (Za := Za); eauto. }
      intros Hp Hq. eapply pi'_sum with (q2 := q2) (z := z) (Za := Za); eauto.
      pose proof (arc_ends I G i i_m) as [Hne _]. unfold d, srch, rc in *. rewrite Hp, Hq.
      destruct Hpq as [(X1 & X2 & X3) | (X1 & X2 & X3)]; rewrite X2, X3.
      - rewrite Z.eqb_refl. rewrite X1 in Hneg. cbn [Z.eqb] in Hneg. lia.
      - destruct (Z.eqb_spec (tl_ I i) (hd_ I i)); [tauto|]. destruct (Z.eqb_spec (x i) 0); [tauto|]. lia.
    Qed.

    (** Everything after the choice of the leaving edge. *)
    Lemma pivot_end : forall fuel ts fl pots f,
      rep n ts F -> earr m fl x -> earr n pots pi -> 0 <= f <= e -> (Z.to_nat (n + 1) < fuel)%nat ->
      exists st' F' T' pi2,
        (res_cap <- residual N fl j s ;;
         fl' <- augment N fl res_cap c ;;
         if i =? j then Done (Some {| flows := fl'; potentials := pots; tree := ts; pos := f |})
         else
           let t := if tl_ I j =? s then fhd I j else tl_ I j in
           pt <- getZ (parent ts) t ;;
           let '(s0, t0) := if pt =? s then (s, t) else (t, s) in
           let '(p0, q0) := if leaves_first (rev (map (fed F) P) ++ i :: map (fed F) Q) i j then (q, p) else (p, q) in
           ts1 <- remove_edge fuel ts s0 t0 ;;
           ts2 <- make_root fuel ts1 q0 ;;
           ts3 <- add_edge fuel ts2 i p0 q0 ;;
           pots' <- update_potentials N fuel pots ts3 i p0 q0 ;;
           Done (Some {| flows := fl'; potentials := pots'; tree := ts3; pos := f |})) = Done (Some st') /\
        Inv I st' F' T' x' pi2 /\
        (total x' < total x \/ total x' = total x /\ lsum pi (arange 0 n) < lsum pi2 (arange 0 n)).
    Proof.
      intros fuel ts fl pots f R Hfl Hpots Rf Hf.
      rewrite (residual_correct I N NR fl x j s Hfl j_range). cbn [obind]. fold delta.
      destruct (augment_correct I N NR c fl x delta Hfl c_range) as (fl' & -> & Hfl'). cbn [obind]. fold x' in Hfl'.
      pose proof total_x' as Ht. pose proof delta_nonneg as Hd.
      destruct (Z.eqb_spec i j) as [Eij | Nij].
      { destruct (case_same (eq_sym Eij)) as [HF' Hd1].
        exists {| flows := fl'; potentials := pots; tree := ts; pos := f |}, F, T, pi. split; auto. split.
        - constructor; auto.
        - left. nia. }
      cbv zeta. set (t := if tl_ I j =? s then fhd I j else tl_ I j).
      assert (Hconn : conn I j s t).
      { assert (Hother : exists u, conn I j s u).
        { destruct leaving_cases as [(Pa & z & Pb & EP & Ej & Es & _) | [(Ej & _) | (Qa & z & Qb & EQ & Ej & Es & _)]].
          - exists z. rewrite Ej, Es. apply conn_sym. apply (t_ed _ _ _ HT). apply P_in. rewrite EP, in_app_iff. simpl. auto.
          - congruence.
          - exists (fpar F z). rewrite Ej, Es. apply (t_ed _ _ _ HT). apply Q_in. rewrite EQ, in_app_iff. simpl. auto. }
        destruct Hother as (u & Hu). unfold t. destruct (Z.eqb_spec (tl_ I j) s) as [E|E].
        - rewrite heads_safe by auto. left. auto.
        - right. split; auto. destruct Hu as [[? ?] | [? ?]]; tauto. }
      assert (Hother : forall u, conn I j s u -> t = u).
      { intros u Hu. pose proof (arc_ends I G j j_range) as [Hne _].
        destruct Hconn as [[? ?] | [? ?]], Hu as [[? ?] | [? ?]]; congruence. }
      destruct leaving_cases as [(Pa & z & Pb & EP & Ej & Es & C1 & C2) | [(Ej & _) | (Qa & z & Qb & EQ & Ej & Es & C1 & C2)]];
        [| congruence |].
      - (* the leaving edge is on the way down *)
        assert (Hz : In z P) by (rewrite EP, in_app_iff; simpl; auto).
        pose proof (P_in z Hz) as Rz. destruct (t_ed _ _ _ HT z Rz) as [Ja Jc].
        assert (Et : t = z) by (apply Hother; rewrite Ej, Es; apply conn_sym; exact Jc).
        rewrite Et. rewrite (narr_get _ _ _ _ (r_par _ _ _ R)) by (unfold inr; lia). cbn [obind].
        rewrite <- Es, Z.eqb_refl.
        assert (Hlf : leaves_first (rev (map (fed F) P) ++ i :: map (fed F) Q) i j = true).
        { rewrite EP, map_app, rev_app_distr. cbn [map rev]. rewrite <- !app_assoc. cbn [app]. rewrite <- Ej.
          apply leaves_first_true. rewrite <- in_rev, in_map_iff. intros (v & Ev & Hv).
          apply (i_nontree v); [apply P_in; rewrite EP, in_app_iff; simpl; auto | auto]. }
        rewrite Hlf.
        assert (Hd1 : 1 <= delta) by (unfold delta; rewrite Ej, Es; now apply P_pos).
        assert (Hcy : forall a u, In (a, u) c2 -> In (a, u) c) by (intros a u H; rewrite Ec, in_app_iff; simpl; auto).
        assert (Hrev : forall a u v, In (a, u) c2 -> conn I a u v -> 1 <= res I x' a v).
        { intros a u v Hin Hcn. assert (Ha : 0 <= a < m) by (apply c_range, in_map_iff; exists (a, u); auto).
          unfold x'. rewrite (res_push_rev I G c x delta a u v c_nodup (Hcy a u Hin) Ha Hcn).
          pose proof (res_nonneg I x a v (f_cap _ _ _ _ HF a Ha)). lia. }
        assert (Hlq : exists lq, q :: lq = Q ++ w :: U).
        { rewrite Eq. destruct (Q ++ w :: U) eqn:E; [destruct Q; discriminate|]. cbn [hdz hd]. eauto. }
        destruct Hlq as (lq & Elq).
        pose proof i_ends as Hends.
        destruct (finish fuel ts pots q p Pa z (Pb ++ w :: U) lq R Hpots Hf) as
          (ts1 & ts2 & ts3 & pots' & F3 & T3 & pi3 & E1 & E2 & E3 & E4 & R3 & Hp3 & T3' & F3' & _).
        + rewrite EP in Pp. rewrite <- app_assoc in Pp. exact Pp.
        + rewrite EP in Ip. rewrite <- app_assoc in Ip. exact Ip.
        + rewrite Ep, EP. destruct Pa; reflexivity.
        + apply Forall_forall. intros v Hv. apply P_in. rewrite EP. rewrite in_app_iff in *. simpl in *. tauto.
        + exact Ej.
        + rewrite Elq. exact Pq.
        + rewrite Elq. exact Iq.
        + rewrite Elq. now apply Dp.
        + destruct Hpq as [(_ & _ & ->) | (_ & _ & ->)]; lia.
        + apply conn_sym, i_conn.
        + apply (Hrev i p q); [|apply i_conn]. rewrite C2, in_app_iff. simpl. auto.
        + intros b Hb. apply (Hrev _ (fpar F b)).
          * rewrite C2, in_app_iff. left. rewrite <- in_rev. apply in_map_iff. exists b. auto.
          * apply conn_sym. apply (t_ed _ _ _ HT). apply P_in. rewrite EP, in_app_iff. auto.
        + intros v Hv Hnv. rewrite C1, <- in_rev. apply in_map_iff. exists v. split; auto.
          rewrite EP in Hv. rewrite in_app_iff in *. simpl in *. tauto.
        + rewrite <- Es in E1. rewrite E1. cbn [obind]. rewrite E2. cbn [obind]. rewrite E3. cbn [obind]. rewrite E4. cbn [obind].
          eexists _, F3, T3, pi3. split; [reflexivity|]. split; [constructor; auto|]. left. nia.
      - (* on the way up *)
        assert (Hz : In z Q) by (rewrite EQ, in_app_iff; simpl; auto).
        pose proof (Q_in z Hz) as Rz. destruct (t_ed _ _ _ HT z Rz) as [Ja Jc].
        assert (Et : t = fpar F z) by (apply Hother; rewrite Ej, Es; exact Jc).
        pose proof (par_size I F T HT z Rz) as [Sz Rpz].
        rewrite Et. rewrite (narr_get _ _ _ _ (r_par _ _ _ R)) by auto. cbn [obind].
        assert (Hne : fpar F (fpar F z) <> s).
        { rewrite Es. intros E. destruct (Z.eq_dec (fpar F z) (-1)) as [E1|E1].
          - pose proof (t_inv _ _ _ HT) as [Hok _]. apply ok_parent in Hok. rewrite (t_lab _ _ _ HT), <- E1, E in Hok. lia.
          - pose proof (par_size I F T HT (fpar F z)) as [Sz2 _]; [unfold inr in Rpz; lia|]. rewrite E in Sz2. lia. }
        destruct (Z.eqb_spec (fpar F (fpar F z)) s); [tauto|].
        assert (Hlf : leaves_first (rev (map (fed F) P) ++ i :: map (fed F) Q) i j = false).
        { apply leaves_first_false; auto. rewrite <- in_rev, in_map_iff. intros (v & Ev & Hv). rewrite Ej in Ev.
          apply (fed_inj I G F T HT) in Ev; auto; [|now apply P_in]. subst v. apply (Dp z Hv). rewrite in_app_iff. auto. }
        rewrite Hlf.
        assert (Hcy : forall a u, In (a, u) c1 -> In (a, u) c) by (intros a u H; rewrite Ec, in_app_iff; simpl; auto).
        assert (Hstr : forall a u, In (a, u) c1 -> 1 <= res I x' a u).
        { intros a u Hin. unfold x'. rewrite (res_push I c x delta a u c_nodup (Hcy a u Hin)).
          specialize (H1 a u Hin). unfold delta. lia. }
        assert (Hlp : exists lp, p :: lp = P ++ w :: U).
        { rewrite Ep. destruct (P ++ w :: U) eqn:E; [destruct P; discriminate|]. cbn [hdz hd]. eauto. }
        destruct Hlp as (lp & Elp).
        pose proof i_ends as Hends.
        destruct (finish fuel ts pots p q Qa z (Qb ++ w :: U) lp R Hpots Hf) as
          (ts1 & ts2 & ts3 & pots' & F3 & T3 & pi3 & E1 & E2 & E3 & E4 & R3 & Hp3 & T3' & F3' & Hsum).
        + rewrite EQ in Pq. rewrite <- app_assoc in Pq. exact Pq.
        + rewrite EQ in Iq. rewrite <- app_assoc in Iq. exact Iq.
        + rewrite Eq, EQ. destruct Qa; reflexivity.
        + apply Forall_forall. intros v Hv. apply Q_in. rewrite EQ. rewrite in_app_iff in *. simpl in *. tauto.
        + exact Ej.
        + rewrite Elp. exact Pp.
        + rewrite Elp. exact Ip.
        + rewrite Elp. now apply Dq.
        + destruct Hpq as [(_ & -> & _) | (_ & -> & _)]; lia.
        + apply i_conn.
        + apply Hstr. rewrite C1, in_app_iff. simpl. auto.
        + intros b Hb. apply Hstr. rewrite C1, in_app_iff. right. right. apply in_map_iff. exists b. auto.
        + intros v Hv _. rewrite C1, in_app_iff. left. rewrite <- in_rev. apply in_map_iff. exists v. auto.
        + rewrite Es. rewrite E1. cbn [obind]. rewrite E2. cbn [obind]. rewrite E3. cbn [obind]. rewrite E4. cbn [obind].
          eexists _, F3, T3, pi3. split; [reflexivity|]. split; [constructor; auto|].
          destruct (Z.eq_dec delta 0) as [E0|E0]; [right; split; [rewrite E0 in Ht; lia | auto] | left; nia].
    Qed.
  End Step.

  Theorem pivot_correct : forall N fuel st F T x pi,
    netrep I N -> Inv I st F T x pi -> (Z.to_nat (n + 1) < fuel)%nat ->
    (pivot N fuel st = Done None /\ forall a, 0 <= a < e -> 0 <= srch I x pi a) \/
    (exists st' F' T' x2 pi2, pivot N fuel st = Done (Some st') /\ Inv I st' F' T' x2 pi2 /\
      (total x2 < total x \/
       total x2 = total x /\ lsum pi (arange 0 n) < lsum pi2 (arange 0 n))).
  Proof.
    intros N fuel st F T x pi NR [R Hx Hp Hpos HT HF] Hf. unfold pivot.
    destruct (find_entering_edges_correct I G N NR (potentials st) pi (flows st) x (pos st) Hp Hx Hpos) as
      [[-> H] | (i & f' & E & Ri & Rf & Hneg)]; [left; auto | right].
    assert (Hpq : exists p q, find_entering_edges N (potentials st) (flows st) (pos st) = Done (Some (i, p, q, f')) /\
      ((x i = 0 /\ p = tl_ I i /\ q = hd_ I i) \/ (x i <> 0 /\ p = hd_ I i /\ q = tl_ I i))).
    { destruct (Z.eqb_spec (x i) 0) as [E0 | E0]; [exists (tl_ I i), (hd_ I i) | exists (hd_ I i), (tl_ I i)]; auto. }
    destruct Hpq as (p & q & -> & Hpq). cbn [obind]. clear E.
    pose proof (arc_real I G i Ri) as Hends.
    destruct (two_paths I F T HT p q) as (P & Q & w & U & Ep & Eq & Pp & Pq & Dp & Dq & Ip & Iq & I0 & Lw);
      [destruct Hpq as [(_ & -> & ->) | (_ & -> & ->)]; lia | destruct Hpq as [(_ & -> & ->) | (_ & -> & ->)]; lia |].
    pose proof (i_nontree F x pi i HF Hneg) as Hnt.
    assert (HndPQ : NoDup (P ++ Q)).
    { apply NoDup_app_iff. apply rpath_nodup in Pp. apply rpath_nodup in Pq. apply NoDup_app_iff in Pp, Pq.
      split; [tauto|]. split; [tauto|]. intros v H1 H2. apply (Dp v H1). rewrite in_app_iff. auto. }
    assert (Hlen : (length P + length Q <= Z.to_nat n)%nat).
    { rewrite <- app_length. rewrite <- (Z.sub_0_r n), <- arange_length. apply NoDup_incl_length; auto.
      intros v Hv. rewrite Forall_forall in I0. apply arange_in. auto. }
    assert (Efc : find_cycle fuel (tree st) i p q = Done (w :: rev P ++ Q, rev (map (fed F) P) ++ i :: map (fed F) Q)).
    { rewrite Ep, Eq. apply (find_cycle_correct n (tree st) F R fuel i P Q w U); auto; [| | | lia].
      - intros v H1 H2. apply (Dp v H1). rewrite in_app_iff. auto.
      - apply Forall_forall. intros v Hv. rewrite Forall_forall in I0. apply I0 in Hv. lia.
      - rewrite in_map_iff. intros (v & Ev & Hv). apply (Hnt v); auto. rewrite Forall_forall in I0. apply I0.
         rewrite in_app_iff. auto. }
    rewrite Efc.
    cbn [obind].
    assert (Ecomb : combine (rev (map (fed F) P) ++ i :: map (fed F) Q) (w :: rev P ++ Q) = cyc F P Q i p).
    { rewrite (combine_cyc F P w U) by auto. unfold cyc. f_equal. cbn [combine]. f_equal.
      - f_equal. rewrite Ep. destruct P; reflexivity.
      - clear. induction Q as [|a Q IH]; [reflexivity|]. cbn [map combine]. now rewrite IH. }
    rewrite Ecomb.
    assert (Hrange : forall a, In a (map fst (cyc F P Q i p)) -> 0 <= a < m) by (eapply c_range; eauto).
    destruct (find_leaving_correct I N NR (cyc F P Q i p) (flows st) x) as (j & s & c1 & c2 & Ec & H1 & H2 & ->); auto.
    { unfold cyc. intros E. apply app_eq_nil in E. destruct E; discriminate. }
    cbn [obind].
    destruct (pivot_end F T x pi i p q P Q w U HT HF Ri Hneg Hpq Ep Eq Pp Pq Dp Dq Ip Iq I0 j s c1 c2 Ec H1 H2 N NR
      fuel (tree st) (flows st) (potentials st) f' R Hx Hp Rf Hf) as (st' & F' & T' & pi2 & E & HI & HM).
    exists st', F', T', (x' F x i p P Q j s), pi2. split; auto.
  Qed.
End Pivot.
