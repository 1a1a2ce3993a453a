(** The invariant of the pivot loop of _emd.py and the cycle closed by an entering edge. *)
From Coq Require Import List ZArith Bool Lia Permutation.
From Verif Require Import Outcome EmdModel EmdArr EmdTree EmdOps EmdPath EmdFlow EmdSurgery.
Import ListNotations.
Open Scope outcome_scope.
Open Scope Z_scope.

Section Pivot.
  Variable I : inst.
  Notation n := (ns I + nd I).
  Notation e := (ns I * nd I).
  Notation m := (e + n).

  (** The part of the invariant about the tree. *)
  Record TInv (F : tfun) (T : rtree) : Prop := {
    t_inv : inv F T;
    t_lab : lab T = -1;
    t_nodup : NoDup (pre T);
    t_nodes : forall v, In v (pre T) <-> inr n v;
    t_ed : forall v, 0 <= v < n -> 0 <= fed F v < m /\ conn I (fed F v) v (fpar F v)
  }.

  (** Flows and potentials. *)
  Record FInv (F : tfun) (x pi : Z -> Z) : Prop := {
    f_pi0 : pi (-1) = 0;
    f_cap : forall a, 0 <= a < m -> 0 <= x a <= cap_ I a;
    f_con : forall v, 0 <= v < n ->
      lsum (fun a => inc I a v * x a) (arange 0 m) = if v <? ns I then sup I v else - sup I v;
    f_nt : forall a, 0 <= a < m -> (forall v, 0 <= v < n -> fed F v <> a) -> x a = 0 \/ x a = cap_ I a;
    f_rc : forall v, 0 <= v < n -> rc I pi (fed F v) = 0;
    f_sf : forall v, 0 <= v < n -> 1 <= res I x (fed F v) (fpar F v) \/
      (ns I <= v /\ fed F v = e + v /\ x (e + v) = FP);
    f_art : forall a, e <= a < m -> (forall v, 0 <= v < n -> fed F v <> a) -> x a = 0
  }.

  Record Inv (st : state) (F : tfun) (T : rtree) (x pi : Z -> Z) : Prop := {
    i_rep : rep n (tree st) F;
    i_x : earr m (flows st) x;
    i_pi : earr n (potentials st) pi;
    i_pos : 0 <= pos st <= e;
    i_t : TInv F T;
    i_f : FInv F x pi
  }.

  Hypothesis G : good I.

  Section Tree.
    Variables (F : tfun) (T : rtree).
    Hypothesis HT : TInv F T.

    Notation path := (rpath (fpar F) (fsz F)).

    Lemma node_path : forall v, inr n v -> exists fs tv, T = plug fs (Node v tv) /\ path (v :: labs fs) /\
      lst (v :: labs fs) = -1 /\ Forall (inr n) (v :: labs fs).
    Proof.
      intros v Hv. destruct HT as [Ti Tl Tn Tr _]. apply Tr in Hv. destruct (find_node T v Hv) as (fs & tv & E).
      exists fs, tv. split; auto. split; [eapply path_of; eauto|]. split.
      - rewrite (lst_labs fs v tv). now rewrite <- E.
      - apply Forall_forall. intros x Hx. apply Tr. eapply path_in; eauto.
    Qed.

    Lemma par_size : forall v, 0 <= v < n -> fsz F v < fsz F (fpar F v) /\ inr n (fpar F v).
    Proof.
      intros v Hv. destruct (node_path v) as (fs & tv & E & Hp & Hl & Hr); [unfold inr; lia|].
      destruct fs as [|f fs].
      - cbn [labs map lst last] in Hl. unfold lst in Hl. simpl in Hl. lia.
      - cbn [labs map] in *. apply rpath_tail in Hp. destruct Hp as (-> & Hp & _). split; auto.
        rewrite Forall_forall in Hr. apply Hr. simpl. auto.
    Qed.

    Lemma fed_inj : forall u v, 0 <= u < n -> 0 <= v < n -> fed F u = fed F v -> u = v.
    Proof.
      intros u v Hu Hv E. destruct (t_ed _ _ HT u Hu) as [A1 A2]. destruct (t_ed _ _ HT v Hv) as [B1 B2].
      rewrite <- E in B2. pose proof (par_size u Hu) as [Su _]. pose proof (par_size v Hv) as [Sv _].
      pose proof (arc_ends I G _ A1).
      destruct A2 as [[A2 A3] | [A2 A3]], B2 as [[B2 B3] | [B2 B3]]; try congruence.
      - exfalso. assert (fpar F u = v) by congruence. assert (fpar F v = u) by congruence.
        rewrite H0 in Su. rewrite H1 in Sv. lia.
      - exfalso. assert (fpar F u = v) by congruence. assert (fpar F v = u) by congruence.
        rewrite H0 in Su. rewrite H1 in Sv. lia.
    Qed.

    (** * The cycle *)
    Definition down (x : Z) : Z * Z := (fed F x, fpar F x).
    Definition upw (y : Z) : Z * Z := (fed F y, y).
    Definition cyc (P Q : list Z) (i p : Z) : list (Z * Z) :=
      rev (map down P) ++ (i, p) :: map upw Q.

    Lemma path_next : forall x P w U, path ((x :: P) ++ w :: U) -> fpar F x = hdz (P ++ w :: U) /\ path (P ++ w :: U).
    Proof.
      intros x P w U H. cbn [app] in H. destruct (P ++ w :: U) as [|u t] eqn:E; [destruct P; discriminate|].
      apply rpath_tail in H. tauto.
    Qed.

    Lemma combine_cyc : forall P w U es ns, path (P ++ w :: U) ->
      combine (rev (map (fed F) P) ++ es) (w :: rev P ++ ns) = rev (map down P) ++ combine es (hdz (P ++ [w]) :: ns).
    Proof.
      induction P as [|x P IH] using rev_ind; intros w U es ns Hp; [reflexivity|].
      rewrite !map_app, !rev_app_distr. cbn [map rev app combine].
      replace ((P ++ [x]) ++ w :: U) with (P ++ x :: w :: U) in Hp by (now rewrite <- app_assoc).
      rewrite (IH x (w :: U)) by auto.
      assert (Hx : fpar F x = w).
      { apply rpath_suffix in Hp; [|congruence]. apply rpath_tail in Hp. tauto. }
      unfold down at 2. rewrite Hx. f_equal. rewrite <- app_assoc. cbn [app]. f_equal. destruct P; reflexivity.
    Qed.

    Lemma walk_down : forall P w U, path (P ++ w :: U) -> Forall (fun v => 0 <= v < n) P ->
      walk I (rev (map down P)) (hdz (P ++ w :: U)) /\
      (forall c z, start (rev (map down P) ++ c) z = match P with [] => start c z | _ => w end).
    Proof.
      induction P as [|x P IH]; intros w U Hp Hr; [split; [exact Logic.I | reflexivity]|].
      destruct (path_next _ _ _ _ Hp) as [E Hp2]. inversion Hr; subst.
      destruct (IH w U Hp2 H2) as [W1 W2]. cbn [map rev]. split.
      - apply walk_app. split.
        + cbn [start down]. rewrite E. exact W1.
        + cbn [app hdz hd]. unfold down. apply walk_cons. destruct (t_ed _ _ HT x H1) as [A B]. split; auto.
          split; [|exact Logic.I]. cbn [start]. now apply conn_sym.
      - intros c z. rewrite <- app_assoc. rewrite W2. destruct P; auto.
    Qed.

    Lemma walk_up : forall Q w U, path (Q ++ w :: U) -> Forall (fun v => 0 <= v < n) Q ->
      walk I (map upw Q) w /\ start (map upw Q) w = hdz (Q ++ w :: U).
    Proof.
      induction Q as [|x Q IH]; intros w U Hp Hr; [split; [exact Logic.I | reflexivity]|].
      destruct (path_next _ _ _ _ Hp) as [E Hp2]. inversion Hr; subst.
      destruct (IH w U Hp2 H2) as [W1 W2]. cbn [map]. split; [|reflexivity].
      apply walk_cons. destruct (t_ed _ _ HT x H1) as [A B]. split; auto. split; auto. rewrite W2, <- E. exact B.
    Qed.

    Lemma walk_cyc : forall P Q w U i p q, path (P ++ w :: U) -> path (Q ++ w :: U) ->
      Forall (fun v => 0 <= v < n) (P ++ Q) -> 0 <= i < m -> conn I i p q ->
      p = hdz (P ++ w :: U) -> q = hdz (Q ++ w :: U) ->
      walk I (cyc P Q i p) w /\ start (cyc P Q i p) w = w.
    Proof.
      intros P Q w U i p q Hp Hq Hr Hi Hc Ep Eq. apply Forall_app in Hr. destruct Hr as [Hr1 Hr2].
      destruct (walk_down P w U Hp Hr1) as [D1 D2]. destruct (walk_up Q w U Hq Hr2) as [U1 U2].
      unfold cyc. split.
      - apply walk_app. split.
        + cbn [start]. now rewrite Ep.
        + apply walk_cons. rewrite U2, <- Eq. auto.
      - rewrite D2. destruct P; auto.
    Qed.

    (** The two paths from the ends of an edge. *)
    Lemma two_paths : forall p q, 0 <= p < n -> 0 <= q < n -> exists P Q w U,
      p = hdz (P ++ w :: U) /\ q = hdz (Q ++ w :: U) /\ path (P ++ w :: U) /\ path (Q ++ w :: U) /\
      (forall x, In x P -> ~ In x (Q ++ w :: U)) /\ (forall x, In x Q -> ~ In x (P ++ w :: U)) /\
      Forall (inr n) (P ++ w :: U) /\ Forall (inr n) (Q ++ w :: U) /\ Forall (fun v => 0 <= v < n) (P ++ Q) /\
      lst (w :: U) = -1.
    Proof.
      intros p q Hp Hq.
      destruct (node_path p) as (fp & tp & Ep & Pp & Lp & Rp); [unfold inr; lia|].
      destruct (node_path q) as (fq & tq & Eq & Pq & Lq & Rq); [unfold inr; lia|].
      assert (Ip : In (-1) (p :: labs fp)) by (rewrite <- Lp; apply lst_in; congruence).
      assert (Iq : In (-1) (q :: labs fq)) by (rewrite <- Lq; apply lst_in; congruence).
      destruct (apex_split (fpar F) (fsz F) (p :: labs fp) (q :: labs fq) Pp Pq) as (P & Q & w & U & E1 & E2 & D1 & D2).
      - intros x Hx. rewrite Forall_forall in Rp, Rq. apply in_app_iff in Hx. destruct Hx as [Hx | Hx].
        + pose proof (Rp x Hx) as B. unfold inr in B. lia.
        + pose proof (Rq x Hx) as B. unfold inr in B. lia.
      - exists (-1). auto.
      - exists P, Q, w, U. rewrite <- E1, <- E2. repeat (split; [auto; fail|]).
        split.
        + apply Forall_app. split; apply Forall_forall; intros x Hx.
          * assert (x <> -1) by (intros ->; apply (D1 (-1)); auto).
            rewrite Forall_forall in Rp. assert (B : inr n x) by (apply Rp; rewrite E1, in_app_iff; auto).
            unfold inr in B. lia.
          * assert (x <> -1) by (intros ->; apply (D2 (-1)); auto).
            rewrite Forall_forall in Rq. assert (B : inr n x) by (apply Rq; rewrite E2, in_app_iff; auto).
            unfold inr in B. lia.
        + rewrite E1 in Lp. rewrite lst_app in Lp by congruence. exact Lp.
    Qed.

    Lemma cyc_nodup : forall P Q w U i p, path (P ++ w :: U) -> path (Q ++ w :: U) ->
      (forall x, In x P -> ~ In x (Q ++ w :: U)) -> Forall (fun v => 0 <= v < n) (P ++ Q) ->
      (forall v, 0 <= v < n -> fed F v <> i) ->
      NoDup (map fst (cyc P Q i p)) /\ map fst (cyc P Q i p) = rev (map (fed F) P) ++ i :: map (fed F) Q.
    Proof.
      intros P Q w U i p Hp Hq Hd Hr Hi.
      assert (E : map fst (cyc P Q i p) = rev (map (fed F) P) ++ i :: map (fed F) Q).
      { unfold cyc. rewrite map_app, map_rev, map_map. cbn [map fst]. rewrite map_map. reflexivity. }
      split; auto. rewrite E.
      assert (HN : NoDup (i :: map (fed F) (P ++ Q))).
      { rewrite Forall_forall in Hr. constructor.
        - intros Q1. apply in_map_iff in Q1. destruct Q1 as (v & E1 & Hv). apply (Hi v); auto.
        - assert (Hn : NoDup (P ++ Q)).
          { apply rpath_nodup in Hp. apply rpath_nodup in Hq. apply NoDup_app_iff in Hp. apply NoDup_app_iff in Hq.
            apply NoDup_app_iff. split; [tauto|]. split; [tauto|]. intros x H1 H2. apply (Hd x H1). apply in_app_iff. auto. }
          revert Hr Hn. generalize (P ++ Q). induction l as [|a l IH]; intros Hr Hn; [constructor|].
          apply NoDup_cons_iff in Hn. destruct Hn as [N1 N2]. cbn [map]. constructor.
          + intros Q1. apply in_map_iff in Q1. destruct Q1 as (v & E1 & Hv). apply N1.
            rewrite <- (fed_inj v a); auto; apply Hr; simpl; auto.
          + apply IH; auto. intros v Hv. apply Hr. simpl. auto. }
      eapply Permutation_NoDup; [|exact HN]. rewrite map_app. rewrite <- Permutation_middle.
      apply perm_skip. apply Permutation_app_tail. apply Permutation_rev.
    Qed.
  End Tree.

  (** * Residuals after pushing *)
  Lemma res_sum : forall x a u w, 0 <= a < m -> conn I a u w -> res I x a u + res I x a w = cap_ I a.
  Proof.
    intros x a u w Ha Hc. pose proof (arc_ends I G a Ha) as [Hne _]. unfold res.
    destruct Hc as [[<- <-] | [<- <-]]; rewrite Z.eqb_refl; destruct (Z.eqb_spec (tl_ I a) (hd_ I a)); try tauto; lia.
  Qed.

  Lemma res_nonneg : forall x a u, 0 <= x a <= cap_ I a -> 0 <= res I x a u.
  Proof. intros x a u H. unfold res. destruct (tl_ I a =? u); lia. Qed.

  Lemma res_ext : forall x y a u, x a = y a -> res I x a u = res I y a u.
  Proof. intros x y a u H. unfold res. now rewrite H. Qed.

  Lemma res_push : forall c x k a u, NoDup (map fst c) -> In (a, u) c ->
    res I (push I x k c) a u = res I x a u - k.
  Proof.
    intros c x k a u Hn Hi. unfold res. rewrite (push_in I c x k a u Hn Hi). unfold dir. destruct (tl_ I a =? u); lia.
  Qed.

  Lemma res_push_rev : forall c x k a u w, NoDup (map fst c) -> In (a, u) c -> 0 <= a < m -> conn I a u w ->
    res I (push I x k c) a w = res I x a w + k.
  Proof.
    intros c x k a u w Hn Hi Ha Hc. pose proof (res_push c x k a u Hn Hi).
    pose proof (res_sum x a u w Ha Hc). pose proof (res_sum (push I x k c) a u w Ha Hc). lia.
  Qed.

  Lemma push_bounds : forall c x k, NoDup (map fst c) -> 0 <= k -> (forall a, 0 <= a < m -> 0 <= x a <= cap_ I a) ->
    (forall a u, In (a, u) c -> k <= res I x a u) ->
    forall a, 0 <= a < m -> 0 <= push I x k c a <= cap_ I a.
  Proof.
    intros c x k Hn Hk Hx Hc a Ha. destruct (in_dec Z.eq_dec a (map fst c)) as [Hi | Hi].
    - apply in_map_iff in Hi. destruct Hi as ([a' u] & E & Hi). cbn [fst] in E. subst a'.
      rewrite (push_in I c x k a u Hn Hi). pose proof (Hc a u Hi) as Q. pose proof (Hx a Ha). unfold res in Q. unfold dir.
      destruct (tl_ I a =? u); lia.
    - rewrite push_out by auto. auto.
  Qed.

  (** * Bounds from conservation *)
  Lemma out_bound : forall x, (forall a, 0 <= a < m -> 0 <= x a <= cap_ I a) ->
    (forall v, 0 <= v < n -> lsum (fun a => inc I a v * x a) (arange 0 m) = if v <? ns I then sup I v else - sup I v) ->
    forall v a b, 0 <= v < ns I -> 0 <= a < m -> 0 <= b < m -> a <> b -> tl_ I a = v -> tl_ I b = v ->
    x a + x b <= sup I v.
  Proof.
    intros x Hx Hc v a b Hv Ha Hb Hab Ea Eb. destruct G as [g1 g2 _ _ _ _ _ _].
    specialize (Hc v ltac:(lia)). destruct (Z.ltb_spec v (ns I)); [|lia].
    rewrite <- Hc.
    assert (Hn : forall c, In c (arange 0 m) -> 0 <= inc I c v * x c).
    { intros c Hc1. apply arange_in in Hc1. pose proof (Hx c Hc1) as B. unfold inc.
      assert (hd_ I c <> v).
      { destruct (Z_lt_ge_dec c e); [pose proof (arc_real I G c) | pose proof (arc_art I G c)]; lia. }
      destruct (Z.eqb_spec (hd_ I c) v); [tauto|]. destruct (tl_ I c =? v); lia. }
    pose proof (lsum_ge_two (fun a => inc I a v * x a) (arange 0 m) a b Hn) as Q.
    rewrite !arange_in in Q. specialize (Q Ha Hb Hab). cbv beta in Q.
    assert (Hone : forall c, 0 <= c < m -> tl_ I c = v -> inc I c v = 1).
    { intros c Hc1 Ec. pose proof (arc_ends I G c Hc1). unfold inc. rewrite Ec, Z.eqb_refl.
      destruct (Z.eqb_spec (hd_ I c) v); lia. }
    rewrite (Hone a), (Hone b) in Q by auto. lia.
  Qed.

  Lemma in_bound : forall x, (forall a, 0 <= a < m -> 0 <= x a <= cap_ I a) ->
    (forall v, 0 <= v < n -> lsum (fun a => inc I a v * x a) (arange 0 m) = if v <? ns I then sup I v else - sup I v) ->
    forall v a b, ns I <= v < n -> 0 <= a < m -> 0 <= b < m -> a <> b -> hd_ I a = v -> hd_ I b = v ->
    x a + x b <= sup I v.
  Proof.
    intros x Hx Hc v a b Hv Ha Hb Hab Ea Eb. destruct G as [g1 g2 _ _ _ _ _ _].
    specialize (Hc v ltac:(lia)). destruct (Z.ltb_spec v (ns I)); [lia|].
    replace (lsum (fun a => inc I a v * x a) (arange 0 m)) with (- lsum (fun a => (- inc I a v) * x a) (arange 0 m)) in Hc.
    2: { rewrite <- (lsum_ext (fun a => (-1) * (inc I a v * x a))) by (intros; lia). rewrite lsum_scal. lia. }
    assert (Hn : forall c, In c (arange 0 m) -> 0 <= (- inc I c v) * x c).
    { intros c Hc1. apply arange_in in Hc1. pose proof (Hx c Hc1) as B. unfold inc.
      assert (tl_ I c <> v).
      { destruct (Z_lt_ge_dec c e); [pose proof (arc_real I G c) | pose proof (arc_art I G c)]; lia. }
      destruct (Z.eqb_spec (tl_ I c) v); [tauto|]. destruct (hd_ I c =? v); lia. }
    pose proof (lsum_ge_two (fun a => (- inc I a v) * x a) (arange 0 m) a b Hn) as Q.
    rewrite !arange_in in Q. specialize (Q Ha Hb Hab). cbv beta in Q.
    assert (Hone : forall c, 0 <= c < m -> hd_ I c = v -> - inc I c v = 1).
    { intros c Hc1 Ec. pose proof (arc_ends I G c Hc1). unfold inc. rewrite Ec, Z.eqb_refl.
      destruct (Z.eqb_spec (tl_ I c) v); lia. }
    rewrite (Hone a), (Hone b) in Q by auto. lia.
  Qed.

  Lemma sup_bound : forall v, 0 <= v < n -> sup I v <= FP.
  Proof.
    intros v Hv. destruct G as [g1 g2 g3 g4 g5 _ _ _]. destruct (Z_lt_ge_dec v (ns I)).
    - assert (sup I v <= lsum (sup I) (arange 0 (ns I))); [|lia].
      apply lsum_ge_one; [|apply arange_in; lia]. intros b Hb. apply arange_in in Hb. specialize (g3 b). lia.
    - assert (sup I v <= lsum (sup I) (arange (ns I) n)); [|lia].
      apply lsum_ge_one; [|apply arange_in; lia]. intros b Hb. apply arange_in in Hb. specialize (g3 b). lia.
  Qed.

  (** A sink with the whole weight is the only one. *)
  Lemma only_sink : forall v, ns I <= v < n -> FP <= sup I v -> forall u, ns I <= u < n -> u = v.
  Proof.
    intros v Hv Hs u Hu. destruct (Z.eq_dec u v) as [|Hne]; auto. exfalso. destruct G as [g1 g2 g3 g4 g5 _ _ _].
    assert (sup I u + sup I v <= lsum (sup I) (arange (ns I) n)).
    { apply lsum_ge_two; auto; try (apply arange_in; lia). intros b Hb. apply arange_in in Hb. specialize (g3 b). lia. }
    specialize (g3 u). lia.
  Qed.
End Pivot.
