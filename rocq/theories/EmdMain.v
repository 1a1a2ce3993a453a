(** The states and the result of the solver, in terms of SpecEmd. *)
From Coq Require Import List ZArith Bool Lia Permutation.
From Verif Require Import Outcome EmdModel EmdArr EmdTree EmdOps EmdPath EmdFlow EmdSurgery EmdCycle EmdPivot EmdTerm
  EmdInit Sums EmdCert EmdOpt SpecEmd.
Import ListNotations.
Open Scope outcome_scope.
Open Scope Z_scope.

(** * Tables *)
Lemma tab_narr : forall n l f v, narr n l f -> inr n v -> tab l v = f v.
Proof.
  intros n l f v H Hv. pose proof (narr_get n l f v H Hv) as E. destruct H as [L _]. unfold inr in Hv. unfold tab, getZ in *.
  destruct (Z.ltb_spec v 0).
  - destruct (Z.ltb_spec (v + Z.of_nat (length l)) 0); [discriminate|].
    destruct (nth_error l (Z.to_nat (v + Z.of_nat (length l)))) eqn:E'; [|discriminate]. inversion E. subst.
    now apply nth_error_nth.
  - destruct (Z.ltb_spec v 0); [lia|]. destruct (nth_error l (Z.to_nat v)) eqn:E'; [|discriminate]. inversion E. subst.
    now apply nth_error_nth.
Qed.

Lemma tab_earr : forall n l f v, earr n l f -> 0 <= v < n -> tab l v = f v.
Proof.
  intros n l f v [L H] Hv. unfold tab. destruct (Z.ltb_spec v 0); [lia|].
  pose proof (arr_0_get l f (Z.to_nat v) H ltac:(lia)) as E. rewrite E. f_equal. lia.
Qed.

Lemma chain_nth : forall nx pv l k, chain nx pv l -> (S k < length l)%nat ->
  nx (nth k l 0) = nth (S k) l 0 /\ pv (nth (S k) l 0) = nth k l 0.
Proof.
  intros nx pv. induction l as [|a l IH]; intros k H Hk; [simpl in Hk; lia|].
  destruct l as [|b l]; [simpl in Hk; lia|]. cbn [chain] in H. destruct H as [H1 H2]. destruct k as [|k].
  - simpl. auto.
  - change (nth (S k) (a :: b :: l) 0) with (nth k (b :: l) 0). change (nth (S (S k)) (a :: b :: l) 0) with (nth (S k) (b :: l) 0).
    apply IH; [exact H2|]. simpl in *. lia.
Qed.

Lemma ring_nth : forall nx pv l k, ring nx pv l -> (k < length l)%nat ->
  nx (nth k l 0) = nth ((k + 1) mod length l) l 0 /\ pv (nth ((k + 1) mod length l) l 0) = nth k l 0.
Proof.
  intros nx pv l k H Hk. unfold ring in H. pose proof (chain_nth _ _ _ k H) as Q. rewrite app_length in Q. cbn [length] in Q.
  specialize (Q ltac:(lia)). rewrite (app_nth1 l _ _ Hk) in Q.
  destruct (Nat.eq_dec (k + 1) (length l)) as [E | E].
  - rewrite E, Nat.mod_same by lia. rewrite app_nth2 in Q by lia. replace (S k - length l)%nat with 0%nat in Q by lia.
    cbn [nth] in Q. unfold hdz in Q. destruct l; [simpl in Hk; lia|]. exact Q.
  - rewrite Nat.mod_small by lia. rewrite app_nth1 in Q by lia. replace (k + 1)%nat with (S k) by lia. exact Q.
Qed.

Lemma nth_lst : forall l, l <> [] -> nth (length l - 1) l 0 = lst l.
Proof.
  intros l H. rewrite (removelast_lst l H) at 1 2. rewrite app_length. cbn [length].
  replace (length (removelast l) + 1 - 1)%nat with (length (removelast l)) by lia. now rewrite nth_middle.
Qed.

Lemma nth_inj : forall (l : list Z) i j, NoDup l -> (i < length l)%nat -> (j < length l)%nat -> nth i l 0 = nth j l 0 -> i = j.
Proof. intros l i j H Hi Hj E. apply (proj1 (NoDup_nth l 0) H i j Hi Hj E). Qed.

Section Tables.
  Variable I : inst.
  Notation n := (ns I + nd I).
  Variables (F : tfun) (T : rtree).
  Hypothesis HT : TInv I F T.

  Lemma below_iff : forall g D u, T = plug g D -> inr n u -> (below (fpar F) (lab D) u <-> In u (pre D)).
  Proof.
    intros g D u E Hu. pose proof HT as [Ti Tl Tn Tr Te].
    assert (H2 : forall v, In v (pre T) -> v <> -2) by (intros v Hv; apply Tr in Hv; unfold inr in Hv; lia).
    assert (Q : forall fs v tv, T = plug fs (Node v tv) -> (below (fpar F) (lab D) v <-> In (lab D) (v :: labs fs))).
    { induction fs as [|[[p a] b] fs IH]; intros v tv Ev.
      - cbn [plug] in Ev. rewrite Ev in Tl. cbn [lab] in Tl. subst v. cbn [labs map]. split.
        + intros H. inversion H; [left; reflexivity|]. contradiction.
        + intros [<- | []]. constructor.
      - assert (Ep : T = plug fs (Node p (a ++ Node v tv :: b))) by exact Ev.
        specialize (IH p _ Ep).
        assert (Epar : fpar F v = p).
        { destruct Ti as [Hok _]. rewrite Ev in Hok. apply ok_plug_inner in Hok. apply ok_parent in Hok. exact Hok. }
        assert (Hv1 : v <> -1).
        { intros ->. assert (Ns : NoDup (pre T)) by exact Tn. pose proof (path_of F T ((p, a, b) :: fs) (-1) tv Ti Ev) as Hp.
          pose proof (rpath_nodup _ _ _ Hp) as Hn. assert (Hl : lst (-1 :: p :: labs fs) = -1).
          { transitivity (lab T); [|exact Tl]. rewrite Ev. exact (lst_labs ((p, a, b) :: fs) (-1) tv). }
          change (labs ((p, a, b) :: fs)) with (p :: labs fs) in *. rewrite lst_cons in Hl by congruence.
          apply NoDup_cons_iff in Hn. apply (proj1 Hn). rewrite <- Hl. apply lst_in. congruence. }
        change (labs ((p, a, b) :: fs)) with (p :: labs fs). split.
        + intros H. inversion H as [Eq | w Hw Hb Eq]; [left; congruence|]. subst w. rewrite Epar in Hb. right. apply IH, Hb.
        + intros [Eq | H]; [rewrite <- Eq; constructor|]. apply below_step; auto. rewrite Epar. apply IH, H. }
    assert (Hin : In u (pre T)) by (apply Tr; auto). destruct (find_node T u Hin) as (fs & tu & Eu).
    rewrite (Q fs u tu Eu). symmetry. eapply in_subtree; eauto.
  Qed.

  Lemma tables : tree_tables n (conn I) (fpar F) (fsz F) (fnx F) (fpv F) (fla F) (fed F) (pre T).
  Proof.
    pose proof HT as [[Hok Hring] Tl Tn Tr Te].
    assert (Hpos : forall k, (k < length (pre T))%nat -> exists g D, T = plug g D /\ lab D = nth k (pre T) 0 /\
       length (before g) = k /\ pre T = before g ++ pre D ++ after g).
    { intros k Hk. destruct (find_node T (nth k (pre T) 0)) as (g & ts & E); [apply nth_In; auto|].
      exists g, (Node (nth k (pre T) 0) ts). split; [exact E|]. split; [reflexivity|].
      assert (Ep : pre T = before g ++ pre (Node (nth k (pre T) 0) ts) ++ after g) by (rewrite E at 1; apply pre_plug).
      split; [|exact Ep]. rewrite pre_node in Ep. apply (nth_inj (pre T)); auto.
      - rewrite Ep, app_length. cbn [app length]. lia.
      - rewrite Ep at 1. cbn [app]. rewrite nth_middle. reflexivity. }
    constructor.
    - exact Tn.
    - exact Tr.
    - pose proof (pre_hd T) as H. unfold hdz in H. rewrite Tl in H. destruct (pre T); [discriminate|]. exact H.
    - apply ok_parent in Hok. now rewrite Tl in Hok.
    - intros v Hv. rewrite <- Tl. apply (below_iff [] T v eq_refl Hv). apply Tr, Hv.
    - intros k Hk. apply (ring_nth _ _ _ k Hring Hk).
    - intros k Hk. apply (ring_nth _ _ _ k Hring Hk).
    - intros k l Hk Hl. destruct (Hpos k Hk) as (g & D & E & El & Eg & Ep). rewrite <- El.
      rewrite (below_iff g D (nth l (pre T) 0) E) by (apply Tr, nth_In; auto).
      assert (Es : fsz F (lab D) = Z.of_nat (length (pre D))).
      { rewrite E in Hok. apply ok_plug_inner in Hok. now apply ok_size_pos in Hok. }
      rewrite Es, <- Eg. split.
      + intros Hin. apply (In_nth _ _ 0) in Hin. destruct Hin as (t & Ht & Et).
        assert (l = (length (before g) + t)%nat); [|lia]. apply (nth_inj (pre T)); auto.
        * rewrite Ep, !app_length. lia.
        * rewrite Ep at 2. rewrite app_nth2_plus, app_nth1 by auto. auto.
      + intros Hlk. replace l with (length (before g) + (l - length (before g)))%nat by lia. rewrite Ep, app_nth2_plus.
        rewrite app_nth1 by lia. apply nth_In. lia.
    - intros k Hk. destruct (Hpos k Hk) as (g & D & E & El & Eg & Ep). rewrite <- El.
      assert (HD : ok (fpar F) (fsz F) (fla F) (top (-2) g) D) by (rewrite E in Hok; now apply ok_plug_inner in Hok).
      pose proof (ok_size_pos _ _ _ _ _ HD) as Es. pose proof (ok_last _ _ _ _ _ HD) as Ela.
      assert (Lp : (0 < length (pre D))%nat) by (pose proof (pre_ne D); destruct (pre D); [congruence|simpl; lia]).
      exists (k + (length (pre D) - 1))%nat. rewrite Es, Ela. split; [|split].
      + rewrite Ep, !app_length. lia.
      + lia.
      + rewrite Ep, <- Eg, app_nth2_plus, app_nth1 by lia. rewrite nth_lst; [reflexivity | apply pre_ne].
    - intros v Hv. apply (Te v Hv).
  Qed.
End Tables.

(** * The solver *)
Section Solver.
  Variables src snk cost cap : list Z.
  Hypothesis B : balanced src snk cost cap.
  Notation N := (make_net src snk cost cap).
  Notation I := (inst_of src snk cost cap).
  Notation n := (ns I + nd I).
  Notation e := (ns I * nd I).
  Notation m := (e + n).
  Notation n1 := (length src).
  Notation n2 := (length snk).
  Notation inner := (S (S (n1 + n2))).

  (** The states after any number of pivots. *)
  Definition reachable (st : state) : Prop := reach N inner (init_state src snk cost cap) st.

  Lemma inner_ok : (Z.to_nat (n + 1) < inner)%nat.
  Proof. cbn [ns nd inst_of]. lia. Qed.

  Lemma n1_eq : Z.to_nat (ns I) = n1.
  Proof. cbn [ns inst_of]. lia. Qed.
  Lemma n2_eq : Z.to_nat (nd I) = n2.
  Proof. cbn [nd inst_of]. lia. Qed.
  Lemma arcid_eq : forall i j, arcid I i j = Z.of_nat (i * n2 + j).
  Proof. intros i j. unfold arcid. cbn [nd inst_of]. lia. Qed.

  Lemma reachable_inv : forall st, reachable st -> exists F T x pi, Inv I st F T x pi.
  Proof.
    intros st H. eapply reach_inv; [apply good_init; exact B | apply netrep_init; exact B | apply inner_ok | exact H |].
    exists (F0 src snk cost cap), (T0 src snk cost cap), (x0 src snk cost cap), (pi0 src snk cost cap). apply inv_init, B.
  Qed.

  Lemma conn_joins : forall a u v, 0 <= a < m -> conn I a u v -> edge_joins n1 n2 a u v.
  Proof.
    intros a u v Ha H. pose proof (good_init _ _ _ _ B) as G.
    destruct (Z_lt_ge_dec a e) as [L|L].
    - left. destruct (div_mod_nat _ _ _ _ B a ltac:(lia)) as (i & j & Hi & Hj & E & E1 & E2).
      exists i, j. split; auto. split; auto. split; [lia|]. unfold conn, tl_, hd_ in H.
      destruct (Z.ltb_spec a e); [|lia]. rewrite E1, E2 in H. cbn [ns inst_of] in H. lia.
    - right. exists (Z.to_nat (a - e)). pose proof (arc_art I G a ltac:(lia)) as A. cbn [ns nd inst_of] in *.
      split; [lia|]. split; [nia|]. destruct H as [H | H], A as [A | A]; lia.
  Qed.

  Definition state_ok (st : state) : Prop :=
    (exists order, tree_tables (Z.of_nat (n1 + n2)) (edge_joins n1 n2)
       (tab (parent (tree st))) (tab (size (tree st))) (tab (next_node (tree st))) (tab (prev_node (tree st)))
       (tab (last_node (tree st))) (tab (edge (tree st))) order) /\
    flow_ok n1 n2 (fun i => nth i src 0) (fun j => nth j snk 0) (fun k => nth k cap 0) FP (fun k => nth k (flows st) 0).

  Lemma flow_nth : forall st F T x pi k, Inv I st F T x pi -> 0 <= Z.of_nat k < m -> nth k (flows st) 0 = x (Z.of_nat k).
  Proof. intros st F T x pi k H Hk. destruct (i_x _ _ _ _ _ _ H) as [L A]. apply arr_0_get; auto. lia. Qed.

  Lemma below_ext : forall par par' v u n', below par v u -> (forall w, 0 <= w < n' -> par w = par' w /\ -1 <= par' w < n') ->
    -1 <= u < n' -> below par' v u.
  Proof.
    intros par par' v u n' H He. induction H as [|u Hu H IH]; intros Hr; [constructor|].
    destruct (He u ltac:(lia)) as [E1 E2]. apply below_step; auto. rewrite <- E1. apply IH. lia.
  Qed.

  Lemma inv_state_ok : forall st F T x pi, Inv I st F T x pi -> state_ok st.
  Proof.
    intros st F T x pi H. pose proof (good_init _ _ _ _ B) as G. pose proof H as [Hr Hx Hpi Hp HT HF].
    pose proof (ns_pos _ _ _ _ B) as P1. pose proof (nd_pos _ _ _ _ B) as P2.
    split.
    - exists (pre T). replace (Z.of_nat (n1 + n2)) with n by (cbn [ns nd inst_of]; lia).
      pose proof (tables I F T HT) as [t1 t2 t3 t4 t5 t6 t7 t8 t9 t10]. destruct Hr as [r1 r2 r3 r4 r5 r6].
      assert (Hk : forall k, (k < length (pre T))%nat -> inr n (nth k (pre T) 0)) by (intros k Hk; apply t2, nth_In; auto).
      assert (Hmod : forall k, (k < length (pre T))%nat -> ((k + 1) mod length (pre T) < length (pre T))%nat)
        by (intros k Hk'; apply Nat.mod_upper_bound; lia).
      assert (Hpar : forall w, 0 <= w < n -> fpar F w = tab (parent (tree st)) w /\ -1 <= tab (parent (tree st)) w < n).
      { intros w Hw. rewrite (tab_narr n _ _ w r1) by (unfold inr; lia). split; auto. apply (par_size I F T HT w Hw). }
      assert (Hb : forall v u, -1 <= u < n -> (below (tab (parent (tree st))) v u <-> below (fpar F) v u)).
      { intros v u Hu. split; intros Q.
        - eapply below_ext; [exact Q | | exact Hu]. intros w Hw. destruct (Hpar w Hw) as [<- Hq]. split; auto.
        - eapply below_ext; [exact Q | exact Hpar | exact Hu]. }
      constructor; auto.
      + rewrite (tab_narr n _ _ _ r1); auto. unfold inr. lia.
      + intros v Hv. apply Hb; auto.
      + intros k Hk'. rewrite (tab_narr n _ _ _ r3) by auto. auto.
      + intros k Hk'. rewrite (tab_narr n _ _ _ r5) by auto. auto.
      + intros k l Hk' Hl'. rewrite (tab_narr n _ _ _ r2) by auto. rewrite Hb by (apply Hk; auto). auto.
      + intros k Hk'. rewrite (tab_narr n _ _ _ r2), (tab_narr n _ _ _ r4) by auto. auto.
      + intros v Hv. destruct (t_ed _ _ _ HT v Hv) as [Ha Hc]. rewrite (tab_earr n _ _ _ r6) by auto.
        rewrite (tab_narr n _ _ _ r1) by (unfold inr; lia). apply conn_joins; auto.
    - assert (Hsrc : forall i, (i < n1)%nat -> sup I (Z.of_nat i) = nth i src 0).
      { intros i Hi. cbn [sup inst_of]. destruct (Z.ltb_spec (Z.of_nat i) (Z.of_nat n1)); [|lia]. unfold nthz. now rewrite Nat2Z.id. }
      assert (Hsnk : forall j, (j < n2)%nat -> sup I (ns I + Z.of_nat j) = nth j snk 0).
      { intros j Hj. cbn [sup ns inst_of]. destruct (Z.ltb_spec (Z.of_nat n1 + Z.of_nat j) (Z.of_nat n1)); [lia|]. unfold nthz.
        f_equal. lia. }
      assert (He : e = Z.of_nat (n1 * n2)) by (cbn [ns nd inst_of]; lia).
      assert (Hm : m = Z.of_nat (n1 * n2 + (n1 + n2))) by (cbn [ns nd inst_of]; lia).
      constructor.
      + intros k Hk. rewrite (flow_nth st F T x pi k H) by lia. pose proof (f_cap _ _ _ _ HF (Z.of_nat k) ltac:(lia)) as Q.
        unfold cap_ in Q. destruct (Z.ltb_spec (Z.of_nat k) e); [|lia]. cbn [cpc inst_of] in Q. unfold nthz in Q.
        now rewrite Nat2Z.id in Q.
      + intros w Hw. rewrite (flow_nth st F T x pi _ H) by lia. pose proof (f_cap _ _ _ _ HF (Z.of_nat (n1 * n2 + w)) ltac:(lia)) as Q.
        unfold cap_ in Q. destruct (Z.ltb_spec (Z.of_nat (n1 * n2 + w)) e); lia.
      + intros i Hi. rewrite <- (Hsrc i Hi). rewrite <- (row_sum I G F x pi HF i) by (rewrite n1_eq; auto). rewrite n2_eq.
        f_equal.
        * apply ZSum_ext. intros j Hj. rewrite arcid_eq. apply (flow_nth st F T x pi _ H). split; [lia|]. rewrite Hm. nia.
        * rewrite (flow_nth st F T x pi _ H) by lia. f_equal. lia.
      + intros j Hj. rewrite <- (Hsnk j Hj). rewrite <- (col_sum I G F x pi HF j) by (rewrite n2_eq; auto). rewrite n1_eq.
        f_equal.
        * apply ZSum_ext. intros i Hi. rewrite arcid_eq. apply (flow_nth st F T x pi _ H). split; [lia|]. rewrite Hm. nia.
        * rewrite (flow_nth st F T x pi _ H) by lia. f_equal. cbn [ns nd inst_of]. lia.
  Qed.

  (** C25: tables and flow are right in every state and no step goes wrong. *)
  Theorem reachable_ok : forall st, reachable st -> state_ok st /\
    (pivot N inner st = Done None \/ exists st', pivot N inner st = Done (Some st') /\ reachable st').
  Proof.
    intros st H. destruct (reachable_inv st H) as (F & T & x & pi & HI). split; [eapply inv_state_ok; eauto|].
    destruct (pivot_correct I (good_init _ _ _ _ B) N inner st F T x pi (netrep_init _ _ _ _ B) HI inner_ok)
      as [[E _] | (st' & F' & T' & x2 & pi2 & E & _)]; [left; auto|right].
    exists st'. split; auto. unfold reachable in *. clear - H E.
    induction H as [st | st st1 st2 E1 H IH]; [eapply reach_step; [exact E | constructor]|].
    eapply reach_step; [exact E1|]. apply IH, E.
  Qed.

  (** Pivots needed at most. *)
  Definition pivot_bound : Z :=
    let M := faux_inf src snk cost cap in
    let k := Z.of_nat (n1 + n2) in
    M * (zsum src + zsum snk) * (2 * (k * (k * M)) + 1) + 2 * (k * (k * M)).

  Lemma mu_bound : mu I (x0 src snk cost cap) (pi0 src snk cost cap) <= pivot_bound.
  Proof.
    pose proof (good_init _ _ _ _ B) as G. pose proof (ns_pos _ _ _ _ B) as P1. pose proof (nd_pos _ _ _ _ B) as P2.
    pose proof (inv_init _ _ _ _ B) as [_ _ _ _ HT HF].
    pose proof (pi_sum_bound I G _ _ _ _ HT HF) as Hp.
    assert (Et : total I (x0 src snk cost cap) = faux_inf src snk cost cap * (zsum src + zsum snk)).
    { unfold total. rewrite (arange_split 0 e m) by nia. rewrite lsum_app.
      rewrite (lsum_zero _ (arange 0 e)).
      2: { intros a Ha. apply arange_in in Ha. unfold x0. destruct (Z.ltb_spec a e); [lia|lia]. }
      rewrite (lsum_ext _ (fun a => faux_inf src snk cost cap * sup I (a - e))).
      2: { intros a Ha. apply arange_in in Ha. unfold x0, cost_. destruct (Z.ltb_spec a e); [lia|]. reflexivity. }
      rewrite lsum_scal. rewrite Z.add_0_l. f_equal.
      rewrite (arange_split e (e + ns I) m) by lia. rewrite lsum_app. f_equal.
      - rewrite (lsum_ext _ (fun a => nthz src (a - e))); [apply lsum_nthz|]. intros a Ha. apply arange_in in Ha.
        cbn [sup inst_of]. destruct (Z.ltb_spec (a - e) (Z.of_nat n1)); [reflexivity|]. cbn [ns inst_of] in *. lia.
      - rewrite (lsum_ext _ (fun a => nthz snk (a - (e + ns I)))).
        + replace m with (e + ns I + Z.of_nat n2) by (cbn [ns nd inst_of]; lia). apply lsum_nthz.
        + intros a Ha. apply arange_in in Ha. cbn [sup inst_of]. destruct (Z.ltb_spec (a - e) (Z.of_nat n1)); [cbn [ns inst_of] in *; lia|].
          f_equal. cbn [ns inst_of]. lia. }
    assert (Epm : pmax I = Z.of_nat (n1 + n2) * (Z.of_nat (n1 + n2) * faux_inf src snk cost cap)).
    { unfold pmax. cbn [ns nd big inst_of]. now replace (Z.of_nat n1 + Z.of_nat n2) with (Z.of_nat (n1 + n2)) by lia. }
    unfold mu, pivot_bound. cbv zeta. rewrite Et, <- Epm. lia.
  Qed.

  Definition ent (l : list Z) (i j : nat) : Z := nth (i * n2 + j) l 0.

  (** The loop ends, and the flow it ends with has dual variables. *)
  Theorem simplex_cert : forall fuel cm, pivot_bound < Z.of_nat fuel -> Forall (fun c => c <= cm) cost ->
    exists fl ls ld ps pd D,
      simplex fuel src snk cost cap = Done fl /\ length fl = (n1 * n2)%nat /\
      cert n1 n2 (fun i => nth i src 0) (fun j => nth j snk 0) (ent cost) (ent cap) (ent fl) ls ld ps pd
        (faux_inf src snk cost cap) /\
      (forall i, (i < n1)%nat -> Z.abs (ps i - faux_inf src snk cost cap) <= D \/ Z.abs (ps i + faux_inf src snk cost cap) <= D) /\
      (forall j, (j < n2)%nat -> Z.abs (pd j - faux_inf src snk cost cap) <= D \/ Z.abs (pd j + faux_inf src snk cost cap) <= D) /\
      (forall i j, (i < n1)%nat -> (j < n2)%nat -> ent cost i j <= D) /\
      0 <= D /\ 3 * D < 2 * faux_inf src snk cost cap /\ D <= Z.of_nat (n1 + n2) * cm.
  Proof.
    intros fuel cm Hf Hcm. pose proof (good_init _ _ _ _ B) as G. pose proof B as [_ _ _ _ _ _ Lc Lp _ _].
    pose proof (ns_pos _ _ _ _ B) as P1. pose proof (nd_pos _ _ _ _ B) as P2.
    assert (Hmu : mu I (x0 src snk cost cap) (pi0 src snk cost cap) < Z.of_nat fuel) by (pose proof mu_bound; lia).
    destruct (pivots_correct I G N inner fuel _ _ _ _ _ (netrep_init _ _ _ _ B) (inv_init _ _ _ _ B) inner_ok Hmu)
      as (st & F & T & x & pi & E & HI & _ & _ & HS).
    pose proof HI as [Hr Hx Hpi Hp HT HF].
    assert (Hsum : lsum (cst I) (arange 0 e) = zsum cost).
    { replace e with (0 + Z.of_nat (length cost)) by (rewrite Lc; cbn [ns nd inst_of]; lia).
      rewrite <- (lsum_nthz cost 0). apply lsum_ext. intros a Ha. cbn [cst inst_of]. now rewrite Z.sub_0_r. }
    destruct (big_bound _ _ _ _ B) as [b1 b2].
    assert (Hs0 : 0 <= zsum cost) by (apply zsum_nonneg; apply B).
    pose proof (cert_inv I G F x pi HF HS ltac:(lia)) as K.
    assert (Hcm' : forall a, 0 <= a < e -> cst I a <= cm).
    { intros a Ha. cbn [cst inst_of]. rewrite Forall_forall in Hcm. apply Hcm. unfold nthz. apply nth_In. rewrite Lc.
      cbn [ns nd inst_of] in Ha. lia. }
    assert (Hm : m = Z.of_nat (n1 * n2 + (n1 + n2))) by (cbn [ns nd inst_of]; lia).
    assert (Hxe : forall i j, (i < n1)%nat -> (j < n2)%nat -> ent (firstn (length cost) (flows st)) i j = x (arcid I i j)).
    { intros i j Hi Hj. unfold ent. rewrite arcid_eq. rewrite <- (flow_nth st F T x pi _ HI) by nia.
      assert (Hlt : (i * n2 + j < length cost)%nat) by (rewrite Lc; nia).
      clear - Hlt. revert Hlt. generalize (i * n2 + j)%nat, (length cost), (flows st). intros k l.
      revert k. induction l as [|l IH]; intros k f H; [lia|]. destruct f; [now rewrite firstn_nil|]. destruct k; [reflexivity|].
      cbn [firstn nth]. apply IH. lia. }
    set (D := Z.min (zsum cost) (Z.of_nat (n1 + n2) * cm)).
    assert (Hcl : forall v, 0 <= v < n -> Z.abs (pi v - big I) <= D \/ Z.abs (pi v + big I) <= D).
    { intros v Hv. destruct (pi_close I G F T x pi HT HF cm Hcm' v Hv) as (Dv & C1 & C2 & C3).
      assert (Dv <= D); [|lia]. unfold D. rewrite Hsum in C2. apply Z.min_glb; [lia|]. cbn [ns nd inst_of] in C3. lia. }
    assert (Hcm0 : 0 <= cm).
    { pose proof (e_pos I G). pose proof (Hcm' 0 ltac:(lia)). pose proof (g_cst _ G 0 ltac:(lia)). lia. }
    exists (firstn (length cost) (flows st)), (fun i => x (e + Z.of_nat i)), (fun j => x (e + (ns I + Z.of_nat j))),
      (fun i => pi (Z.of_nat i)), (fun j => pi (ns I + Z.of_nat j)), D.
    split; [unfold simplex; cbv zeta; rewrite E; reflexivity|].
    split. { rewrite firstn_length. destruct Hx as [Lx _]. rewrite Lc. lia. }
    rewrite n1_eq, n2_eq in K.
    assert (Ha : forall i, (i < n1)%nat -> sup I (Z.of_nat i) = nth i src 0).
    { intros i Hi. cbn [sup inst_of]. destruct (Z.ltb_spec (Z.of_nat i) (Z.of_nat n1)); [|lia]. unfold nthz. now rewrite Nat2Z.id. }
    assert (Hb : forall j, (j < n2)%nat -> sup I (ns I + Z.of_nat j) = nth j snk 0).
    { intros j Hj. cbn [sup ns inst_of]. destruct (Z.ltb_spec (Z.of_nat n1 + Z.of_nat j) (Z.of_nat n1)); [lia|]. unfold nthz. f_equal. lia. }
    assert (Hc : forall i j, cst I (arcid I i j) = ent cost i j /\ cpc I (arcid I i j) = ent cap i j).
    { intros i j. rewrite arcid_eq. cbn [cst cpc inst_of]. unfold nthz, ent. now rewrite Nat2Z.id. }
    split; [|split; [|split; [|split; [|split; [|split]]]]].
    - destruct K as [k1 k2 k3 k4 k5 k6 k7 [k8 k9] k10 k11 k12]. constructor; auto.
      + intros i j Hi Hj. destruct (Hc i j) as [_ <-]. rewrite Hxe by auto. auto.
      + intros i Hi. rewrite <- (Ha i Hi), <- (k2 i Hi). f_equal. apply ZSum_ext. intros j Hj. apply Hxe; auto.
      + intros j Hj. rewrite <- (Hb j Hj), <- (k3 j Hj). f_equal. apply ZSum_ext. intros i Hi. apply Hxe; auto.
      + constructor; intros i j Hi Hj; rewrite Hxe by auto; destruct (Hc i j) as [E1 E2]; rewrite <- ?E1, <- ?E2; auto.
      + intros i j Hi Hj. destruct (Hc i j) as [<- _]. auto.
      + rewrite <- (ZSum_ext n1 (fun i => ZSum n2 (fun j => cst I (arcid I i j)))); [exact k11|].
        intros i Hi. apply ZSum_ext. intros j Hj. apply Hc.
      + rewrite <- (ZSum_ext n1 _ _ Ha), <- (ZSum_ext n2 _ _ Hb). exact k12.
    - intros i Hi. apply Hcl. cbn [ns nd inst_of]. lia.
    - intros j Hj. apply Hcl. cbn [ns nd inst_of]. lia.
    - intros i j Hi Hj. destruct (Hc i j) as [<- _].
      assert (Har : 0 <= arcid I i j < e) by (apply arcid_spec; rewrite ?n1_eq, ?n2_eq; auto).
      unfold D. apply Z.min_glb.
      + rewrite <- Hsum. apply lsum_ge_one; [|apply arange_in; lia]. intros a Hq. apply arange_in in Hq. apply (g_cst _ G); auto.
      + pose proof (Hcm' _ Har). cbn [ns nd inst_of] in P1, P2. nia.
    - unfold D. apply Z.min_glb; [lia|]. nia.
    - assert (D <= zsum cost) by (unfold D; lia). change (big I) with (faux_inf src snk cost cap) in b1, b2. lia.
    - unfold D. lia.
  Qed.
End Solver.
