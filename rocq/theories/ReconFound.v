(** Completeness of the search for the points of a motif. *)
From Coq Require Import List ZArith Reals Arith Bool Sorted Permutation Lia Lra.
From Verif Require Import Num Base Outcome Spec LatticeModel LatticeProofs2 VecR NNModel SpecGeom NNSpecProofs NNComplete SpecCell UtilsModel Props_Utils PSetModel Props_PSet SpecRecon SpecFound ReconModel Props_Recon Props_Search.
Import ListNotations.
Open Scope R_scope.
Open Scope list_scope.
Open Scope outcome_scope.

(** ** Choices *)
Lemma combinations_cons : forall A r (x : A) t, combinations (S r) (x :: t) = map (cons x) (combinations r t) ++ combinations (S r) t.
Proof. reflexivity. Qed.
Lemma combinations_increasing : forall l c, StronglySorted Rlt l -> StronglySorted Rlt c -> incl c l -> In c (combinations (length c) l).
Proof.
  induction l as [|x t IH]; intros c HL HC HI.
  - destruct c as [|y c]; [cbn; auto|]. destruct (HI y). left. auto.
  - destruct c as [|y c]; [cbn; auto|]. cbn [length]. rewrite combinations_cons. apply in_app_iff.
    inversion HL as [|? ? HL1 HL2]; subst. inversion HC as [|? ? HC1 HC2]; subst. rewrite Forall_forall in HL2, HC2.
    destruct (HI y (or_introl eq_refl)) as [->|Hy].
    + left. apply in_map. apply IH; auto. intros z Hz. destruct (HI z (or_intror Hz)) as [->|]; auto. specialize (HC2 z Hz). lra.
    + right. apply (IH (y :: c)); auto. intros z [<-|Hz]; auto. destruct (HI z (or_intror Hz)) as [->|]; auto. specialize (HC2 z Hz). specialize (HL2 y Hy). lra.
Qed.
Lemma combinations_perm : forall A (eq : forall x y : A, {x = y} + {x <> y}) (l c : list A), NoDup c -> incl c l -> exists p : list A, In p (combinations (length c) l) /\ Permutation c p.
Proof.
  intros A eq. induction l as [|x t IH]; intros c HN HI.
  - destruct c as [|y c]; [exists []; cbn; auto|]. destruct (HI y). left. auto.
  - destruct (in_dec eq x c) as [Hx|Hx].
    + apply in_split in Hx as (c1 & c2 & ->). assert (P : Permutation (c1 ++ x :: c2) (x :: c1 ++ c2)) by (symmetry; apply Permutation_middle).
      pose proof (Permutation_NoDup P HN) as HN'. inversion HN' as [|? ? NX ND]; subst.
      destruct (IH (c1 ++ c2) ND) as (p & Hp & PP).
      { intros z Hz. destruct (HI z) as [->|]; auto; [|contradiction]. apply in_app_iff in Hz. apply in_app_iff. cbn. tauto. }
      exists (x :: p). split; [|rewrite P; constructor; auto]. rewrite (Permutation_length P). cbn [length]. rewrite combinations_cons. apply in_app_iff. left. apply in_map. auto.
    + destruct (IH c HN) as (p & Hp & PP). { intros z Hz. destruct (HI z Hz) as [->|]; auto. contradiction. }
      exists p. split; auto. destruct c as [|y c]; [cbn in *; auto|]. cbn [length] in *. rewrite combinations_cons. apply in_app_iff. auto.
Qed.
Lemma permutations_in : forall A (c p : list A), Permutation c p -> In c (permutations (length c) p).
Proof.
  intros A. induction c as [|x c IH]; intros p HP; [cbn; auto|]. cbn [length permutations].
  assert (Hx : In x p) by (apply (Permutation_in x HP); left; auto). apply in_split in Hx as (p1 & p2 & ->).
  apply in_flat_map. exists (length p1). split; [apply in_seq; rewrite app_length; cbn [length]; lia|].
  rewrite nth_error_app2, Nat.sub_diag by lia. cbn [nth_error]. apply in_map. apply IH.
  replace (drop_at (length p1) (p1 ++ x :: p2)) with (p1 ++ p2); [apply (Permutation_cons_app_inv _ _ HP)|].
  unfold drop_at. rewrite firstn_app, Nat.sub_diag, firstn_all. cbn [firstn]. rewrite app_nil_r. f_equal.
  replace (S (length p1)) with (length (p1 ++ [x])) by (rewrite app_length; cbn; lia). replace (p1 ++ x :: p2) with ((p1 ++ [x]) ++ p2) by (rewrite <- app_assoc; auto).
  rewrite skipn_app, skipn_all, Nat.sub_diag. auto.
Qed.
Lemma first_some_found : forall A B (f : A -> option B) l x, In x l -> f x <> None -> exists y, first_some f l = Some y.
Proof.
  induction l as [|a l IH]; intros x H HF; [destruct H|]; destruct H as [->|H]; cbn [first_some].
  - destruct (f x) eqn:E; [eauto|congruence].
  - destruct (f a); eauto.
Qed.

(** ** The list of shared distances *)
Lemma first_index : forall (x : R) l, In x l -> exists k, (k < length l)%nat /\ nth k l 0 = x /\ forall i, (i < k)%nat -> nth i l 0 <> x.
Proof.
  intros x. induction l as [|a l IH]; intros H; [destruct H|]. destruct (Req_dec a x) as [->|NE].
  - exists 0%nat. cbn. split; [lia|]. split; auto. intros; lia.
  - destruct H as [H|H]; [contradiction|]. destruct (IH H) as (k & H1 & H2 & H3). exists (S k). cbn. split; [lia|]. split; auto. intros [|i] Hi; auto. apply H3. lia.
Qed.
Lemma shared_listed : forall prec vals row row' x, resolved prec vals row row' -> shared prec vals row row' x ->
  In x (unique_within_tol (shared_vals (remove_vals row vals prec) (remove_vals row' vals prec) prec) prec).
Proof.
  intros prec vals row row' x RS SX. set (sv := shared_vals _ _ _).
  assert (ALL : forall y, In y sv <-> shared prec vals row row' y).
  { assert (RM : forall r y, In y (remove_vals r vals prec) <-> In y r /\ forall v, In v vals -> prec <= Rabs (y - v)).
    { intros r y. destruct (C56_remove r vals prec) as (ps & _ & K & ->). rewrite in_map_iff. split.
      - intros (k & <- & Hk). apply K in Hk as [H1 H2]. split; auto. apply nth_In. auto.
      - intros [H1 H2]. apply (In_nth _ _ 0) in H1 as (k & Hk & <-). exists k. split; auto. apply K. auto. }
    intros y. unfold sv. rewrite C56_shared_values, RM. unfold shared. split.
    - intros [[H1 H2] (e & He & Q)]. apply RM in He as [H3 H4]. split; auto. split; auto. exists e. auto.
    - intros (H1 & H2 & e & H3 & H4 & Q). split; auto. exists e. rewrite RM. auto. }
  destruct (C56_unique sv prec) as (ps & _ & K & ->).
  destruct (first_index x sv (proj2 (ALL x) SX)) as (k & H1 & H2 & H3). apply in_map_iff. exists k. split; auto. apply K. split; auto. intros i Hi.
  destruct (Rle_lt_dec prec (Rabs (nth i sv 0 - nth k sv 0))) as [|Q]; auto. exfalso. apply (H3 i Hi). rewrite H2 in Q. apply RS; auto. apply ALL. apply nth_In. lia.
Qed.
Lemma kept_sorted : forall P arr res, kept P arr res -> StronglySorted Rle arr -> StronglySorted Rle res.
Proof.
  intros P arr res (ps & PS & K & ->) HS.
  assert (O : forall l, StronglySorted Rle l -> forall i k, (i <= k < length l)%nat -> nth i l 0 <= nth k l 0).
  { clear. induction 1 as [|a l S IH F]; intros i k Hik; [cbn in Hik; lia|]. destruct i as [|i], k as [|k]; cbn [nth]; try lra; try lia.
    - rewrite Forall_forall in F. apply F, nth_In. cbn in Hik. lia.
    - apply IH. cbn in Hik. lia. }
  assert (B : forall k, In k ps -> (k < length arr)%nat) by (intros k Hk; apply K in Hk; tauto). clear K.
  induction PS as [|k ps PS IH F]; cbn [map]; constructor; [apply IH; intros; apply B; right; auto|].
  apply Forall_forall. intros y Hy. apply in_map_iff in Hy as (j & <- & Hj). rewrite Forall_forall in F. specialize (F j Hj). apply O; auto. split; [lia|apply B; right; auto].
Qed.
Lemma sorted_app : forall l l' : list R, StronglySorted Rle l -> StronglySorted Rle l' -> (forall x y, In x l -> In y l' -> x <= y) -> StronglySorted Rle (l ++ l').
Proof.
  induction l as [|a l IH]; intros l' H1 H2 H; auto. inversion H1 as [|? ? S F]; subst. cbn [app]. constructor; [apply IH; auto; intros; apply H; auto; right; auto|].
  apply Forall_app. split; auto. apply Forall_forall. intros y Hy. apply H; auto. left. auto.
Qed.
Lemma shared_sorted : forall v1 v2 prec, StronglySorted Rle v1 -> StronglySorted Rle (shared_vals v1 v2 prec).
Proof.
  intros v1 v2 prec HS. rewrite C56_shared. induction HS as [|a l S IH F]; cbn [map List.concat]; [constructor|]. apply sorted_app; auto.
  - induction (matches prec a v2) as [|n IHn]; cbn [repeat]; constructor; auto. apply Forall_forall. intros y Hy. apply repeat_spec in Hy. lra.
  - intros x y Hx Hy. apply repeat_spec in Hx. subst x. apply in_concat in Hy as (r & Hr & Hy). apply in_map_iff in Hr as (z & <- & Hz). apply repeat_spec in Hy. subst y.
    rewrite Forall_forall in F. auto.
Qed.
Lemma apart_sorted : forall prec l, 0 < prec -> apart prec l -> StronglySorted Rle l -> StronglySorted Rlt l.
Proof.
  intros prec l HP HA HS. induction HS as [|a l S IH F]; constructor; inversion HA as [|? ? F' HA']; subst; auto.
  rewrite Forall_forall in *. intros y Hy. specialize (F y Hy). specialize (F' y Hy). destruct F as [F|F]; auto. subst y. rewrite Rminus_diag_eq in F' by auto. rewrite Rabs_R0 in F'. lra.
Qed.
Lemma shared_list_sorted : forall prec vals row row', 0 < prec -> StronglySorted Rle row ->
  StronglySorted Rlt (unique_within_tol (shared_vals (remove_vals row vals prec) (remove_vals row' vals prec) prec) prec).
Proof.
  intros prec vals row row' HP HS. apply (apart_sorted prec); auto; [apply shared_apart|]. apply (kept_sorted _ _ _ (C56_unique _ _)). apply shared_sorted. apply (kept_sorted _ _ _ (C56_remove _ _ _)). auto.
Qed.
Lemma shared_list_head : forall prec vals row row' d, 0 < prec -> StronglySorted Rle row -> resolved prec vals row row' -> least_shared prec vals row row' d ->
  exists rest, unique_within_tol (shared_vals (remove_vals row vals prec) (remove_vals row' vals prec) prec) prec = d :: rest.
Proof.
  intros prec vals row row' d HP HS RS [H1 H2]. pose proof (shared_listed _ _ _ _ _ RS H1) as I. pose proof (shared_list_sorted prec vals row row' HP HS) as S.
  pose proof (fun x => shared_in prec vals row row' x) as SH. destruct (unique_within_tol _ prec) as [|a rest]; [destruct I|]. exists rest. f_equal.
  destruct I as [->|I]; auto. inversion S as [|? ? _ F]; subst. rewrite Forall_forall in F. specialize (F d I). specialize (H2 a (SH a (or_introl eq_refl))). lra.
Qed.

(** ** Intersections *)
Lemma volume_distinct : forall dims bs, dims = 2%nat \/ dims = 3%nat -> square_matrix dims bs -> volume dims bs <> 0 -> NoDup bs.
Proof.
  intros dims bs [->| ->] HS HV.
  - destruct (square2 bs HS) as (x1 & y1 & x2 & y2 & ->). repeat constructor; cbn [In]; [|tauto]. intros [H|[]]. inversion H; subst. apply HV. unfold volume, det2, entry. cbn [Nat.eqb nth]. rewrite <- Rabs_R0. f_equal. ring.
  - destruct (square3 bs HS) as (x1 & y1 & z1 & x2 & y2 & z2 & x3 & y3 & z3 & ->). repeat constructor; cbn [In]; [| |tauto].
    + intros [H|[H|[]]]; inversion H; subst; apply HV; unfold volume, det3, entry; cbn [Nat.eqb nth]; rewrite <- Rabs_R0; f_equal; ring.
    + intros [H|[]]; inversion H; subst; apply HV; unfold volume, det3, entry; cbn [Nat.eqb nth]; rewrite <- Rabs_R0; f_equal; ring.
Qed.
Lemma sphere_intersect_complete : forall dims bs q d prec, dims = 2%nat \/ dims = 3%nat -> square_matrix dims bs -> volume dims bs <> 0 -> length q = dims ->
  Rabs (vlen q - d) < prec -> crossing dims prec q d bs -> sphere_intersect bs (map (edist q) bs) d prec <> None.
Proof.
  intros dims bs q d prec H23 HS HV HL HQ HC. pose proof (volume_distinct dims bs H23 HS HV) as ND. destruct H23; subst dims.
  - destruct (square2 bs HS) as (x1 & y1 & x2 & y2 & ->). cbn [map sphere_intersect]. apply C55_bilaterate_complete; auto; [|exists q; auto].
    inversion ND as [|? ? N1 N2]; subst. intros C. apply N1. left. auto.
  - destruct (HC eq_refl) as [H1 H2]. destruct (square3 bs HS) as (x1 & y1 & z1 & x2 & y2 & z2 & x3 & y3 & z3 & ->). cbn [map sphere_intersect].
    inversion ND as [|? ? N1 ND']; subst. inversion ND' as [|? ? N2 _]; subst.
    apply C55_trilaterate_complete_partial; auto; try (apply H1; cbn; auto).
    + intros C. apply N1. left. auto.
    + intros (t & C). pose proof (C 0%nat) as C0. pose proof (C 1%nat) as C1. pose proof (C 2%nat) as C2. cbn [nth] in C0, C1, C2. subst x3 y3 z3.
      apply HV. unfold volume, det3, entry. cbn [Nat.eqb nth]. rewrite <- Rabs_R0. f_equal. ring.
    + apply H2; cbn; auto. intros C. apply N1. left. auto.
    + apply H2; cbn; auto. intros C. apply N1. right. left. auto.
    + apply H2; cbn; auto. intros C. apply N2. left. auto.
    + exists q. auto.
Qed.

(** ** The search *)
Section Found.
  Variables (dims : nat) (cell : list (list R)) (prec : R) (cloud nn : list (list R)) (D : nat) (vals : list R).
  Hypothesis HD : dims = 2%nat \/ dims = 3%nat.
  Hypothesis HS : square_matrix dims cell.
  Hypothesis HP : 0 < prec.
  Hypothesis HC : forall v, In v cloud <-> exists l, below dims D l /\ v = lat dims cell l.
  Hypothesis HN : forall v, In v nn -> exists l, length l = dims /\ v = lat dims cell l.
  Let bases := flat_map (fun vecs => if Rltb prec (Rabs (determinant vecs)) then permutations dims vecs else []) (combinations dims nn).
  Let shl row row' := unique_within_tol (shared_vals (remove_vals row vals prec) (remove_vals row' vals prec) prec) prec.

  Lemma nn_square : forall bs, length bs = dims -> incl bs nn -> square_matrix dims bs.
  Proof. intros bs H1 H2. split; auto. apply Forall_forall. intros v Hv. destruct (HN v (H2 v Hv)) as (l & _ & ->). apply lat_length. Qed.
  Lemma bases_complete : forall bs, length bs = dims -> incl bs nn -> prec < volume dims bs -> In bs bases.
  Proof.
    intros bs H1 H2 H3. pose proof (nn_square bs H1 H2) as SQ.
    assert (ND : NoDup bs) by (apply (volume_distinct dims); auto; lra).
    destruct (combinations_perm _ (list_eq_dec Req_EM_T) nn bs ND H2) as (p & Hp & PP). rewrite H1 in Hp.
    pose proof (permutations_in _ _ _ PP) as PI. rewrite H1 in PI. apply in_flat_map. exists p. split; auto.
    assert (SP : square_matrix dims p). { apply nn_square; [rewrite <- (Permutation_length PP); auto|]. intros v Hv. apply H2. apply (Permutation_in v (Permutation_sym PP) Hv). }
    destruct (perm_volume dims p bs HD SP PI) as (_ & _ & V). assert (Q : Rltb prec (Rabs (determinant p)) = true). { apply Rltb_true. rewrite (determinant_volume dims) by auto. rewrite <- V. auto. }
    rewrite Q. auto.
  Qed.
  Lemma nearest_true : forall a q, nearest_is_origin cloud a prec q = true <-> forall l, below dims D l -> a - prec < edist (lat dims cell l) q.
  Proof.
    intros a q. unfold nearest_is_origin. rewrite forallb_forall. split.
    - intros H l Hl. specialize (H (lat dims cell l)). rewrite norm_sub_edist in H. assert (I : In (lat dims cell l) cloud) by (apply HC; eauto). apply H in I. apply Rltb_true in I. lra.
    - intros H v Hv. apply HC in Hv as (l & Hl & ->). rewrite norm_sub_edist. apply Rltb_true. specialize (H l Hl). lra.
  Qed.
  Variable row0 : list R.
  Hypothesis H0 : forall d, In d row0 -> 0 <= d.
  Hypothesis S0 : StronglySorted Rle row0.

  (** What is found fits. *)
  Lemma search_fits : forall row a rest accept q, shl row0 row = a :: rest -> search_point dims rest bases a prec accept = Some q ->
    (accept q = true -> nearest_is_origin cloud a prec q = true) -> candidate dims cell prec D vals nn row0 row q /\ accept q = true.
  Proof.
    intros row a rest accept q HU E HA. unfold search_point in E. apply first_some_in in E as (ds & Hds & E). apply first_some_in in E as (b & Hb & E).
    destruct (sphere_intersect b ds a prec) as [r|] eqn:SI; [|discriminate]. destruct (accept r) eqn:A; inversion E; subst r. split; auto. specialize (HA A).
    destruct (combinations_in _ _ _ _ Hds) as [D1 D2].
    assert (BN : length b = dims /\ incl b nn /\ prec < volume dims b).
    { unfold bases in Hb. apply in_flat_map in Hb as (vecs & Hv & Hb). destruct (combinations_in _ _ _ _ Hv) as [V1 V2]. destruct (Rltb prec _) eqn:Q; [|destruct Hb]. apply Rltb_true in Q.
      pose proof (nn_square vecs V1 V2) as SQ. destruct (perm_volume dims vecs b HD SQ Hb) as (P1 & P2 & P3). split; [apply P1|]. split; [intros x Hx; auto|]. rewrite P3, <- determinant_volume; auto. }
    destruct BN as (B1 & B2 & B3). pose proof (nn_square b B1 B2) as SQ.
    assert (SH : forall x, In x (a :: rest) -> shared prec vals row0 row x). { intros x Hx. apply shared_in. fold (shl row0 row). rewrite HU. auto. }
    destruct (sphere_intersect_sound dims b ds a prec q HD SQ ltac:(lra)) as (Q1 & Q2 & Q3); auto. { intros d Hd. apply H0. apply (SH d). right. auto. }
    pose proof (shared_list_sorted prec vals row0 row HP S0) as SS. fold (shl row0 row) in SS. rewrite HU in SS. apply StronglySorted_inv in SS as [SS1 SS2].
    exists a, b. split; auto.
    assert (LS : forall x, shared prec vals row0 row x -> a <= x).
    { intros x Hx. destruct (Rle_lt_dec a x) as [|LT]; auto. exfalso.
      (* the first match of x is kept, or one before it *)
      assert (EX : exists y, In y (unique_within_tol (shared_vals (remove_vals row0 vals prec) (remove_vals row vals prec) prec) prec) /\ y <= x).
      { clear - Hx S0 HP. destruct (C56_unique_sorted (shared_vals (remove_vals row0 vals prec) (remove_vals row vals prec) prec) prec HP) as (ps & _ & K & E).
        { apply shared_sorted. apply (kept_sorted _ _ _ (C56_remove _ _ _)). auto. }
        set (sv := shared_vals _ _ _) in *.
        assert (I : In x sv).
        { destruct Hx as (X1 & X2 & e & X3 & X4 & X5). apply C56_shared_values.
          assert (RM : forall r y, In y r -> (forall v, In v vals -> prec <= Rabs (y - v)) -> In y (remove_vals r vals prec)).
          { intros r y Y1 Y2. destruct (C56_remove r vals prec) as (ps' & _ & K' & ->). apply (In_nth _ _ 0) in Y1 as (k & Hk & <-). apply in_map_iff. exists k. split; auto. apply K'. auto. }
          split; [apply RM; auto|]. exists e. split; [apply RM; auto|auto]. }
        assert (ST : StronglySorted Rle sv) by (apply shared_sorted; apply (kept_sorted _ _ _ (C56_remove _ _ _)); auto).
        exists (nth 0 sv 0). destruct sv as [|s sv]; [destruct I|]. split.
        - rewrite E. apply in_map_iff. exists 0%nat. split; auto. apply K. cbn [length]. split; [lia|auto].
        - cbn [nth]. inversion ST as [|? ? _ F]; subst. destruct I as [->|I]; [lra|]. rewrite Forall_forall in F. apply F. auto. }
      destruct EX as (y & Hy & Hyx). fold (shl row0 row) in Hy. rewrite HU in Hy. destruct Hy as [<-|Hy]; [lra|]. rewrite Forall_forall in SS2. specialize (SS2 y Hy). lra. }
    split; [split; [apply SH; left; auto|auto]|]. split; auto. split; auto. split; auto. split; auto. split; [|split].
    - intros v Hv. apply SH. right. apply D2. rewrite <- Q2. apply in_map. auto.
    - rewrite Q2. constructor; [|apply Forall_forall; intros y Hy; rewrite Forall_forall in SS2; apply SS2, D2; auto].
      clear - SS1 Hds. assert (FO : ForallOrdPairs Rlt rest) by (clear Hds; induction SS1; constructor; auto).
      pose proof (combinations_ordered _ Rlt dims rest _ FO Hds) as F. clear Hds. induction F; constructor; auto.
    - apply nearest_true. auto.
  Qed.
  (** A point which can be located is found unless some other one is. *)
  Lemma search_found : forall row q accept, resolved prec vals row0 row -> locatable dims cell prec D vals nn row0 row q ->
    exists a rest, shl row0 row = a :: rest /\ ((nearest_is_origin cloud a prec q = true -> accept a q = true) -> exists r, search_point dims rest bases a prec (accept a) = Some r).
  Proof.
    intros row q accept RS (d & bs & (Q1 & Q2 & Q3 & Q4 & Q5 & Q6 & Q7 & Q8 & Q9) & CR & MI).
    destruct (shared_list_head prec vals row0 row d HP S0 RS Q2) as (rest & E). exists d, rest. split; auto. intros HA.
    assert (A : accept d q = true) by (apply HA, nearest_true; auto). clear HA. unfold search_point.
    apply (first_some_found _ _ _ _ (map (edist q) bs)).
    - rewrite <- Q4. rewrite <- (map_length (edist q) bs). inversion Q8 as [|? ? Q8a Q8b]; subst.
      pose proof (shared_list_sorted prec vals row0 row HP S0) as SS. rewrite E in SS. inversion SS; subst. apply combinations_increasing; auto.
      intros x Hx. rewrite Forall_forall in Q8b. pose proof (Q8b x Hx) as LT. apply in_map_iff in Hx as (b & <- & Hb). pose proof (shared_listed _ _ _ _ _ RS (Q7 b Hb)) as I.
      rewrite E in I. destruct I as [I|I]; [lra|auto].
    - destruct (first_some_found _ _ (fun basis => match sphere_intersect basis (map (edist q) bs) d prec with None => None | Some res => if accept d res then Some res else None end) bases bs) as (y & ->); [apply bases_complete; auto| |discriminate].
      pose proof (nn_square bs Q4 Q5) as SQ. destruct (sphere_intersect _ _ _ _) as [r|] eqn:SI; [|exfalso; revert SI; apply (sphere_intersect_complete dims); auto; lra].
      assert (POS : forall x, In x (map (edist q) bs) -> 0 <= x) by (intros x Hx; apply in_map_iff in Hx as (b & <- & _); apply sqrt_pos).
      destruct (sphere_intersect_sound dims bs _ d prec r HD SQ ltac:(lra) POS SI) as (R1 & R2 & R3).
      assert (r = q). { apply MI; auto. intros b Hb. clear - R2 Hb. revert R2. generalize (edist q). intros f R2. induction bs as [|c bs IH]; [destruct Hb|]. cbn [map] in R2. inversion R2. destruct Hb as [<-|Hb]; auto. }
      subst r. rewrite A. discriminate.
  Qed.
End Found.

(** ** Inversion *)
Lemma invert_length : forall q, length (invert q) = length q.
Proof. intros. apply map_length. Qed.
Lemma invert_invert : forall q, invert (invert q) = q.
Proof. intros. unfold invert. rewrite map_map. rewrite <- (map_id q) at 2. apply map_ext. intros. lra. Qed.
Lemma edist_invert : forall u v, edist (invert u) (invert v) = edist u v.
Proof.
  intros u v. unfold edist. f_equal. revert v. induction u as [|x u IH]; intros [|y v]; cbn [invert map sq_dist]; auto. unfold invert in IH. rewrite IH. ring.
Qed.
Lemma vlen_invert : forall u, vlen (invert u) = vlen u.
Proof. intros u. unfold vlen. f_equal. induction u as [|x u IH]; cbn [invert map rdot]; auto. unfold invert in IH. rewrite IH. ring. Qed.
Lemma lat_invert : forall dims cell l, length l = length cell -> invert (lat dims cell l) = lat dims cell (map Z.opp l).
Proof.
  intros dims cell l HL. unfold invert, lat. rewrite map_map. apply map_ext. intros j. unfold lattice_coord, comb_coord. rewrite <- HL. clear HL.
  assert (G : forall ks, rsum (map (fun r => nth r (map IZR (map Z.opp l)) 0 * nth j (nth r cell []) 0) ks) = - rsum (map (fun r => nth r (map IZR l) 0 * nth j (nth r cell []) 0) ks)).
  { induction ks as [|k ks IH]; cbn [map]; unfold rsum in *; cbn [fold_right]; [lra|]. rewrite IH.
    assert (E : nth k (map IZR (map Z.opp l)) 0 = - nth k (map IZR l) 0).
    { clear. revert k. induction l as [|z l IH]; intros [|k]; cbn [map nth]; try lra; auto. rewrite opp_IZR. auto. }
    rewrite E. ring. }
  rewrite G. auto.
Qed.
Lemma below_opp : forall dims D l, below dims D l -> below dims D (map Z.opp l).
Proof.
  intros dims D l [H1 H2]. split; [rewrite map_length; auto|]. replace (zsq (map Z.opp l)) with (zsq l); auto. clear. induction l as [|z l IH]; auto. cbn [map]. unfold zsq in *. cbn [map fold_right] in *. nia.
Qed.
Lemma volume_invert : forall dims bs, dims = 2%nat \/ dims = 3%nat -> square_matrix dims bs -> volume dims (map invert bs) = volume dims bs.
Proof.
  intros dims bs [->| ->] HS.
  - destruct (square2 bs HS) as (x1 & y1 & x2 & y2 & ->). unfold volume, det2, entry. cbn [Nat.eqb map invert nth]. f_equal. ring.
  - destruct (square3 bs HS) as (x1 & y1 & z1 & x2 & y2 & z2 & x3 & y3 & z3 & ->). unfold volume, det3, entry. cbn [Nat.eqb map invert nth]. rewrite <- Rabs_Ropp. f_equal. ring.
Qed.

Section Inversion.
  Variables (dims : nat) (cell : list (list R)) (prec : R) (D : nat) (vals : list R) (nn : list (list R)).
  Hypothesis HD : dims = 2%nat \/ dims = 3%nat.
  Hypothesis HS : square_matrix dims cell.
  Hypothesis HN : forall v, In v nn -> exists l, length l = dims /\ v = lat dims cell l.
  Hypothesis HI : forall v, In v nn -> In (invert v) nn.

  Lemma fits_invert : forall row0 row q d bs, fits dims cell prec D vals nn row0 row q d bs -> fits dims cell prec D vals nn row0 row (invert q) d (map invert bs).
  Proof.
    intros row0 row q d bs (Q1 & Q2 & Q3 & Q4 & Q5 & Q6 & Q7 & Q8 & Q9).
    split; [rewrite invert_length; auto|]. split; auto. split; [rewrite vlen_invert; auto|]. split; [rewrite map_length; auto|]. split.
    { intros v Hv. apply in_map_iff in Hv as (b & <- & Hb). apply HI, Q5. auto. }
    split; [rewrite volume_invert; auto; apply (nn_square dims cell nn HN); auto|]. split.
    { intros v Hv. apply in_map_iff in Hv as (b & <- & Hb). rewrite edist_invert. auto. }
    split; [rewrite map_map; rewrite (map_ext (fun x => edist (invert q) (invert x)) (edist q)) by (intros; apply edist_invert); auto|].
    intros l Hl. specialize (Q9 _ (below_opp _ _ _ Hl)). rewrite <- lat_invert in Q9 by (rewrite (proj1 HS); apply Hl).
    rewrite <- (edist_invert (invert _) q), invert_invert in Q9. auto.
  Qed.
  Lemma candidate_invert : forall row0 row q, candidate dims cell prec D vals nn row0 row q -> candidate dims cell prec D vals nn row0 row (invert q).
  Proof. intros row0 row q (d & bs & H). exists d, (map invert bs). apply fits_invert. auto. Qed.
  Lemma locatable_invert : forall row0 row q, locatable dims cell prec D vals nn row0 row q -> locatable dims cell prec D vals nn row0 row (invert q).
  Proof.
    intros row0 row q (d & bs & F & CR & MI). exists d, (map invert bs). split; [apply fits_invert; auto|]. split.
    - intros E. destruct (CR E) as [C1 C2]. split.
      + intros v Hv. apply in_map_iff in Hv as (b & <- & Hb). rewrite edist_invert, vlen_invert. auto.
      + intros v v' Hv Hv' NE. apply in_map_iff in Hv as (b & <- & Hb). apply in_map_iff in Hv' as (b' & <- & Hb'). rewrite !edist_invert. apply C2; auto. congruence.
    - intros q' L E V. rewrite <- (invert_invert q'). f_equal. apply MI; [rewrite invert_length; auto| |rewrite vlen_invert; auto].
      intros b Hb. rewrite <- (edist_invert (invert q') b), invert_invert, (E (invert b)) by (apply in_map; auto). apply edist_invert.
  Qed.
  Lemma linked_invert : forall row row' q q', linked prec vals row row' (invert q) (invert q') <-> linked prec vals row row' q q'.
  Proof. intros. unfold linked. rewrite edist_invert. tauto. Qed.
  Lemma determined_invert : forall row0 row1 rows q1 qs, determined dims cell prec D vals nn row0 row1 rows q1 qs ->
    determined dims cell prec D vals nn row0 row1 rows (invert q1) (map invert qs).
  Proof.
    intros row0 row1 rows q1 qs [A B C F]. split; auto; [apply locatable_invert; auto|rewrite invert_invert; intros r Hr; apply C in Hr; tauto|].
    induction F as [|row q rows qs (F1 & F2 & F3 & F4 & F5) F IH]; cbn [map]; constructor; auto. split; auto. split; auto. split; [apply locatable_invert; auto|]. split; [apply linked_invert; auto|].
    intros r Hr Lr. rewrite <- (invert_invert r) in Lr |- *. f_equal. apply F5; [apply candidate_invert; auto|apply (linked_invert row1 row q1 (invert r)); auto].
  Qed.
End Inversion.
