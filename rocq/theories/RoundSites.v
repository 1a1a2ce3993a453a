(** The expansion of an asymmetric unit with rounded operations. *)
From Coq Require Import List ZArith Arith Bool Lia Reals Lra Psatz.
From Verif Require Import Num Base Outcome NNModel VecR SpecGeom NNProofs NNSpecProofs NNComplete CalcModel CalcProofs CompareModel
  SitesModel SpecSites SitesProofs SitesExpand RoundModel SpecRound RoundSum RoundProofs RoundCalc RoundSitesModel SpecRoundSites.
Import ListNotations.
Open Scope R_scope.
Open Scope list_scope.
Notation length := List.length.

(** ** The remainder *)
Lemma trunc_rest : forall x, Rabs (x - IZR (trunc x)) < 1 /\ (0 <= x -> 0 <= x - IZR (trunc x)).
Proof.
  intros x. unfold trunc. destruct (Rle_dec 0 x) as [H|H].
  - destruct (base_Int_part x). split; [apply Rabs_def1; lra|lra].
  - destruct (base_Int_part (- x)). rewrite opp_IZR. split; [apply Rabs_def1; lra|lra].
Qed.

Lemma np_mod1_near : forall u eta ar x, float_like u eta ar -> u <= 1 ->
  (exists n : Z, Rabs (np_mod1 ar x - (x - IZR n)) <= u) /\ 0 <= np_mod1 ar x <= 1 + u.
Proof.
  intros u eta ar x FL Hu. pose proof (fl_u _ _ _ FL) as u0. destruct (trunc_rest x) as [H _]. apply Rabs_def2 in H. unfold np_mod1. destruct (Rlt_dec _ 0) as [G|G].
  - pose proof (fl_add _ _ _ FL (x - IZR (trunc x)) 1) as A. rewrite (Rabs_right (x - IZR (trunc x) + 1)) in A by lra. apply Rabs_le_both in A.
    set (r := x - IZR (trunc x)) in *. assert (u * (r + 1) <= u) by nra. assert (u * (r + 1) <= r + 1) by nra.
    split; [|lra]. exists (trunc x - 1)%Z. rewrite minus_IZR. apply Rabs_le. unfold r in *. lra.
  - split; [|lra]. exists (trunc x). rewrite Rminus_eq_0, Rabs_R0. lra.
Qed.

(** ** Scalar products *)
Definition rabs_dot (xs ys : list R) : R := rdot (map Rabs xs) (map Rabs ys).

Lemma rdot_seq : forall xs ys, length xs = length ys -> rdot xs ys = rsum (map (fun i => nth i xs 0 * nth i ys 0) (seq 0 (length xs))).
Proof.
  induction xs as [|x xs IH]; intros [|y ys] L; try discriminate; [reflexivity|]. cbn [rdot length seq map]. unfold rsum. cbn [fold_right nth]. f_equal.
  rewrite IH by (cbn in L; lia). rewrite <- seq_shift, map_map. reflexivity.
Qed.
Lemma nth_Rabs : forall l i, nth i (map Rabs l) 0 = Rabs (nth i l 0).
Proof. intros l i. rewrite <- Rabs_R0 at 1. apply map_nth. Qed.
Lemma rabs_dot_seq : forall xs ys, length xs = length ys -> rabs_dot xs ys = rsum (map (fun i => Rabs (nth i xs 0 * nth i ys 0)) (seq 0 (length xs))).
Proof.
  intros xs ys L. unfold rabs_dot. rewrite rdot_seq, map_length by (rewrite !map_length; auto). apply rsum_ext. intros i _. rewrite !nth_Rabs, Rabs_mult. reflexivity.
Qed.
Lemma rabs_dot_pos : forall xs ys, 0 <= rabs_dot xs ys.
Proof. unfold rabs_dot. induction xs as [|x xs IH]; intros [|y ys]; cbn [map rdot]; try lra. specialize (IH ys). pose proof (Rmult_le_pos _ _ (Rabs_pos x) (Rabs_pos y)). lra. Qed.
Lemma rdot_abs : forall xs ys, Rabs (rdot xs ys) <= rabs_dot xs ys.
Proof.
  unfold rabs_dot. induction xs as [|x xs IH]; intros [|y ys]; cbn [map rdot]; try (rewrite Rabs_R0; lra).
  eapply Rle_trans; [apply Rabs_triang|]. rewrite Rabs_mult. specialize (IH ys). lra.
Qed.

Section Dot.
  Variables (ar : arith) (u eta : R).
  Hypothesis FL : float_like u eta ar.
  Hypothesis Hu : u <= 1 / 10000.
  Let u0 : 0 <= u := fl_u _ _ _ FL.
  Let e0 : 0 <= eta := fl_eta _ _ _ FL.

  Lemma dot_error : forall xs ys, length xs = length ys -> (length xs <= 4)%nat ->
    Rabs (r_dot ar xs ys - rdot xs ys) <= 51 / 10 * u * rabs_dot xs ys + 41 / 10 * eta.
  Proof.
    intros xs ys L H4. rewrite rdot_seq, rabs_dot_seq by auto. set (n := length xs) in *. set (g := fun i => nth i xs 0 * nth i ys 0).
    destruct (fl_dot _ _ _ FL xs ys L) as (ps & Lp & Hp & HS). fold n in Lp, Hp.
    assert (Ep : ps = map (fun i => nth i ps 0) (seq 0 n)) by (rewrite <- Lp; symmetry; apply map_nth_seq). rewrite Ep in HS. assert (N4 : INR 4 = 4) by (cbn; lra).
    pose proof (sum_terms nat (fun i => nth i ps 0) g (fun i => u * Rabs (g i) + eta) (1001 / 1000) (4 / 10000) u 4 (seq 0 n) (r_dot ar xs ys)
        u0 ltac:(lra) ltac:(lra) ltac:(rewrite seq_length; lia) ltac:(rewrite N4; lra)) as X.
    assert (P : forall i, In i (seq 0 n) -> Rabs (nth i ps 0 - g i) <= u * Rabs (g i) + eta) by (intros i Hi; apply in_seq in Hi; apply Hp; lia).
    specialize (X P HS). rewrite seq_length in X. change (fun i => Rabs (nth i xs 0 * nth i ys 0)) with (fun i => Rabs (g i)).
    assert (EH : rsum (map (fun i => u * Rabs (g i) + eta) (seq 0 n)) = u * rsum (map (fun i => Rabs (g i)) (seq 0 n)) + INR n * eta).
    { rewrite rsum_plus, rsum_scale. f_equal. rewrite rsum_const, seq_length. reflexivity. }
    rewrite EH in X. eapply Rle_trans; [exact X|]. assert (D : 0 <= rsum (map (fun i => Rabs (g i)) (seq 0 n))) by (apply rsum_nonneg, Forall_forall; intros y Hy; apply in_map_iff in Hy as (i & <- & _); apply Rabs_pos).
    set (A := rsum (map (fun i => Rabs (g i)) (seq 0 n))) in *. clearbody A. assert (H4' : INR n <= 4) by (rewrite <- N4; apply le_INR; lia). pose proof (pos_INR n) as Q. clear - u0 e0 Hu D H4' Q. set (m := INR n) in *. clearbody m.
    assert (A1 : m * eta <= 4 * eta) by (apply Rmult_le_compat_r; auto). assert (A0 : 0 <= m * eta) by (apply Rmult_le_pos; auto). assert (A2 : 0 <= u * A) by nra. assert (A4 : 0 <= m * u) by nra. assert (A7 : m * u <= 4 * u) by nra.
    assert (B1 : m * u * (A + (u * A + m * eta)) <= 4 * u * (A + (u * A + 4 * eta))) by (apply Rmult_le_compat; lra).
    assert (B2 : u * (u * A) <= 1 / 10000 * (u * A)) by (apply Rmult_le_compat_r; lra). assert (B3 : u * eta <= 1 / 10000 * eta) by (apply Rmult_le_compat_r; lra). nra.
  Qed.

  (** ** Images of sites *)
  Variable s : R.
  Hypothesis Hs : 0 <= s.
  Hypothesis He : eta <= u / 10.

  Lemma apply_op_length : forall (g : operation) p dims, operation_ok dims g -> length (@apply_op R (num_of ar) g p) = dims.
  Proof. intros g p dims (H1 & _ & H3). unfold apply_op, vadd. rewrite map2_length, map_length. unfold vec. rewrite H1, H3. apply Nat.min_id. Qed.

  Lemma image_error : forall (g : operation) p dims j, operation_ok dims g -> length p = dims -> (dims <= 4)%nat -> (j < dims)%nat ->
    rdot (map Rabs (nth j (fst g) [])) (map Rabs p) + Rabs (nth j (snd g) 0) <= s ->
    Rabs (nth j (@apply_op R (num_of ar) g p) 0 - nth j (affine g p) 0) <= 7 * u * (s + 1).
  Proof.
    intros g p dims j (H1 & H2 & H3) Hp H4 Hj HS. unfold apply_op. rewrite nth_vadd_r by (unfold vec in *; rewrite map_length; congruence || lia).
    rewrite (nth_map' _ _ _ _ _ []) by (unfold vec; lia). unfold affine. rewrite (nth_map' _ _ _ _ _ 0%nat) by (rewrite seq_length; lia). rewrite seq_nth by lia. cbn [plus].
    assert (Hr : length (nth j (fst g) []) = dims) by (rewrite Forall_forall in H2; apply H2, nth_In; lia).
    set (row := nth j (fst g) []) in *. set (t := nth j (snd g) 0) in *. match goal with |- Rabs (r_add ar ?y ?z - _) <= _ => change y with (r_dot ar row p); change z with t end.
    pose proof (dot_error row p ltac:(congruence) ltac:(lia)) as D. change (rdot (map Rabs row) (map Rabs p)) with (rabs_dot row p) in HS.
    pose proof (rabs_dot_pos row p) as A0. pose proof (rdot_abs row p) as A1. set (A := rabs_dot row p) in *. set (d := r_dot ar row p) in *. set (x := rdot row p) in *.
    pose proof (fl_add _ _ _ FL d t) as F. pose proof (Rabs_pos t) as T0. clearbody A d x t. 
    assert (Q : Rabs (d + t) <= A + Rabs t + (51 / 10 * u * A + 41 / 10 * eta)).
    { replace (d + t) with (x + (d - x) + t) by ring. eapply Rle_trans; [apply Rabs_triang|]. pose proof (Rabs_triang x (d - x)). lra. }
    replace (r_add ar d t - (x + t)) with ((r_add ar d t - (d + t)) + (d - x)) by ring. eapply Rle_trans; [apply Rabs_triang|].
    assert (U : u * Rabs (d + t) <= u * (s + (51 / 10 * u * A + 41 / 10 * eta))) by (apply Rmult_le_compat_l; lra).
    pose proof u0 as U0. pose proof e0 as E0. clear u0 e0.    assert (0 <= u * A) by nra. assert (u * A <= u * s) by (apply Rmult_le_compat_l; [exact U0|lra]). assert (u * (u * A) <= 1 / 10000 * (u * A)) by (apply Rmult_le_compat_r; lra). assert (u * eta <= 1 / 10000 * eta) by (apply Rmult_le_compat_r; lra). lra.
  Qed.

  (** An exact image and a rounded one. *)
  Definition near_image (dims : nat) (asym : list (list R)) (ops : list operation) (p p' : list R) : Prop :=
    (exists g q, In g ops /\ In q asym /\ same_mod1 p (affine g q) /\ length q = dims) /\ length p = dims /\ in_unit p /\ length p' = dims /\
    Forall (fun a => 0 <= a <= 1 + u) p' /\ close_mod1 (8 * u * (s + 1)) p' p.

  Lemma image_near : forall dims asym ops g q, Forall (operation_ok dims) ops -> Forall (fun p => length p = dims) asym -> (dims <= 4)%nat ->
    images_within s asym ops -> In g ops -> In q asym ->
    near_image dims asym ops (map mod1 (apply_op g q)) (map (np_mod1 ar) (@apply_op R (num_of ar) g q)).
  Proof.
    intros dims asym ops g q Hops Hasym H4 HS Hg Hq. rewrite Forall_forall in Hops, Hasym. specialize (Hops g Hg). pose proof (Hasym q Hq) as Lq.
    assert (EA : apply_op g q = affine g q).
    { destruct Hops as (H1 & H2 & H3). unfold apply_op, affine. apply (nth_ext _ _ 0 0); [unfold vadd; rewrite map2_length, !map_length, seq_length; unfold vec; lia|].
      intros j Hj. unfold vadd in Hj. rewrite map2_length, map_length in Hj. unfold vec in Hj. rewrite nth_vadd_R by (unfold vec; rewrite map_length; lia). rewrite (nth_map' _ _ _ _ _ []) by (unfold vec; lia).
      rewrite (nth_map' _ _ _ _ _ 0%nat) by (rewrite seq_length; lia). rewrite seq_nth by lia. rewrite np_dot_rdot. reflexivity. }
    rewrite EA. assert (LA : length (affine g q) = dims) by (unfold affine; rewrite map_length, seq_length; auto).
    assert (LB : length (@apply_op R (num_of ar) g q) = dims) by (apply apply_op_length; auto).
    split; [|split; [|split; [|split; [|split]]]].
    - exists g, q. split; [auto|]. split; [auto|]. split; [|auto]. split; [rewrite map_length; auto|]. intros j Hj. rewrite map_length in Hj. rewrite (nth_map' _ _ _ _ _ 0) by lia. apply mod1_diff.
    - rewrite map_length. auto.
    - apply Forall_forall. intros a Ha. apply in_map_iff in Ha as (x & <- & _). apply mod1_range.
    - rewrite map_length. auto.
    - apply Forall_forall. intros a Ha. apply in_map_iff in Ha as (x & <- & _). apply (np_mod1_near u eta ar x FL). lra.
    - intros j Hj. rewrite map_length in Hj. rewrite !(nth_map' _ _ _ _ _ 0) by lia.
      destruct (np_mod1_near u eta ar (nth j (@apply_op R (num_of ar) g q) 0) FL ltac:(lra)) as [(n & Hn) _]. destruct (mod1_diff (nth j (affine g q) 0)) as (m & Hm).
      pose proof (image_error g q dims j Hops Lq H4 ltac:(lia) (HS q g j Hq Hg ltac:(lia))) as E. exists (- n - m)%Z. rewrite minus_IZR, opp_IZR.
      set (y := nth j (@apply_op R (num_of ar) g q) 0) in *. set (x := nth j (affine g q) 0) in *. apply Rabs_le_both in Hn. apply Rabs_le_both in E. apply Rabs_le. assert (0 <= u * s) by nra. lra.
  Qed.

  (** ** Comparisons of sites *)
  Variable tol : R.
  Hypothesis Ht : tol < 1 / 3.
  Hypothesis Hsu : 22 * u * (s + 1) <= 1 / 10.
  Let N := num_of ar.
  Let k := 8 * u * (s + 1).

  Lemma nabs_near : forall x, Rabs (@nabs R N x - Rabs x) <= u * Rabs x.
  Proof.
    intros x. unfold nabs. cbn [nleb n0 nsub N num_of]. destruct (Rleb 0 x) eqn:E.
    - apply Rleb_true in E. rewrite (Rabs_right x) by lra. rewrite Rminus_eq_0, Rabs_R0. nra.
    - apply Rleb_false in E. pose proof (fl_sub _ _ _ FL 0 x) as F. rewrite (Rabs_left x) by lra. replace (0 - x) with (- x) in F by ring. rewrite (Rabs_right (- x)) in F by lra. exact F.
  Qed.

  Lemma diff_near : forall x y, Rabs (x - y) <= 2 -> Rabs (@nabs R N (r_sub ar x y) - Rabs (x - y)) <= 201 / 100 * u * Rabs (x - y).
  Proof.
    intros x y H. pose proof (fl_sub _ _ _ FL x y) as F. pose proof (nabs_near (r_sub ar x y)) as G. set (d := r_sub ar x y) in *. pose proof (Rabs_pos (x - y)) as P.
    pose proof (Rabs_triang_inv2 d (x - y)) as T. pose proof (Rabs_upto _ _ _ F) as U. 
    set (e := @nabs R N d) in *. replace (e - Rabs (x - y)) with ((e - Rabs d) + (Rabs d - Rabs (x - y))) by ring. eapply Rle_trans; [apply Rabs_triang|].
    assert (u * Rabs d <= u * (Rabs (x - y) + u * Rabs (x - y))) by (apply Rmult_le_compat_l; auto). assert (0 <= u * Rabs (x - y)) by nra. assert (u * (u * Rabs (x - y)) <= 1 / 10000 * (u * Rabs (x - y))) by (apply Rmult_le_compat_r; lra). lra.
  Qed.

  (** The two differences which are compared with the tolerance. *)
  Lemma two_diffs : forall a b, 0 <= a <= 1 + u -> 0 <= b <= 1 + u ->
    let d1 := @nabs R N (r_sub ar a b) in let d2 := @nabs R N (r_sub ar d1 1) in
    Rabs (d1 - Rabs (a - b)) <= 3 * u /\ Rabs (d2 - Rabs (Rabs (a - b) - 1)) <= 6 * u.
  Proof.
    intros a b Ha Hb d1 d2. assert (D : Rabs (a - b) <= 1 + u) by (apply Rabs_le; lra). pose proof (diff_near a b ltac:(lra)) as E1. fold d1 in E1. pose proof (Rabs_pos (a - b)) as P.
    assert (E1' : Rabs (d1 - Rabs (a - b)) <= 3 * u) by (assert (u * Rabs (a - b) <= u * (1 + u)) by (apply Rmult_le_compat_l; lra); assert (u * u <= 1 / 10000 * u) by (apply Rmult_le_compat_r; lra); lra).
    split; [exact E1'|]. assert (D1 : Rabs (d1 - 1) <= 1 + 3 * u) by (apply Rabs_le_both in E1'; apply Rabs_le; lra).
    pose proof (diff_near d1 1 ltac:(lra)) as E2. fold d2 in E2. pose proof (Rabs_triang_inv2 (d1 - 1) (Rabs (a - b) - 1)) as T. replace (d1 - 1 - (Rabs (a - b) - 1)) with (d1 - Rabs (a - b)) in T by ring.
    replace (d2 - Rabs (Rabs (a - b) - 1)) with ((d2 - Rabs (d1 - 1)) + (Rabs (d1 - 1) - Rabs (Rabs (a - b) - 1))) by ring. eapply Rle_trans; [apply Rabs_triang|].
    assert (u * Rabs (d1 - 1) <= u * (1 + 3 * u)) by (apply Rmult_le_compat_l; lra). assert (u * u <= 1 / 10000 * u) by (apply Rmult_le_compat_r; lra). lra.
  Qed.

  Lemma coord_same : forall a b, 0 <= a <= 1 + u -> 0 <= b <= 1 + u -> (exists n : Z, Rabs (a - b - IZR n) <= tol - 6 * u) -> @coord_neq R N tol a b = false.
  Proof.
    intros a b Ha Hb (n & Hn). destruct (two_diffs a b Ha Hb) as [E1 E2]. unfold coord_neq. cbv zeta. cbn [nltb nsub n1 N num_of]. fold N.
    set (d1 := @nabs R N (r_sub ar a b)) in *. set (d2 := @nabs R N (r_sub ar d1 1)) in *. apply andb_false_iff. rewrite !Rltb_false.
    apply Rabs_le_both in E1. apply Rabs_le_both in E2. pose proof (Rabs_le_both _ _ Hn) as H.
    assert (-2 < n < 2)%Z as Z2 by (split; apply lt_IZR; lra). assert (n = 0 \/ n = 1 \/ n = -1)%Z as [E|[E|E]] by lia; subst n.
    - left. rewrite Rminus_0_r in Hn. lra.
    - right. rewrite (Rabs_right (a - b)) in E2 by lra. lra.
    - right. rewrite (Rabs_left (a - b)) in E2 by lra. replace (- (a - b) - 1) with (- (a - b - -1)) in E2 by ring. rewrite Rabs_Ropp in E2. lra.
  Qed.

  Lemma coord_differ : forall a b, 0 <= a <= 1 + u -> 0 <= b <= 1 + u -> (forall n : Z, tol + 6 * u < Rabs (a - b - IZR n)) -> @coord_neq R N tol a b = true.
  Proof.
    intros a b Ha Hb H. destruct (two_diffs a b Ha Hb) as [E1 E2]. unfold coord_neq. cbv zeta. cbn [nltb nsub n1 N num_of]. fold N.
    set (d1 := @nabs R N (r_sub ar a b)) in *. set (d2 := @nabs R N (r_sub ar d1 1)) in *. apply andb_true_iff. rewrite !Rltb_true.
    apply Rabs_le_both in E1. apply Rabs_le_both in E2. split.
    - specialize (H 0%Z). rewrite Rminus_0_r in H. lra.
    - destruct (Rle_dec 0 (a - b)) as [G|G].
      + specialize (H 1%Z). rewrite (Rabs_right (a - b)) in E2 by lra. lra.
      + specialize (H (-1)%Z). rewrite (Rabs_left (a - b)) in E2 by lra. replace (- (a - b) - 1) with (- (a - b - -1)) in E2 by ring. rewrite Rabs_Ropp in E2. lra.
  Qed.

  Lemma site_neq_nth : forall (M : Num R) p q, length p = length q ->
    @site_neq R M tol p q = true <-> exists j, (j < length p)%nat /\ @coord_neq R M tol (nth j p 0) (nth j q 0) = true.
  Proof.
    intros M. unfold site_neq. induction p as [|a p IH]; intros [|b q] L; try discriminate; cbn [map2 existsb length].
    - split; [discriminate|]. intros (j & Hj & _). lia.
    - rewrite orb_true_iff, IH by (cbn in L; lia). split.
      + intros [E|(j & Hj & E)]; [exists 0%nat; split; [lia|exact E]|]. exists (S j). split; [lia|exact E].
      + intros ([|j] & Hj & E); [left; exact E|]. right. exists j. split; [lia|exact E].
  Qed.

  Section Decided.
    Variables (dims : nat) (asym : list (list R)) (ops : list operation).
    Hypothesis HD : decided_sites tol (22 * u * (s + 1)) asym ops.
    Let Rel := near_image dims asym ops.

    Lemma site_neq_same : forall p p' q q', Rel p p' -> Rel q q' -> @site_neq R N tol p' q' = site_neq tol p q.
    Proof.
      intros p p' q q' ((g & x & Hg & Hx & Sp & Lx) & Lp & Up & Lp' & Bp & Cp) ((h & y & Hh & Hy & Sq & Ly) & Lq & Uq & Lq' & Bq & Cq).
      destruct HD as [HM HD']. assert (K0 : 0 <= u * s) by nra. rewrite Forall_forall in Bp, Bq.
      assert (NB : forall j, (j < dims)%nat -> (0 <= nth j p' 0 <= 1 + u) /\ (0 <= nth j q' 0 <= 1 + u)) by (intros j Hj; split; [apply Bp|apply Bq]; apply nth_In; lia).
      destruct (HD' x y g h Hx Hy Hg Hh) as [C|(j & Hj & C)].
      - assert (C' : close_mod1 (tol - 22 * u * (s + 1)) p q).
        { apply (close_same _ _ (affine h y)); [apply same_sym; auto|rewrite Lp; unfold affine; rewrite map_length, seq_length; auto|]. apply (close_same_l _ (affine g x)); [apply same_sym; auto|auto]. }
        assert (E0 : site_neq tol p q = false).
        { apply site_neq_ok; auto; [lra|congruence|]. intros j Hj. destruct (C' j Hj) as (n & Hn). exists n. lra. }
        rewrite E0. apply not_true_iff_false. rewrite site_neq_nth by congruence. intros (j & Hj & E). rewrite Lp' in Hj. rewrite coord_same in E; [discriminate| | |]; try apply NB; auto.
        destruct (C' j ltac:(lia)) as (n & Hn). destruct (Cp j ltac:(lia)) as (n1 & Hn1). destruct (Cq j ltac:(lia)) as (n2 & Hn2). exists (n + n1 - n2)%Z. rewrite minus_IZR, plus_IZR.
        apply Rabs_le_both in Hn. apply Rabs_le_both in Hn1. apply Rabs_le_both in Hn2. apply Rabs_le. lra.
      - assert (E1 : site_neq tol p q = true).
        { apply site_neq_true; auto; [lra|congruence|]. intros C'. 
          assert (C'' : close_mod1 tol (affine g x) (affine h y)). { apply (close_same _ _ q); [auto|unfold affine; rewrite map_length, seq_length; congruence|]. apply (close_same_l _ p); auto. }
          destruct (C'' j) as (n & Hn); [unfold affine; rewrite map_length, seq_length; auto|]. specialize (C n). lra. }
        rewrite E1. apply site_neq_nth; [congruence|]. exists j. split; [lia|]. apply coord_differ; try apply NB; try lia. intros n.
        destruct (Cp j ltac:(lia)) as (n1 & Hn1). destruct (Cq j ltac:(lia)) as (n2 & Hn2). destruct Sp as [_ Sp]. destruct Sq as [_ Sq]. destruct (Sp j ltac:(lia)) as (m1 & Hm1). destruct (Sq j ltac:(lia)) as (m2 & Hm2).
        specialize (C (n - n1 + n2 - m1 + m2)%Z). rewrite plus_IZR, minus_IZR, plus_IZR, minus_IZR in C.
        set (ax := nth j (affine g x) 0) in *. set (ay := nth j (affine h y) 0) in *. apply Rabs_le_both in Hn1. apply Rabs_le_both in Hn2.
        replace (ax - ay - (IZR n - IZR n1 + IZR n2 - IZR m1 + IZR m2)) with ((nth j p' 0 - nth j q' 0 - IZR n) - ((nth j p' 0 - nth j p 0 - IZR n1) - (nth j q' 0 - nth j q 0 - IZR n2))) in C by lra.
        pose proof (Rabs_triang (nth j p' 0 - nth j q' 0 - IZR n) (- ((nth j p' 0 - nth j p 0 - IZR n1) - (nth j q' 0 - nth j q 0 - IZR n2)))) as T. rewrite Rabs_Ropp in T.
        assert (T2 : Rabs ((nth j p' 0 - nth j p 0 - IZR n1) - (nth j q' 0 - nth j q 0 - IZR n2)) <= 16 * u * (s + 1)) by (apply Rabs_le; lra). unfold Rminus at 1 in C. lra.
    Qed.
  End Decided.
End Dot.
