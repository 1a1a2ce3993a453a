(** The error of EMD with rounded operations. *)
From Coq Require Import List ZArith Arith Bool Reals Lia Lra Psatz Permutation.
From Verif Require Import Num Outcome Base NNModel CalcModel EmdModel VecR Sums SpecEmd SpecEmd64 EmdInit EmdMain EmdReal EmdRun Transport EmdThm EmdSym EmdTop
  Emd64Model Emd64Proofs Emd64Run Emd64Real EmdNear RoundModel SpecRound RoundSum RoundProofs RoundCalc RoundCollapse RoundEmdModel CalcProofs CalcProofs2.
Import ListNotations.
Open Scope R_scope.

Lemma suml_Sum : forall l, suml l = Sum (length l) (fun i => nth i l 0).
Proof.
  induction l as [|a l IH] using rev_ind; [reflexivity|]. rewrite suml_app, app_length, Nat.add_comm. cbn [length Nat.add Sum].
  rewrite app_nth2, Nat.sub_diag by lia. cbn [nth suml fold_right]. rewrite IH, Rplus_0_r. f_equal. apply Sum_ext. intros i Hi. now rewrite app_nth1.
Qed.
Lemma sumabs_Sum : forall l, sumabs l = Sum (length l) (fun i => Rabs (nth i l 0)).
Proof.
  intros l. unfold sumabs. rewrite suml_Sum, map_length. apply Sum_ext. intros i Hi.
  transitivity (nth i (map Rabs l) (Rabs 0)); [f_equal; symmetry; apply Rabs_R0|apply map_nth].
Qed.

(** Scalar products. *)
Lemma dot_error : forall u eta dotf xs ys e, 0 <= u -> 0 <= eta -> any_order_dot u eta dotf -> length xs = e -> length ys = e ->
  INR e * u <= 1 / 2 -> INR e * eta <= u ->
  Rabs (dotf xs ys - Sum e (fun i => nth i xs 0 * nth i ys 0)) <= (3 * INR e + 3) * u * Sum e (fun i => Rabs (nth i xs 0 * nth i ys 0)) + 2 * u.
Proof.
  intros u eta dotf xs ys e Hu He H L1 L2 B1 B2. destruct (H xs ys ltac:(lia)) as (ps & Lp & Hp & Hs). rewrite L1 in *.
  apply sum_within_error in Hs; auto. cbn [length] in Hs. replace (S (length ps) - 1)%nat with e in Hs by lia.
  assert (Z1 : suml (0 :: ps) = suml ps) by (unfold suml; cbn; lra). assert (Z2 : sumabs (0 :: ps) = sumabs ps) by (unfold sumabs, suml; cbn; rewrite Rabs_R0; lra). rewrite Z1, Z2, suml_Sum, sumabs_Sum, Lp in Hs.
  set (T := Sum e (fun i => Rabs (nth i xs 0 * nth i ys 0))). set (P := Sum e (fun i => Rabs (nth i ps 0))) in *.
  assert (T0 : 0 <= T) by (apply Sum_nonneg; intros; apply Rabs_pos).
  assert (P0 : 0 <= P) by (apply Sum_nonneg; intros; apply Rabs_pos).
  assert (EP : Rabs (Sum e (fun i => nth i ps 0) - Sum e (fun i => nth i xs 0 * nth i ys 0)) <= u * T + INR e * eta).
  { rewrite <- Sum_minus. eapply Rle_trans; [apply Sum_abs_le|]. unfold T. rewrite <- Sum_scal, <- (Sum_const e eta), <- Sum_plus. apply Sum_le. intros i Hi. apply Hp. lia. }
  assert (PT : P <= (1 + u) * T + INR e * eta).
  { unfold P, T. rewrite <- Sum_scal, <- (Sum_const e eta), <- Sum_plus. apply Sum_le. intros i Hi. destruct (Hp i ltac:(lia)) as [Hq _]. apply Rabs_upto in Hq. lra. }
  assert (G : (1 + u) ^ e - 1 <= 2 * (INR e * u)) by (pose proof (pow_small u e Hu B1); lra).
  replace (dotf xs ys - Sum e (fun i => nth i xs 0 * nth i ys 0)) with ((dotf xs ys - Sum e (fun i => nth i ps 0)) + (Sum e (fun i => nth i ps 0) - Sum e (fun i => nth i xs 0 * nth i ys 0))) by ring.
  eapply Rle_trans; [apply Rabs_triang|]. pose proof (pos_INR e).
  assert (Rabs (dotf xs ys - Sum e (fun i => nth i ps 0)) <= 2 * (INR e * u) * ((1 + u) * T + INR e * eta)).
  { eapply Rle_trans; [exact Hs|]. apply Rmult_le_compat; auto. assert (1 <= (1 + u) ^ e) by (apply pow_R1_Rle; lra). lra. }
  clearbody T P.
  set (E := INR e) in *. assert (E * eta <= u) by lra. assert (0 <= E * eta) by nra.
  assert (2 * (E * u) * (E * eta) <= u) by nra. 
  assert (2 * (E * u) * u <= u) by nra. assert (2 * (E * u) * u * T <= u * T) by nra.
  assert (0 <= E * u * T) by (apply Rmult_le_pos; nra). nra.
Qed.

(** ** Chebyshev distances *)
Section Cheb.
  Variables (ar : arith) (u eta : R).
  Hypothesis FL : float_like u eta ar.
  Hypothesis Hu : u <= 1 / 10000.
  Notation N := (num_of ar).

  Lemma nabs_near : forall t, Rabs (@nabs R N t - Rabs t) <= u * Rabs t.
  Proof.
    intros t. pose proof (fl_u _ _ _ FL) as u0. unfold nabs. change (@nleb R N n0 t) with (Rleb 0 t). destruct (Rleb 0 t) eqn:L.
    - apply Rleb_true in L. rewrite (Rabs_right t), Rminus_eq_0, Rabs_R0 by lra. apply Rmult_le_pos; lra.
    - apply Rleb_false in L. change (@nsub R N n0 t) with (r_sub ar 0 t). pose proof (fl_sub _ _ _ FL 0 t) as Z. rewrite Rminus_0_l in Z. rewrite Rabs_Ropp in Z. rewrite (Rabs_left t) in * by lra. exact Z.
  Qed.

  Lemma entry_near : forall d d' e e' del C, 0 <= del -> Rabs (e - d) <= del -> Rabs (e' - d') <= del -> Rabs (d - d') <= C ->
    Rabs (@nabs R N (@nsub R N e e') - Rabs (d - d')) <= 2 * del + 3 * u * (C + 2 * del).
  Proof.
    intros d d' e e' del C Hdel He He' HC. pose proof (fl_u _ _ _ FL) as u0.
    assert (A3 : Rabs ((e - e') - (d - d')) <= 2 * del).
    { replace ((e - e') - (d - d')) with ((e - d) + - (e' - d')) by ring. eapply Rle_trans; [apply Rabs_triang|]. rewrite Rabs_Ropp. lra. }
    assert (A4 : Rabs (e - e') <= C + 2 * del) by (pose proof (Rabs_upto _ _ _ A3); lra).
    pose proof (fl_sub _ _ _ FL e e') as S1. change (@nsub R N e e') with (r_sub ar e e'). set (t := r_sub ar e e') in *. clearbody t.
    assert (A5 : u * Rabs (e - e') <= u * (C + 2 * del)) by (apply Rmult_le_compat_l; auto).
    assert (T : Rabs (t - (d - d')) <= 2 * del + u * (C + 2 * del)).
    { replace (t - (d - d')) with ((t - (e - e')) + ((e - e') - (d - d'))) by ring. eapply Rle_trans; [apply Rabs_triang|]. lra. }
    pose proof (nabs_near t) as X.
    assert (Y : Rabs (Rabs t - Rabs (d - d')) <= 2 * del + u * (C + 2 * del)) by (eapply Rle_trans; [apply Rabs_triang_inv2|exact T]).
    assert (Z : Rabs t <= 2 * (C + 2 * del)). { pose proof (Rabs_upto _ _ _ T) as Z. pose proof (Rabs_pos (d - d')). nra. }
    assert (u * Rabs t <= u * (2 * (C + 2 * del))) by (apply Rmult_le_compat_l; auto).
    replace (@nabs R N t - Rabs (d - d')) with ((@nabs R N t - Rabs t) + (Rabs t - Rabs (d - d'))) by ring. eapply Rle_trans; [apply Rabs_triang|]. lra.
  Qed.

  Lemma fold_max_r0 : forall l a, a <= fold_left (fun s x : R => @nmax R N s x) l a /\ forall x, In x l -> x <= fold_left (fun s x : R => @nmax R N s x) l a.
  Proof.
    intros l a. destruct (proj1 (fold_max_r ar l a _) (Rle_refl _)) as [A B]. split; [exact A|]. rewrite Forall_forall in B. exact B.
  Qed.

  Lemma cheb_near : forall k us vs us' vs' d del, 0 <= del -> length us = k -> length vs = k -> is_chebyshev k us vs d ->
    Forall2 (fun a b => Rabs (b - a) <= del) us us' -> Forall2 (fun a b => Rabs (b - a) <= del) vs vs' ->
    0 <= @cheb R N us' vs' /\ Rabs (@cheb R N us' vs' - d) <= 2 * del + 3 * u * (d + 2 * del).
  Proof.
    intros k us vs us' vs' d del Hdel Lu Lv [D1 D2] Fu Fv. pose proof (F2_len _ _ _ _ _ Fu) as Lu'. pose proof (F2_len _ _ _ _ _ Fv) as Lv'. pose proof (fl_u _ _ _ FL) as u0.
    unfold vec in *. assert (Dp : 0 <= d) by (destruct D2 as [->|(t & _ & ->)]; [lra|apply Rabs_pos]).
    set (l := map2 (fun a b => @nabs R N (@nsub R N a b)) us' vs').
    assert (Ll : length l = k) by (unfold l; rewrite map2_length_eq; lia).
    assert (En : forall t, (t < k)%nat -> Rabs (nth t l 0 - Rabs (nth t us 0 - nth t vs 0)) <= 2 * del + 3 * u * (d + 2 * del)).
    { intros t Ht. unfold l. rewrite (map2_nth _ _ _ _ _ _ _ 0 0) by lia. apply entry_near; auto; [apply (F2_nth _ _ _ _ _ 0 0 Fu); lia|apply (F2_nth _ _ _ _ _ 0 0 Fv); lia]. }
    destruct (fold_max_r0 l 0) as [M0 M1]. split; [exact M0|]. change (@cheb R N us' vs') with (fold_left (fun s x : R => @nmax R N s x) l 0).
    set (m := fold_left (fun s x : R => @nmax R N s x) l 0) in *.
    assert (Up : m <= d + (2 * del + 3 * u * (d + 2 * del))).
    { apply fold_max_r. assert (0 <= 3 * u * (d + 2 * del)) by (apply Rmult_le_pos; lra). split; [lra|]. apply Forall_forall. intros x Hx. apply (In_nth _ _ 0) in Hx as (t & Ht & <-). rewrite Ll in Ht.
      specialize (En t Ht). pose proof (Rle_abs (nth t l 0 - Rabs (nth t us 0 - nth t vs 0))). specialize (D1 t Ht). lra. }
    assert (Lo : d <= m + (2 * del + 3 * u * (d + 2 * del))).
    { assert (0 <= 3 * u * (d + 2 * del)) by (apply Rmult_le_pos; lra). destruct D2 as [->|(t & Ht & E)]; [lra|]. specialize (En t Ht). specialize (M1 (nth t l 0) ltac:(apply nth_In; lia)).
      pose proof (Rle_abs (- (nth t l 0 - Rabs (nth t us 0 - nth t vs 0)))) as X. rewrite Rabs_Ropp in X. rewrite <- E in *. lra. }
    apply Rabs_le. lra.
  Qed.
End Cheb.

(** ** The integers given to the solver *)
Lemma to_fp_of_fp : forall z, (0 <= z)%Z -> to_fp (of_fp z) = z.
Proof. intros z Hz. apply trunc_eq; auto. unfold of_fp, fp_multiplier. replace (IZR z / 100000000 * 100000000) with (IZR z) by field. lra. Qed.
Lemma Forall_nth_0 : forall (P : R -> Prop) l i, Forall P l -> (i < length l)%nat -> P (nth i l 0).
Proof. intros P l i H Hi. rewrite Forall_forall in H. apply H, nth_In, Hi. Qed.
Lemma mx_in : forall n1 n2 c (P : R -> Prop), length c = n1 -> Forall (fun r => length r = n2) c -> (forall i j, (i < n1)%nat -> (j < n2)%nat -> P (mx c i j)) ->
  forall x, In x (concat c) -> P x.
Proof.
  intros n1 n2 c P L F H x Hx. apply in_concat in Hx. destruct Hx as (r & Hr & Hx). apply (In_nth _ _ []) in Hr. destruct Hr as (i & Hi & <-).
  apply (In_nth _ _ 0) in Hx. destruct Hx as (j & Hj & <-). rewrite Forall_forall in F. apply (H i j); [lia|]. rewrite <- (F (nth i c [])); auto. now apply nth_In.
Qed.

Section Solver.
  Variables (ar : arith) (u eta : R) (cast : R -> Z).
  Hypothesis FL : float_like u eta ar.
  Hypothesis Hu : u <= 1 / 100000000.
  Hypothesis He : eta <= 1 / 10000.
  Hypothesis HT : truncates cast.
  Hypothesis HM : monotone_mul ar.
  Notation F := (fixed ar cast).
  Notation top := 10000000000.

  Lemma mul_range : forall r, 0 <= r <= top -> 0 <= r_mul ar r fp_multiplier < 9223372036854775808 /\ Rabs (r_mul ar r fp_multiplier - r * 100000000) <= u * (r * 100000000) + eta.
  Proof.
    intros r Hr. pose proof (fl_u _ _ _ FL) as u0. pose proof (fl_mul _ _ _ FL r fp_multiplier) as M. pose proof (fl_mul_sign _ _ _ FL r fp_multiplier) as S. unfold fp_multiplier in *.
    rewrite (Rabs_right (r * 100000000)) in M by lra. split; [|exact M]. split; [apply S; lra|]. pose proof (Rle_abs (r_mul ar r 100000000 - r * 100000000)).
    assert (u * (r * 100000000) <= 1 / 10000 * (top * 100000000)) by (apply Rmult_le_compat; lra). lra.
  Qed.

  Lemma fixed_trunc : forall r, 0 <= r <= top -> F r = trunc (r_mul ar r fp_multiplier).
  Proof. intros r Hr. unfold fixed. apply cast_trunc; auto. apply mul_range; auto. Qed.

  Lemma fixed_spec : forall r, 0 <= r <= top -> (0 <= F r)%Z /\ IZR (F r) <= r * 100000000 * (1 + u) + eta /\ r * 100000000 * (1 - u) - eta < IZR (F r) + 1.
  Proof.
    intros r Hr. rewrite fixed_trunc by auto. destruct (mul_range r Hr) as [A B]. destruct (trunc_spec (r_mul ar r fp_multiplier) ltac:(lra)) as [[C D] E].
    split; [exact E|]. apply Rabs_le_both in B. lra.
  Qed.

  Lemma fixed_near : forall r, 0 <= r <= top -> Rabs (of_fp (F r) - r) <= u * r + 2 / 100000000.
  Proof. intros r Hr. destruct (fixed_spec r Hr) as (A & B & C). unfold of_fp, fp_multiplier. apply Rabs_le. lra. Qed.

  Lemma fixed_min : forall a b, 0 <= a <= top -> 0 <= b <= top -> F (Rmin a b) = Z.min (F a) (F b).
  Proof.
    assert (Mo : forall a b, 0 <= a <= b -> b <= top -> (F a <= F b)%Z).
    { intros a b H1 H2. rewrite !fixed_trunc by lra. apply trunc_mono. split; [apply mul_range; lra|]. apply HM; [lra|unfold fp_multiplier; lra]. }
    intros a b Ha Hb. unfold Rmin. destruct (Rle_dec a b).
    - pose proof (Mo a b ltac:(lra) ltac:(lra)). lia.
    - pose proof (Mo b a ltac:(lra) ltac:(lra)). lia.
  Qed.

  Definition cut (l : list R) : list R := map (fun r => of_fp (F r)) l.
  Lemma cut_fp : forall l, Forall (fun r => 0 <= r <= top) l -> map to_fp (cut l) = map F l.
  Proof. intros l H. unfold cut. rewrite map_map. apply map_ext_in. intros x Hx. rewrite Forall_forall in H. apply to_fp_of_fp, fixed_spec; auto. Qed.

  (** Weights with integers of sum at most 10^8. *)
  Record sized (w : list R) : Prop := {
    s_ne : w <> [];
    s_range : Forall (fun r => 0 <= r <= top) w;
    s_min : Forall (fun r => (1 <= F r)%Z) w;
    s_sum : (zsum (map F w) <= EmdModel.FP)%Z
  }.

  Lemma cut_light : forall w, sized w -> light (cut w).
  Proof.
    intros w [A B C D]. constructor.
    - destruct w; [congruence|discriminate].
    - unfold cut. apply Forall_map. apply Forall_impl with (2 := C). intros r Hr. unfold of_fp, fp_multiplier. apply IZR_le in Hr. lra.
    - rewrite <- (cut_fp w B) in D. rewrite zsum_iw in D. apply IZR_le in D. rewrite IZR_ZSum in D.
      apply Rmult_le_reg_r with 100000000; [lra|]. rewrite <- Sum_scal_r. eapply Rle_trans; [|unfold EmdModel.FP in D; rewrite Rmult_1_l; exact D]. right. apply Sum_ext. intros i Hi.
      rewrite iw_eq. unfold vx. unfold cut in Hi |- *. rewrite map_length in Hi.
      rewrite (nth_indep _ 0 ((fun r => of_fp (F r)) 0)) by now rewrite map_length. rewrite (map_nth (fun r => of_fp (F r))).
      rewrite to_fp_of_fp by (apply fixed_spec, (Forall_nth_0 (fun r => 0 <= r <= top)); auto). unfold of_fp, fp_multiplier. field.
  Qed.

  Lemma caps_r : forall w1 w2, sized w1 -> sized w2 -> int_caps_r ar cast w1 w2 = int_caps (cut w1) (cut w2).
  Proof.
    intros w1 w2 [_ B1 _ _] [_ B2 _ _]. unfold int_caps_r, int_caps, cut. rewrite !flat_map_concat_map. f_equal. rewrite map_map. apply map_ext_in. intros a Ha. rewrite map_map. apply map_ext_in. intros b Hb.
    rewrite Forall_forall in B1, B2. rewrite fixed_min by auto. pose proof (fixed_spec a ltac:(auto)) as (Fa & _). pose proof (fixed_spec b ltac:(auto)) as (Fb & _). apply IZR_le in Fa as Fa'. apply IZR_le in Fb as Fb'.
    rewrite to_fp_min by (unfold of_fp, fp_multiplier; lra). now rewrite !to_fp_of_fp.
  Qed.

  Variables (w1 w2 : list R) (c : list (list R)).
  Hypothesis S1 : sized w1.
  Hypothesis S2 : sized w2.
  Notation n1 := (length w1).
  Notation n2 := (length w2).
  Hypothesis HC : cost_matrix n1 n2 c.
  Hypothesis Hc : forall i j, (i < n1)%nat -> (j < n2)%nat -> mx c i j <= top.
  Definition cut_cost : list (list R) := map cut c.
  Hypothesis Ht : total_distance n1 n2 (mx cut_cost) <= top.

  Lemma cut_mx : forall i j, (i < n1)%nat -> (j < n2)%nat -> mx cut_cost i j = of_fp (F (mx c i j)).
  Proof.
    intros i j Hi Hj. unfold mx, cut_cost. change (@nil R) with (cut []) at 1. rewrite map_nth. unfold cut at 1.
    rewrite (nth_indep _ 0 ((fun r => of_fp (F r)) 0)); [now rewrite (map_nth (fun r => of_fp (F r)))|].
    rewrite map_length. pose proof (cm_cols _ _ _ HC) as G. rewrite Forall_forall in G. rewrite (G (nth i c [])); auto. apply nth_In. now rewrite (cm_rows _ _ _ HC).
  Qed.

  Lemma cut_len : forall l, length (cut l) = length l.
  Proof. intros. apply map_length. Qed.

  Lemma cut_matrix : cost_matrix (length (cut w1)) (length (cut w2)) cut_cost.
  Proof.
    rewrite !cut_len. constructor.
    - unfold cut_cost. rewrite map_length. apply HC.
    - unfold cut_cost. apply Forall_map. apply Forall_impl with (2 := cm_cols _ _ _ HC). intros r Hr. now rewrite cut_len.
    - intros i j Hi Hj. rewrite cut_mx by auto. destruct (fixed_spec (mx c i j)) as (A & _); [split; [apply HC; auto|auto]|]. apply IZR_le in A. unfold of_fp, fp_multiplier. lra.
  Qed.

  Lemma concat_cut : map to_fp (concat cut_cost) = map F (concat c).
  Proof.
    unfold cut_cost, cut. rewrite concat_map, map_map. rewrite concat_map. f_equal. apply map_ext_in. intros r Hr. apply (cut_fp r). apply Forall_forall. intros x Hx.
    apply (mx_in n1 n2 c (fun x => 0 <= x <= top)); [apply HC|apply HC| |].
    - intros i j Hi Hj. split; [apply HC; auto|auto].
    - apply in_concat. eauto.
  Qed.

  (** *** Back to floating-point numbers *)
  Lemma to_float_near : forall z, (0 <= z)%Z -> Rabs (to_float ar z - of_fp z) <= 3 * u * of_fp z + eta.
  Proof.
    intros z Hz. apply IZR_le in Hz. pose proof (fl_u _ _ _ FL) as u0. pose proof (fl_ofZ _ _ _ FL z) as A. rewrite (Rabs_right (IZR z)) in A by lra.
    pose proof (fl_div _ _ _ FL (r_ofZ ar z) fp_multiplier) as B. unfold to_float, of_fp, fp_multiplier in *. specialize (B ltac:(lra) ltac:(lra)). set (q := r_ofZ ar z) in *. set (t := r_div ar q 100000000) in *. clearbody q t.
    apply Rabs_le_both in A. assert (0 <= q) by nra. rewrite (Rabs_right (q / 100000000)) in B by lra. apply Rabs_le_both in B.
    assert (q / 100000000 - IZR z / 100000000 <= u * (IZR z / 100000000)) by lra. assert (IZR z / 100000000 - q / 100000000 <= u * (IZR z / 100000000)) by lra.
    set (Q := q / 100000000) in *. set (Z := IZR z / 100000000) in *. assert (0 <= Z) by (unfold Z; lra). clearbody Q Z.
    assert (u * Q <= u * (2 * Z)) by (apply Rmult_le_compat_l; nra). apply Rabs_le. lra.
  Qed.

  Lemma product_near : forall x y z z' C, 0 <= z <= 1 -> 0 <= z' <= C -> Rabs (x - z) <= 3 * u * z + eta -> Rabs (y - z') <= 3 * u * z' + eta ->
    Rabs (x * y - z * z') <= 7 * u * (z * z') + 2 * eta * (C + 1).
  Proof.
    intros x y z z' C Hz Hz' Hx Hy. pose proof (fl_u _ _ _ FL) as u0. pose proof (fl_eta _ _ _ FL) as e0. 
    replace (x * y - z * z') with ((x - z) * (y - z') + (x - z) * z' + z * (y - z')) by ring.
    eapply Rle_trans; [apply Rabs_triang|]. pose proof (Rabs_triang ((x - z) * (y - z')) ((x - z) * z')) as T. rewrite !Rabs_mult in *. rewrite (Rabs_right z), (Rabs_right z') in * by lra.
    pose proof (Rabs_pos (x - z)). pose proof (Rabs_pos (y - z')).
    assert (P1 : Rabs (x - z) * Rabs (y - z') <= (3 * u * z + eta) * (3 * u * z' + eta)) by (apply Rmult_le_compat; auto).
    assert (P2 : Rabs (x - z) * z' <= (3 * u * z + eta) * z') by (apply Rmult_le_compat_r; lra).
    assert (P3 : z * Rabs (y - z') <= z * (3 * u * z' + eta)) by (apply Rmult_le_compat_l; lra).
    assert (ZZ : 0 <= z * z') by (apply Rmult_le_pos; lra).
    assert (Q1 : 9 * u * u * (z * z') <= 1 / 10 * u * (z * z')) by (apply Rmult_le_compat_r; nra).
    assert (Q2 : eta * z' <= eta * C) by (apply Rmult_le_compat_l; lra).
    assert (Q3 : z * eta <= eta) by nra.
    assert (Q4 : 3 * u * z * eta <= 1 / 100 * eta) by (apply Rmult_le_compat_r; nra).
    assert (Q5 : 3 * u * z' * eta <= 1 / 100 * (eta * C)).
    { replace (3 * u * z' * eta) with (3 * u * (eta * z')) by ring. assert (0 <= eta * z') by (apply Rmult_le_pos; lra). apply Rmult_le_compat; lra. }
    assert (Q6 : eta * eta <= 1 / 100 * eta) by nra. nra.
  Qed.

  Notation ne := (n1 * n2)%nat.
  Hypothesis Eu : INR ne * u <= 1 / 2.
  Hypothesis Ee : INR ne * eta <= u.
  Variable C : R.
  Hypothesis HCm : forall i j, (i < n1)%nat -> (j < n2)%nat -> mx cut_cost i j <= C.

  Lemma nth_to_float : forall l k, (k < length l)%nat -> nth k (map (to_float ar) l) 0 = to_float ar (nth k l 0%Z).
  Proof. intros l k Hk. rewrite (nth_indep _ 0 (to_float ar 0%Z)) by now rewrite map_length. apply map_nth. Qed.

  (** The 64-bit solver does what the unbounded one does on the same integers. *)
  Lemma solver_eq : forall fuel, network_simplex_r ar cast fuel w1 w2 c =
    (fl <- simplex fuel (fst (balance (map to_fp (cut w1)) (map to_fp (cut w2)))) (snd (balance (map to_fp (cut w1)) (map to_fp (cut w2)))) (map to_fp (concat cut_cost)) (int_caps (cut w1) (cut w2)) ;;
     Done (r_dot ar (map (to_float ar) fl) (map (to_float ar) (map to_fp (concat cut_cost))), reshape n1 n2 (map (to_float ar) fl)))%outcome.
  Proof.
    intros fuel. pose proof (cut_light w1 S1) as W1. pose proof (cut_light w2 S2) as W2. pose proof cut_matrix as CM.
    assert (S : (zsum (map to_fp (concat cut_cost)) <= 1000000000000000000)%Z).
    { apply le_IZR. destruct (icost_sum (cut w1) (cut w2) cut_cost CM) as [A _]. rewrite !cut_len in A. lra. }
    pose proof (big_le (cut w1) (cut w2) cut_cost W1 W2 CM 1000000000000000000 ltac:(lia) S) as HL.
    rewrite <- simplex64_eq; [|apply balanced_run; auto|unfold int64_half; lia|unfold int64_half; lia].
    unfold network_simplex_r. rewrite caps_r, <- concat_cut by auto. rewrite <- (cut_fp w1 (s_range _ S1)), <- (cut_fp w2 (s_range _ S2)). rewrite (balance_eq (cut w1) (cut w2)) by auto.
    destruct (balance (map to_fp (cut w1)) (map to_fp (cut w2))) as [s t]. reflexivity.
  Qed.

  Lemma solver_mono : forall f k r, network_simplex_r ar cast f w1 w2 c = Done r -> network_simplex_r ar cast (f + k) w1 w2 c = Done r.
  Proof.
    intros f k r. rewrite !solver_eq. destruct (simplex f _ _ _ _) as [fl| | |] eqn:E; try discriminate. now rewrite (simplex_mono _ k _ _ _ _ _ E).
  Qed.

  Theorem solver_run : forall fuel, (run_bound (cut w1) (cut w2) cut_cost < Z.of_nat fuel)%Z ->
    exists v plan X, network_simplex_r ar cast fuel w1 w2 c = Done (v, plan) /\
      length plan = n1 /\ Forall (fun r => length r = n2) plan /\
      (forall i j, (i < n1)%nat -> (j < n2)%nat -> Rabs (mx plan i j - planR X i j) <= 3 * u * planR X i j + eta) /\
      run (cut w1) (cut w2) (mx cut_cost) X /\
      Rabs (v - transport_cost n1 n2 (fun i j => of_fp (to_fp (mx cut_cost i j))) (planR X)) <= (3 * INR ne + 30) * u * (C + 1).
  Proof.
    intros fuel Hf. pose proof (cut_light w1 S1) as W1. pose proof (cut_light w2 S2) as W2. pose proof cut_matrix as CM.
    destruct (simplex_run (cut w1) (cut w2) cut_cost W1 W2 CM fuel Hf) as (fl & E & Lf & HR). rewrite !cut_len in Lf. rewrite cut_len in HR.
    set (X := fun i j => nth (i * n2 + j) fl 0%Z) in *.
    assert (EN : network_simplex_r ar cast fuel w1 w2 c = Done (r_dot ar (map (to_float ar) fl) (map (to_float ar) (map to_fp (concat cut_cost))), reshape n1 n2 (map (to_float ar) fl))) by (rewrite solver_eq, E; reflexivity).
    pose proof (concat_len R cut_cost n2) as Lc. assert (Lc' : length (concat cut_cost) = ne). { rewrite Lc; [rewrite (cm_rows _ _ _ CM), cut_len; auto|]. pose proof (cm_cols _ _ _ CM) as G. rewrite cut_len in G. exact G. }
    destruct (reshape_spec n1 n2 (map (to_float ar) fl)) as (R1 & R2 & R3); [now rewrite map_length|].
    exists (r_dot ar (map (to_float ar) fl) (map (to_float ar) (map to_fp (concat cut_cost)))), (reshape n1 n2 (map (to_float ar) fl)), X.
    split; [exact EN|]. split; [exact R1|]. split; [exact R2|].
    assert (XR : forall i j, (i < n1)%nat -> (j < n2)%nat -> (0 <= X i j)%Z /\ 0 <= planR X i j <= 1).
    { intros i j Hi Hj. destruct (X_range (cut w1) (cut w2) _ X HR i j) as [A B]; [now rewrite cut_len|now rewrite cut_len|]. split; [exact A|].
      assert (X i j <= EmdModel.FP)%Z.
      { destruct (iw_le (cut w1) W1) as [_ U]. rewrite cut_len in U. pose proof (ZSum_ge_one n1 (iw (cut w1)) i) as G.
        assert (forall j, (j < n1)%nat -> (0 <= iw (cut w1) j)%Z) as P by (intros q Hq; assert (1 <= iw (cut w1) q)%Z by (apply iw_spec; [auto|now rewrite cut_len]); lia). specialize (G P Hi). lia. }
      apply IZR_le in A, H. unfold planR, EmdModel.FP in *. lra. }
    assert (KI : forall i j, (i < n1)%nat -> (j < n2)%nat -> (i * n2 + j < ne)%nat) by (intros; nia).
    split. { intros i j Hi Hj. rewrite R3 by auto. rewrite nth_to_float by (rewrite Lf; apply KI; auto). apply to_float_near. apply XR; auto. }
    split; [exact HR|].
    set (ic := map to_fp (concat cut_cost)) in *. assert (Li : length ic = ne) by (unfold ic; now rewrite map_length).
    set (xs := map (to_float ar) fl). set (ys := map (to_float ar) ic).
    pose proof (dot_error u eta (r_dot ar) xs ys ne (fl_u _ _ _ FL) (fl_eta _ _ _ FL) (fl_dot _ _ _ FL) ltac:(unfold xs; now rewrite map_length) ltac:(unfold ys; now rewrite map_length) Eu Ee) as DE.
    assert (IC : forall i j, (i < n1)%nat -> (j < n2)%nat -> nth (i * n2 + j) ic 0%Z = to_fp (mx cut_cost i j)).
    { intros i j Hi Hj. pose proof (icost_ent (cut w1) (cut w2) cut_cost CM i j) as Q. rewrite !cut_len in Q. apply Q; auto. }
    assert (CP : forall i j, (i < n1)%nat -> (j < n2)%nat -> (0 <= to_fp (mx cut_cost i j))%Z /\ 0 <= of_fp (to_fp (mx cut_cost i j)) <= C).
    { intros i j Hi Hj. pose proof (cm_pos _ _ _ CM i j) as Q. rewrite !cut_len in Q. specialize (Q Hi Hj). destruct (to_fp_spec _ Q) as [[A B] D]. split; auto. specialize (HCm i j Hi Hj). apply IZR_le in D. unfold of_fp, fp_multiplier. lra. }
    set (cf := fun i j => of_fp (to_fp (mx cut_cost i j))). change (forall i j, (i < n1)%nat -> (j < n2)%nat -> (0 <= to_fp (mx cut_cost i j))%Z /\ 0 <= cf i j <= C) in CP.
    assert (PN : forall i j, (i < n1)%nat -> (j < n2)%nat -> Rabs (nth (i * n2 + j) xs 0 * nth (i * n2 + j) ys 0 - planR X i j * cf i j) <= 7 * u * (planR X i j * cf i j) + 2 * eta * (C + 1)).
    { intros i j Hi Hj. destruct (CP i j Hi Hj) as [c1 c2]. destruct (XR i j Hi Hj) as [x1 x2]. apply product_near; auto.
      - unfold xs. rewrite nth_to_float by (rewrite Lf; auto). apply to_float_near. exact x1.
      - unfold ys. rewrite nth_to_float by (rewrite Li; auto). rewrite IC by auto. apply to_float_near. exact c1. }
    set (V := transport_cost n1 n2 cf (planR X)).
    assert (P1 : (1 <= n1)%nat) by (rewrite <- (cut_len w1); apply EmdRun.weights_pos; auto). assert (P2 : (1 <= n2)%nat) by (rewrite <- (cut_len w2); apply EmdRun.weights_pos; auto).
    assert (C0 : 0 <= C) by (destruct (CP 0%nat 0%nat ltac:(lia) ltac:(lia)); lra).
    assert (VC : 0 <= V <= C).
    { split.
      - apply Sum_nonneg. intros i Hi. apply Sum_nonneg. intros j Hj. destruct (CP i j Hi Hj), (XR i j Hi Hj). apply Rmult_le_pos; lra.
      - pose proof (near_mass_le (cut w1) (cut w2) W1 W2 (mx cut_cost) X HR) as M. rewrite !cut_len in M. apply Rle_trans with (C * mass n1 n2 (planR X)); [|rewrite <- (Rmult_1_r C) at 2; apply Rmult_le_compat_l; auto].
        unfold V, transport_cost, mass. rewrite <- Sum_scal. apply Sum_le. intros i Hi. rewrite <- Sum_scal. apply Sum_le. intros j Hj. destruct (CP i j Hi Hj), (XR i j Hi Hj). apply Rmult_le_compat_r; lra. }
    assert (EV : V = Sum n1 (fun i => Sum n2 (fun j => planR X i j * cf i j))) by (unfold V, transport_cost; apply Sum_ext; intros; apply Sum_ext; intros; ring).
    assert (SE : Sum n1 (fun i => Sum n2 (fun j => 7 * u * (planR X i j * cf i j) + 2 * eta * (C + 1))) <= 7 * u * V + 2 * u * (C + 1)).
    { rewrite EV. apply Rle_trans with (7 * u * Sum n1 (fun i => Sum n2 (fun j => planR X i j * cf i j)) + INR n1 * (INR n2 * (2 * eta * (C + 1)))).
      - right. rewrite <- Sum_scal, <- Sum_const, <- Sum_plus. apply Sum_ext. intros i Hi. rewrite <- Sum_scal, <- Sum_const, <- Sum_plus. reflexivity.
      - rewrite mult_INR in Ee. apply Rplus_le_compat_l. replace (INR n1 * (INR n2 * (2 * eta * (C + 1)))) with (INR n1 * INR n2 * eta * (2 * (C + 1))) by ring. replace (2 * u * (C + 1)) with (u * (2 * (C + 1))) by ring. apply Rmult_le_compat_r; lra. }
    assert (D1 : Rabs (Sum ne (fun k => nth k xs 0 * nth k ys 0) - V) <= 7 * u * V + 2 * u * (C + 1)).
    { rewrite Sum_rect, EV at 1. rewrite <- Sum_minus. eapply Rle_trans; [apply Sum_abs_le|]. eapply Rle_trans; [|exact SE]. apply Sum_le. intros i Hi. rewrite <- Sum_minus. eapply Rle_trans; [apply Sum_abs_le|]. apply Sum_le. intros j Hj. apply PN; auto. }
    assert (D2 : Sum ne (fun k => Rabs (nth k xs 0 * nth k ys 0)) <= V + (7 * u * V + 2 * u * (C + 1))).
    { rewrite Sum_rect. apply Rle_trans with (V + Sum n1 (fun i => Sum n2 (fun j => 7 * u * (planR X i j * cf i j) + 2 * eta * (C + 1)))); [|lra].
      rewrite EV at 1. rewrite <- Sum_plus. apply Sum_le. intros i Hi. rewrite <- Sum_plus. apply Sum_le. intros j Hj. pose proof (Rabs_upto _ _ _ (PN i j Hi Hj)) as G. 
      destruct (CP i j Hi Hj), (XR i j Hi Hj). rewrite (Rabs_right (planR X i j * cf i j)) in G by (apply Rle_ge, Rmult_le_pos; lra). lra. }
    pose proof (fl_u _ _ _ FL) as u0. pose proof (pos_INR ne) as N0. set (T := Sum ne (fun k => Rabs (nth k xs 0 * nth k ys 0))) in *. set (d0 := Sum ne (fun k => nth k xs 0 * nth k ys 0)) in *. set (v := r_dot ar xs ys) in *. clearbody T d0 v V. set (K := INR ne) in *. clearbody K.
    replace (v - V) with ((v - d0) + (d0 - V)) by ring. eapply Rle_trans; [apply Rabs_triang|].
    assert (A1 : 7 * u * V + 2 * u * (C + 1) <= 9 * u * (C + 1)) by nra.
    assert (A2 : (3 * K + 3) * u * T <= (3 * K + 3) * u * (C + 9 * u * (C + 1))) by (apply Rmult_le_compat_l; [apply Rmult_le_pos; lra|lra]).
    assert (A3 : (3 * K + 3) * u * (9 * u * (C + 1)) <= 14 * u * (C + 1)).
    { replace ((3 * K + 3) * u * (9 * u * (C + 1))) with ((27 * (K * u) + 27 * u) * (u * (C + 1))) by ring. replace (14 * u * (C + 1)) with (14 * (u * (C + 1))) by ring. apply Rmult_le_compat_r; [apply Rmult_le_pos; lra|lra]. }
    assert (A4 : 0 <= K * u) by (apply Rmult_le_pos; lra).
    assert (A5 : 0 <= u * C) by (apply Rmult_le_pos; lra). nra.
  Qed.
End Solver.
