(** AMD_finite and PDD_finite with rounded operations. *)
From Coq Require Import List ZArith Arith Bool Lia Reals Lra Psatz Permutation Sorted.
From Verif Require Import Num Base Spec Outcome Condensed CollapseModel NNModel VecR SpecGeom SpecCalc NNProofs NNSpecProofs CalcModel CalcProofs CalcProofs2 CalcCanon CalcInv Props_Calc Props_Inv Props_Finite
  RoundModel SpecRound RoundProofs RoundGeom RoundCalc RoundCollapse.
Import ListNotations.
Open Scope R_scope.

(** ** Sorting rows which are close *)
Lemma sorted_count : forall (P : R -> bool) s, (forall x y, x <= y -> P y = true -> P x = true) -> StronglySorted Rle s ->
  forall j, (j < length s)%nat -> (P (nth j s 0) = true <-> (j < length (filter P s))%nat).
Proof.
  intros P s HP. induction s as [|x s IH]; intros S j Hj; cbn in Hj; [lia|]. inversion S as [|? ? S' F]; subst. cbn [filter]. destruct (P x) eqn:E.
  - destruct j as [|j]; cbn; [split; auto; lia|]. rewrite IH by (auto; lia). lia.
  - assert (Z : filter P s = []). { rewrite Forall_forall in F. assert (X : forall y, In y s -> P y = false) by (intros y Hy; destruct (P y) eqn:Ey; auto; rewrite (HP x y (F y Hy) Ey) in E; discriminate). clear - X. induction s as [|y s IH]; cbn; auto. rewrite X by (left; auto). apply IH. intros z Hz. apply X. right. auto. }
    rewrite Z. cbn. split; [|lia]. intros H. exfalso. destruct j as [|j]; [congruence|]. assert (I : In (nth j s 0) s) by (apply nth_In; lia). rewrite Forall_forall in F. rewrite (HP x _ (F _ I) H) in E. discriminate.
Qed.

Lemma count_mono : forall (P Q : R -> bool) (T : R -> R -> Prop) l l', Forall2 T l l' -> (forall d e, T d e -> P d = true -> Q e = true) ->
  (length (filter P l) <= length (filter Q l'))%nat.
Proof. intros P Q T l l' F H. induction F as [|d e l l' X F IH]; cbn; [lia|]. destruct (P d) eqn:E; [rewrite (H _ _ X E); cbn; lia|]. destruct (Q e); cbn; lia. Qed.

Lemma filter_perm_length : forall (P : R -> bool) l l', Permutation l l' -> length (filter P l) = length (filter P l').
Proof. intros P l l' H. induction H; cbn; auto; try lia; repeat match goal with |- context [if ?b then _ else _] => destruct b end; cbn; lia. Qed.

Lemma sort_close : forall (lo up : R -> R) l l' s s', (forall x y, x <= y -> up x <= up y) -> (forall x y, x <= y -> lo x <= lo y) ->
  Forall2 (fun d e => lo d <= e <= up d) l l' -> Permutation l s -> Permutation l' s' -> StronglySorted Rle s -> StronglySorted Rle s' ->
  Forall2 (fun d e => lo d <= e <= up d) s s'.
Proof.
  intros lo up l l' s s' Hup Hlo F P P' S S'. pose proof (F2_len _ _ _ _ _ F) as L. pose proof (Permutation_length P) as L1. pose proof (Permutation_length P') as L2.
  assert (G : forall j, (j < length s)%nat -> lo (nth j s 0) <= nth j s' 0 <= up (nth j s 0)).
  { intros j Hj. split.
    - apply Rnot_lt_le. intros C. set (t := nth j s 0) in *. set (t' := nth j s' 0) in *.
      assert (X1 : (j < length (filter (fun x => Rleb x t') s'))%nat) by (apply sorted_count; auto; [intros x y Hxy Hy; apply Rleb_true in Hy; apply Rleb_true; lra|lia|apply Rleb_true; unfold t'; lra]).
      rewrite <- (filter_perm_length _ _ _ P') in X1.
      assert (X2 : (length (filter (fun x => Rleb x t') l') <= length (filter (fun x => Rltb x t) l))%nat).
      { clear - F C Hlo. induction F as [|d e l l' X F IH]; cbn; [lia|]. destruct (Rleb e t') eqn:E; [|destruct (Rltb d t); cbn; lia]. apply Rleb_true in E.
        replace (Rltb d t) with true; [cbn; lia|]. symmetry. apply Rltb_true. apply Rnot_le_lt. intros Y. specialize (Hlo _ _ Y). lra. }
      rewrite (filter_perm_length _ _ _ P) in X2. assert (X3 : Rltb (nth j s 0) t = true) by (apply (sorted_count (fun x => Rltb x t)); auto; [intros x y Hxy Hy; apply Rltb_true in Hy; apply Rltb_true; lra|lia]).
      apply Rltb_true in X3. unfold t in X3. lra.
    - set (t := nth j s 0). assert (X1 : (j < length (filter (fun x => Rleb x t) s))%nat) by (apply sorted_count; auto; [intros x y Hxy Hy; apply Rleb_true in Hy; apply Rleb_true; lra|apply Rleb_true; unfold t; lra]).
      rewrite <- (filter_perm_length _ _ _ P) in X1.
      pose proof (count_mono (fun x => Rleb x t) (fun x => Rleb x (up t)) _ l l' F) as X2. rewrite (filter_perm_length _ _ _ P') in X2.
      assert (X3 : Rleb (nth j s' 0) (up t) = true).
      { apply (sorted_count (fun x => Rleb x (up t))); auto; [intros x y Hxy Hy; apply Rleb_true in Hy; apply Rleb_true; lra|lia|]. eapply Nat.lt_le_trans; [exact X1|apply X2].
        intros d e [Q1 Q2] Hd. apply Rleb_true in Hd. apply Rleb_true. specialize (Hup _ _ Hd). lra. }
      apply Rleb_true in X3. auto. }
  clear - G L L1 L2. assert (L3 : length s = length s') by lia. clear L L1 L2. revert s' L3 G. induction s as [|d s IH]; intros [|e s'] L G; cbn in *; try lia; constructor; [apply (G 0%nat); lia|]. apply IH; [lia|]. intros j Hj. apply (G (S j)). lia.
Qed.

Section Finite.
  Variables (ar : arith) (u eta B : R) (dims : nat) (pts : list (list R)).
  Hypothesis FL : float_like u eta ar.
  Hypothesis Hu : u <= 1 / 10000.
  Hypothesis HB : 0 <= B.
  Hypothesis He1 : eta <= u * B.
  Hypothesis He2 : eta <= (u * B) * (u * B).
  Hypothesis H4 : (dims <= 4)%nat.
  Hypothesis Hl : Forall (fun p => length p = dims) pts.
  Hypothesis Hne : pts <> [].
  Lemma fu0 : 0 <= u. Proof. exact (fl_u _ _ _ FL). Qed.
  Notation N := (num_of ar).
  Notation m := (length pts).

  Lemma finite_entry : forall p q, length p = dims -> length q = dims ->
    Rabs (r_sqrt ar (@sqd R N p q) - edist p q) <= 100 * u * (edist p q + B).
  Proof.
    intros p q Hp Hq. pose proof fu0 as u0. pose proof (sqd_root ar u eta B dims FL Hu H4 He1 He2 p q Hp Hq) as X. rewrite dist_edist in X. pose proof (sqd_nonneg_r ar u eta FL Hu p q) as Z.
    pose proof (fl_sqrt _ _ _ FL _ Z) as Y. assert (D : 0 <= edist p q) by apply sqrt_pos. set (d := edist p q) in *. change (num_of ar) with N in *. set (t := sqrt (@sqd R N p q)) in *.
    pose proof (Rabs_upto _ _ _ X) as T. rewrite (Rabs_right d) in T by lra. assert (T0 : 0 <= t) by apply sqrt_pos. rewrite (Rabs_right t) in T by lra.
    assert (0 <= u * d) by (apply Rmult_le_pos; auto). assert (0 <= u * B) by (apply Rmult_le_pos; auto).
    assert (u * t <= u * (2 * d + 2 * B)). { apply Rmult_le_compat_l; auto. assert (u * d <= 1 / 10000 * d) by (apply Rmult_le_compat_r; auto). assert (u * B <= 1 / 10000 * B) by (apply Rmult_le_compat_r; auto). lra. }
    replace (r_sqrt ar (@sqd R N p q) - d) with ((r_sqrt ar (@sqd R N p q) - t) + (t - d)) by ring. eapply Rle_trans; [apply Rabs_triang|]. lra.
  Qed.

  Lemma bounds_iff : forall d e, Rabs (e - d) <= 100 * u * (d + B) <-> d - 100 * u * (d + B) <= e <= d + 100 * u * (d + B).
  Proof. intros d e. split; [intros H; unfold Rabs in H; destruct Rcase_abs in H; lra|intros H; apply Rabs_le; lra]. Qed.

  Lemma finite_row_close : forall i, (i < m)%nat ->
    near_row u B (tl (isort nleb (map (squareform n0 m (condensed (fun i j => nsqrt (sqd (nth i pts []) (nth j pts []))) m) i) (seq 0 m))))
      (tl (isort (@nleb R N) (map (squareform (@n0 R N) m (condensed (fun i j => @nsqrt R N (@sqd R N (nth i pts []) (nth j pts []))) m) i) (seq 0 m)))).
  Proof.
    intros i Hi. pose proof fu0 as u0. set (l := map _ (seq 0 m)). set (l' := map (squareform (@n0 R N) _ _ _) (seq 0 m)).
    assert (F : Forall2 (fun d e => d - 100 * u * (d + B) <= e <= d + 100 * u * (d + B)) l l').
    { unfold l, l'. apply F2_map_in. intros j Hj. apply in_seq in Hj. rewrite !squareform_condensed by lia. destruct (i =? j)%nat.
      - change (@n0 R NumR) with 0. change (@n0 R N) with 0. assert (0 <= u * B) by (apply Rmult_le_pos; auto). lra.
      - assert (LN : forall z, (z < m)%nat -> length (nth z pts []) = dims) by (intros z Hz; rewrite Forall_forall in Hl; apply Hl, nth_In; auto).
        destruct (i <? j)%nat; apply bounds_iff; change (@nsqrt R N) with (r_sqrt ar).
        + replace (nsqrt (sqd (nth i pts []) (nth j pts []))) with (edist (nth i pts []) (nth j pts [])) by (unfold edist; rewrite <- sqd_sq_dist; reflexivity). apply finite_entry; apply LN; lia.
        + replace (nsqrt (sqd (nth j pts []) (nth i pts []))) with (edist (nth j pts []) (nth i pts [])) by (unfold edist; rewrite <- sqd_sq_dist; reflexivity). apply finite_entry; apply LN; lia. }
    assert (S : forall z : list R, StronglySorted Rle (isort Rleb z)) by (intros z; apply sortR_sorted).
    change (@nleb R N) with Rleb. change (@nleb R NumR) with Rleb.
    assert (SC : Forall2 (fun d e => d - 100 * u * (d + B) <= e <= d + 100 * u * (d + B)) (isort Rleb l) (isort Rleb l')).
    { apply (sort_close (fun d => d - 100 * u * (d + B)) (fun d => d + 100 * u * (d + B)) l l'); auto.
      - intros x y H. assert (0 <= u * (y - x)) by (apply Rmult_le_pos; lra). lra.
      - intros x y H. assert (u * (y - x) <= 1 / 10000 * (y - x)) by (apply Rmult_le_compat_r; lra). lra.
      - apply isort_perm.
      - apply isort_perm. }
    unfold near_row. assert (SC' : Forall2 (fun d e => Rabs (e - d) <= 100 * u * (d + B)) (isort Rleb l) (isort Rleb l')).
    { clear - SC. induction SC; constructor; auto. apply bounds_iff. auto. }
    destruct SC'; cbn; auto.
  Qed.

  Lemma finite_rows_close : Forall2 (near_row u B) (finite_rows pts) (@finite_rows R N pts).
  Proof. unfold finite_rows. apply F2_map_in. intros i Hi. apply in_seq in Hi. apply finite_row_close. apply Hi. Qed.

  Lemma finite_rows_nonneg : Forall (fun r => length r = (m - 1)%nat /\ Forall (fun d => 0 <= d) r) (@finite_rows R _ pts).
  Proof.
    rewrite finite_rows_eq. apply Forall_forall. intros r Hr. apply in_map_iff in Hr as (p & <- & Hin). split; [apply dist_row_length|].
    destruct (In_nth _ _ [] Hin) as (i & Hi & <-). destruct (dist_row_spec pts i Hi) as [S P].
    apply Forall_forall. intros x Hx. eapply Permutation_in in Hx; [|exact P]. apply in_map_iff in Hx as (j & <- & _). apply sqrt_pos.
  Qed.

  Theorem amd_finite_close : INR m * u <= 1 / 100 ->
    Forall2 (fun a c => Rabs (c - a) <= (110 + 3 * INR m) * u * (a + B)) (AMD_finite pts) (@AMD_finite R N pts).
  Proof.
    intros HM. unfold AMD_finite. apply (group_mean ar u eta B m FL Hu HB He1 HM (m - 1)).
    - intros E. apply Hne. apply length_zero_iff_nil. rewrite <- finite_rows_length, E. auto.
    - rewrite finite_rows_length. auto.
    - apply finite_rows_nonneg.
    - apply finite_rows_close.
  Qed.

  Theorem pdd_finite_close : forall D lexsort lexsort' collapse tol, INR m * u <= 1 / 100 -> INR m * eta <= u ->
    (forall p q, In p pts -> In q pts -> edist p q <= D) ->
    (collapse = true -> 203 * u * (D + B) <= tol /\ forall i j, (i < j < m)%nat -> apart_or_close u B D tol (dist_row pts (nth i pts [])) (dist_row pts (nth j pts []))) ->
    let '(a, g) := PDD_finite pts lexsort collapse tol in let '(b, g') := @PDD_finite R N pts lexsort' collapse tol in
    exists L L', Permutation (combine a g) L /\ Permutation (combine b g') L' /\ (lexsort = false -> L = combine a g) /\ (lexsort' = false -> L' = combine b g') /\
      Forall2 (fun x y => snd y = snd x /\ Rabs (fst (fst y) - fst (fst x)) <= (5 + 2 * INR m) * u * fst (fst x) /\
        Forall2 (fun d e => Rabs (e - d) <= (110 + 3 * INR m) * u * (d + B)) (snd (fst x)) (snd (fst y))) L L'.
  Proof.
    intros D lexsort lexsort' collapse tol HM HeM HD HC. pose proof fu0 as u0. unfold PDD_finite. rewrite finite_weights.
    pose proof (INR_length_pos _ _ Hne) as Hp. pose proof (fl_eta _ _ _ FL) as e0. assert (M1 : (1 <= m)%nat) by (apply INR_lt; simpl; auto). assert (M2 : 1 <= INR m) by (apply (le_INR 1); auto).
    assert (D0 : 0 <= D). { destruct pts as [|p l]; [congruence|]. specialize (HD p p (or_introl eq_refl) (or_introl eq_refl)). rewrite edist_self in HD. auto. }
    change (@ndiv R N (@n1 R N) (@nofnat R N m)) with (r_div ar 1 (r_ofZ ar (Z.of_nat m))).
    destruct (collapse_close ar u eta B D m FL Hu HB D0 He1 HM (m - 1) (repeat (1 / INR m) m) (repeat (r_div ar 1 (r_ofZ ar (Z.of_nat m))) m) (finite_rows pts) (@finite_rows R N pts) collapse tol) as (W & V & W' & V' & G & C1 & C2 & L1 & L2 & F1 & F2).
    { rewrite repeat_length, finite_rows_length. auto. }
    { rewrite finite_rows_length. auto. }
    { apply Forall_forall. intros x Hx. apply repeat_spec in Hx. subst x. left. apply Rdiv_lt_0_compat; lra. }
    { assert (X : Rabs (r_div ar 1 (r_ofZ ar (Z.of_nat m)) - 1 / INR m) <= 5 * u * (1 / INR m)).
      { pose proof (w_error ar u eta FL m) as X. set (W := r_ofZ ar (Z.of_nat m)) in *. set (w := INR m) in *. assert (X1 : w - u * w <= W <= w + u * w) by (unfold Rabs in X; destruct Rcase_abs in X; lra).
        assert (uw : u * w <= 1 / 10000 * w) by (apply Rmult_le_compat_r; lra). assert (W0 : 0 < W) by lra. assert (u * W <= u * (2 * w)) by (apply Rmult_le_compat_l; lra). pose proof (fl_div _ _ _ FL 1 W ltac:(lra) ltac:(lra)) as Y.
        assert (E1 : eta <= u * (1 / w)). { apply (Rmult_le_reg_r w); [lra|]. replace (u * (1 / w) * w) with u by (field; lra). lra. }
        assert (Q : Rabs (1 / W - 1 / w) <= 11 / 10 * u * (1 / w)).
        { replace (1 / W - 1 / w) with ((w - W) * (/ W * / w)) by (field; lra). rewrite Rabs_mult, (Rabs_right (/ W * / w)) by (apply Rle_ge; left; apply Rmult_lt_0_compat; apply Rinv_0_lt_compat; lra).
          rewrite Rabs_minus_sym. apply Rle_trans with (u * w * (/ W * / w)); [apply Rmult_le_compat_r; auto; left; apply Rmult_lt_0_compat; apply Rinv_0_lt_compat; lra|].
          replace (u * w * (/ W * / w)) with (u * / W) by (field; lra). replace (11 / 10 * u * (1 / w)) with (u * (11 / 10 * / w)) by (field; lra). apply Rmult_le_compat_l; auto.
          apply (Rmult_le_reg_r (W * w)); [apply Rmult_lt_0_compat; lra|]. replace (/ W * (W * w)) with w by (field; lra). replace (11 / 10 * / w * (W * w)) with (11 / 10 * W) by (field; lra). lra. }
        assert (I : 0 < 1 / w) by (apply Rdiv_lt_0_compat; lra). pose proof (Rabs_upto _ _ _ Q) as Z. rewrite (Rabs_right (1 / w)) in Z by lra. assert (U2 : 11 / 10 * u * (1 / w) <= 1 / 100 * (1 / w)) by (apply Rmult_le_compat_r; lra).
        assert (u * Rabs (1 / W) <= u * (2 * (1 / w))) by (apply Rmult_le_compat_l; lra).
        replace (r_div ar 1 W - 1 / w) with ((r_div ar 1 W - 1 / W) + (1 / W - 1 / w)) by ring. eapply Rle_trans; [apply Rabs_triang|]. assert (0 <= u * (1 / w)) by (apply Rmult_le_pos; lra). lra. }
      clear - X. generalize m at 2 4. induction n as [|n IH]; cbn; constructor; auto. }
    { apply Forall_forall. intros r Hr. pose proof finite_rows_nonneg as NN. rewrite Forall_forall in NN. destruct (NN r Hr) as [Q1 Q2]. split; auto. rewrite finite_rows_eq in Hr. apply in_map_iff in Hr as (p & Ep & Hin).
      rewrite Forall_forall in Q2. apply Forall_forall. intros x Hx. split; auto. destruct (In_nth _ _ [] Hin) as (i & Hi & Ei). subst r p. destruct (dist_row_spec pts i Hi) as [S P]. eapply Permutation_in in Hx; [|exact P]. apply in_map_iff in Hx as (j & <- & Hj). apply filter_In in Hj as [Hj _]. apply in_seq in Hj. apply HD; apply nth_In; lia. }
    { apply finite_rows_close. }
    { intros C. destruct (HC C) as [Q1 Q2]. split; auto. rewrite finite_rows_length. intros i j Hij. rewrite finite_rows_eq.
      rewrite !(nth_indep (map (dist_row pts) pts) [] (dist_row pts [])) by (rewrite map_length; unfold vec in *; lia). rewrite !(map_nth (dist_row pts)). apply Q2. auto. }
    change (@length (vec R) pts) with (@length (list R) pts). rewrite C1, C2. pose proof (F2_len _ _ _ _ _ F1) as L3. pose proof (F2_len _ _ _ _ _ F2) as L4.
    destruct (assemble_perm NumR W V G lexsort L1 L2) as (l & P1 & P2 & P3). destruct (assemble_perm (num_of ar) W' V' G lexsort' ltac:(lia) ltac:(lia)) as (l' & P1' & P2' & P3').
    rewrite P3, P3'.
    assert (CB : forall A A' (z : list (A * A')), combine (map fst z) (map snd z) = z) by (intros A A' z; induction z as [|[x y] z IH]; cbn; f_equal; auto).
    rewrite !CB. exists (combine (combine W V) G), (combine (combine W' V') G). split; [symmetry; auto|]. split; [symmetry; auto|]. split; [intros Z; symmetry; auto|]. split; [intros Z; symmetry; auto|].
    clear - F1 F2 L1 L2. unfold near_weight, near_mean in *. revert V V' F2 G L1 L2. induction F1 as [|x y W W' H F1 IH]; intros V V' F2 G L1 L2; destruct G as [|g0 G]; try discriminate; cbn in *; [constructor|].
    destruct F2 as [|v v' V V' Hv F2]; [discriminate|]. cbn. constructor; [cbn; auto|]. apply IH; auto.
  Qed.
End Finite.
