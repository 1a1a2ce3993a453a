(** PDD with rounded operations when rows are collapsed. *)
From Coq Require Import List ZArith Arith Bool Lia Reals Lra Psatz Permutation Sorted.
From Verif Require Import Num Base Spec Outcome Condensed CollapseModel CollapseProofs NNModel VecR SpecGeom SpecCalc NNProofs NNSpecProofs NNComplete Props_NN CalcModel CalcProofs CalcProofs2 Props_Calc
  RoundModel SpecRound RoundSearch RoundProofs RoundGeom RoundTop RoundCalc.
Import ListNotations.
Open Scope R_scope.

(** ** Chebyshev distances *)
Section Cheb.
  Variables (ar : arith) (u eta B D : R).
  Hypothesis FL : float_like u eta ar.
  Hypothesis Hu : u <= 1 / 10000.
  Hypothesis HB : 0 <= B.
  Hypothesis HD : 0 <= D.
  Let u0 : 0 <= u := fl_u _ _ _ FL.
  Notation N := (num_of ar).
  Let mg := 203 * u * (D + B).

  Lemma abs_entry : forall d d' e e', 0 <= d <= D -> 0 <= d' <= D -> Rabs (e - d) <= 100 * u * (d + B) -> Rabs (e' - d') <= 100 * u * (d' + B) ->
    Rabs (@nabs R N (@nsub R N e e') - Rabs (d - d')) <= mg.
  Proof.
    intros d d' e e' Hd Hd' He He'. unfold mg. assert (Q : 0 <= u * (D + B)) by (apply Rmult_le_pos; lra).
    assert (A1 : Rabs (e - d) <= 100 * (u * (D + B))) by (eapply Rle_trans; [exact He|]; rewrite Rmult_assoc; apply Rmult_le_compat_l; [lra|apply Rmult_le_compat_l; lra]).
    assert (A2 : Rabs (e' - d') <= 100 * (u * (D + B))) by (eapply Rle_trans; [exact He'|]; rewrite Rmult_assoc; apply Rmult_le_compat_l; [lra|apply Rmult_le_compat_l; lra]).
    assert (Uq : u * (D + B) <= 1 / 10000 * (D + B)) by (apply Rmult_le_compat_r; lra).
    assert (A3 : Rabs ((e - e') - (d - d')) <= 200 * (u * (D + B))).
    { replace ((e - e') - (d - d')) with ((e - d) + - (e' - d')) by ring. eapply Rle_trans; [apply Rabs_triang|]. rewrite Rabs_Ropp. lra. }
    assert (A4 : Rabs (e - e') <= 102 / 100 * (D + B)).
    { pose proof (Rabs_upto _ _ _ A3) as X. assert (Rabs (d - d') <= D) by (apply Rabs_le; lra). lra. }
    assert (A5 : u * Rabs (e - e') <= 102 / 100 * (u * (D + B))) by (replace (102 / 100 * (u * (D + B))) with (u * (102 / 100 * (D + B))) by ring; apply Rmult_le_compat_l; auto).
    pose proof (fl_sub _ _ _ FL e e') as S1. change (@nsub R N e e') with (r_sub ar e e'). set (t := r_sub ar e e') in *.
    assert (T : Rabs (t - (d - d')) <= 20102 / 100 * (u * (D + B))).
    { replace (t - (d - d')) with ((t - (e - e')) + ((e - e') - (d - d'))) by ring. eapply Rle_trans; [apply Rabs_triang|]. lra. }
    assert (X : Rabs (@nabs R N t - Rabs t) <= u * Rabs t).
    { unfold nabs. change (@nleb R N n0 t) with (Rleb 0 t). destruct (Rleb 0 t) eqn:L.
      - apply Rleb_true in L. rewrite (Rabs_right t), Rminus_eq_0, Rabs_R0 by lra. apply Rmult_le_pos; lra.
      - apply Rleb_false in L. change (@nsub R N n0 t) with (r_sub ar 0 t). pose proof (fl_sub _ _ _ FL 0 t) as Z. rewrite Rminus_0_l in Z. rewrite Rabs_Ropp in Z. rewrite (Rabs_left t) in * by lra. exact Z. }
    assert (Y : Rabs (Rabs t - Rabs (d - d')) <= 20102 / 100 * (u * (D + B))) by (eapply Rle_trans; [apply Rabs_triang_inv2|exact T]).
    assert (Z : Rabs t <= 105 / 100 * (D + B)). { pose proof (Rabs_upto _ _ _ T) as Z. assert (Rabs (d - d') <= D) by (apply Rabs_le; lra). lra. }
    assert (u * Rabs t <= 105 / 100 * (u * (D + B))) by (replace (105 / 100 * (u * (D + B))) with (u * (105 / 100 * (D + B))) by ring; apply Rmult_le_compat_l; auto).
    replace (@nabs R N t - Rabs (d - d')) with ((@nabs R N t - Rabs t) + (Rabs t - Rabs (d - d'))) by ring. eapply Rle_trans; [apply Rabs_triang|]. lra.
  Qed.

  Lemma fold_max_r : forall l a tol, fold_left (fun s x : R => @nmax R N s x) l a <= tol <-> a <= tol /\ Forall (fun x => x <= tol) l.
  Proof.
    induction l as [|b l IH]; intros a tol; simpl; [intuition|]. rewrite IH.
    assert (E : @nmax R N a b = Rmax a b). { unfold nmax. change (@nleb R N) with Rleb. unfold Rmax. destruct (Rle_dec a b) as [L|L]; destruct (Rleb a b) eqn:F; auto; [apply Rleb_false in F; lra|apply Rleb_true in F; lra]. }
    rewrite E. split.
    - intros [H1 H2]. pose proof (Rmax_l a b). pose proof (Rmax_r a b). split; [lra|]. constructor; auto. lra.
    - intros [H1 H2]. inversion H2; subst. split; auto. apply Rmax_lub; auto.
  Qed.

  Lemma cheb_rounded : forall ds ds' es es' tol, length ds = length ds' -> Forall (fun d => 0 <= d <= D) ds -> Forall (fun d => 0 <= d <= D) ds' ->
    Forall2 (fun d e => Rabs (e - d) <= 100 * u * (d + B)) ds es -> Forall2 (fun d e => Rabs (e - d) <= 100 * u * (d + B)) ds' es' -> mg <= tol ->
    (close_rows (tol - mg) ds ds' \/ (exists j, (j < length ds)%nat /\ tol + mg < Rabs (nth j ds 0 - nth j ds' 0))) ->
    @nleb R N (@cheb R N es es') tol = nleb (cheb ds ds') tol.
  Proof.
    intros ds ds' es es' tol Hl Hd Hd' F F' Ht Hc. pose proof (F2_len _ _ _ _ _ F) as L1. pose proof (F2_len _ _ _ _ _ F') as L2.
    assert (m0 : 0 <= mg) by (unfold mg; apply Rmult_le_pos; [lra|lra]).
    assert (EN : forall j, (j < length ds)%nat -> Rabs (@nabs R N (@nsub R N (nth j es 0) (nth j es' 0)) - Rabs (nth j ds 0 - nth j ds' 0)) <= mg).
    { intros j Hj. rewrite Forall_forall in Hd, Hd'. apply abs_entry; [apply Hd, nth_In; auto|apply Hd', nth_In; lia|apply (F2_nth _ _ _ _ _ 0 0 F); auto|apply (F2_nth _ _ _ _ _ 0 0 F'); lia]. }
    assert (NE : forall l, Forall (fun x => x <= tol) l -> forall i, (i < length l)%nat -> nth i l 0 <= tol) by (intros l H i Hi; rewrite Forall_forall in H; apply H, nth_In; auto).
    change (@nleb R N) with Rleb. change (@nleb R NumR) with Rleb.
    destruct Hc as [Hc|(j & Hj & Hc)].
    - transitivity true; [apply Rleb_true|symmetry; apply Rleb_true].
      + unfold cheb. apply fold_max_r. split; [change (@n0 R N) with 0; lra|]. apply Forall_forall. intros x Hx. apply (In_nth _ _ 0) in Hx as (j & Hj & <-).
        rewrite map2_length_eq in Hj by lia. rewrite (map2_nth _ _ _ _ _ _ _ 0 0) by lia.
        specialize (EN j ltac:(lia)). specialize (Hc j ltac:(lia)). pose proof (Rle_abs (@nabs R N (@nsub R N (nth j es 0) (nth j es' 0)) - Rabs (nth j ds 0 - nth j ds' 0))). lra.
      + apply cheb_le; auto. split; [lra|]. intros j Hj. specialize (Hc j Hj). lra.
    - transitivity false; [apply Rleb_false|symmetry; apply Rleb_false]; apply Rnot_le_lt; intros C.
      + unfold cheb in C. apply fold_max_r in C as [_ C]. specialize (NE _ C j). rewrite map2_length_eq in NE by lia. rewrite (map2_nth _ _ _ _ _ _ _ 0 0) in NE by lia. specialize (NE ltac:(lia)). specialize (EN j Hj).
        pose proof (Rle_abs (- (@nabs R N (@nsub R N (nth j es 0) (nth j es' 0)) - Rabs (nth j ds 0 - nth j ds' 0)))) as X. rewrite Rabs_Ropp in X. lra.
      + apply cheb_le in C as [_ C]; auto. specialize (C j Hj). lra.
  Qed.
End Cheb.

Lemma F2_map_seq : forall A B (P : A -> B -> Prop) f g s n, (forall j, (j < s + n)%nat -> P (f j) (g j)) -> Forall2 P (map f (seq s n)) (map g (seq s n)).
Proof. intros A B P f g s n. revert s. induction n as [|n IH]; intros s H; cbn; constructor; [apply H; lia|]. apply IH. intros j Hj. apply H. lia. Qed.

(** ** Weights and means of groups *)
Section Group.
  Variables (ar : arith) (u eta B : R) (M : nat).
  Hypothesis FL : float_like u eta ar.
  Hypothesis Hu : u <= 1 / 10000.
  Hypothesis HB : 0 <= B.
  Hypothesis He1 : eta <= u * B.
  Hypothesis HM : INR M * u <= 1 / 100.
  Let u0 : 0 <= u := fl_u _ _ _ FL.
  Notation N := (num_of ar).

  Definition near_row (ds es : list R) : Prop := Forall2 (fun d e => Rabs (e - d) <= 100 * u * (d + B)) ds es.

  Lemma group_weight : forall (w w' : list R) g, (length g <= M)%nat ->
    (forall i, In i g -> 0 <= nth i w 0 /\ Rabs (nth i w' 0 - nth i w 0) <= 5 * u * nth i w 0) ->
    Rabs (@nsum R N (map (fun i => nth i w' (@n0 R N)) g) - nsum (map (fun i => nth i w n0) g)) <= (5 + 2 * INR M) * u * nsum (map (fun i => nth i w n0) g).
  Proof.
    intros w w' g Hg H. rewrite nsum_rsum. change (@n0 R N) with 0. change (@n0 R NumR) with 0. change (@nsum R N) with (r_sum ar).
    pose proof (sum_any ar u eta M FL Hu HM nat (fun i => nth i w' 0) (fun i => nth i w 0) (fun i => nth i w 0) 5 g (r_sum ar (map (fun i => nth i w' 0) g)) ltac:(lra) Hg) as X.
    eapply Rle_trans; [apply X; [|apply (fl_sum _ _ _ FL)]|].
    - intros i Hi. destruct (H i Hi). split; auto. rewrite Rabs_right; lra.
    - apply Rmult_le_compat_r.
      + apply rsum_nonneg. apply Forall_forall. intros y Hy. apply in_map_iff in Hy as (i & <- & Hi). apply H; auto.
      + apply Rmult_le_compat_r; auto. pose proof (le_INR _ _ Hg). pose proof (pos_INR (length g)). lra.
  Qed.

  (** A rounded quotient of a rounded sum and a rounded number of terms. *)
  Lemma quotient_error : forall s' a n, 0 <= a -> (1 <= n <= M)%nat ->
    Rabs (s' - a * INR n) <= (100 * u + 103 / 100 * (INR n * u)) * ((a + B) * INR n) ->
    Rabs (r_div ar s' (r_ofZ ar (Z.of_nat n)) - a) <= (110 + 3 * INR M) * u * (a + B).
  Proof.
    intros s' a n Ha Hn HN. pose proof (w_error ar u eta FL n) as HD. set (W' := r_ofZ ar (Z.of_nat n)) in *. assert (HW : 1 <= INR n) by (apply (le_INR 1); lia).
    assert (Hnm : INR n <= INR M) by (apply le_INR; lia). set (W := INR n) in *. set (m := INR M) in *. set (v := W * u) in *.
    assert (Hv : 0 <= v) by (apply Rmult_le_pos; lra). assert (Hvm : v <= m * u) by (unfold v; apply Rmult_le_compat_r; auto). set (q := a + B) in *. assert (Hq : 0 <= q) by (unfold q; lra).
    clearbody W' W m. assert (HW' : (1 - u) * W <= W'). { pose proof (Rle_abs (- (W' - W))) as X. rewrite Rabs_Ropp in X. lra. }
    assert (HW0 : 0 < W') by (assert (0 <= (1 - 1 / 10000 - (1 - u)) * -1 * W) by (apply Rmult_le_pos; lra); lra).
    assert (QE : Rabs (s' / W' - a) <= (102 * u + 105 / 100 * v) * q).
    { replace (s' / W' - a) with (((s' - a * W) - a * (W' - W)) * / W') by (field; lra). rewrite Rabs_mult, (Rabs_right (/ W')) by (apply Rle_ge; left; apply Rinv_0_lt_compat; auto).
      apply (Rmult_le_reg_r W'); auto. rewrite Rmult_assoc, Rinv_l, Rmult_1_r by lra.
      assert (A1 : Rabs ((s' - a * W) - a * (W' - W)) <= (101 * u + 103 / 100 * v) * (q * W)).
      { unfold Rminus at 1. eapply Rle_trans; [apply Rabs_triang|]. rewrite Rabs_Ropp, Rabs_mult, (Rabs_right a) by lra.
        assert (a * Rabs (W' - W) <= a * (u * W)) by (apply Rmult_le_compat_l; auto).
        assert (a * (u * W) <= q * (u * W)) by (apply Rmult_le_compat_r; [apply Rmult_le_pos; lra|unfold q; lra]). lra. }
      eapply Rle_trans; [exact A1|].
      assert (A2 : (102 * u + 105 / 100 * v) * q * ((1 - u) * W) <= (102 * u + 105 / 100 * v) * q * W') by (apply Rmult_le_compat_l; [apply Rmult_le_pos; lra|auto]).
      eapply Rle_trans; [|exact A2].
      replace ((102 * u + 105 / 100 * v) * q * ((1 - u) * W)) with (((102 * u + 105 / 100 * v) * (1 - u)) * (q * W)) by ring.
      apply Rmult_le_compat_r; [apply Rmult_le_pos; lra|].
      assert ((102 * u + 105 / 100 * v) * (1 - 1 / 10000) <= (102 * u + 105 / 100 * v) * (1 - u)) by (apply Rmult_le_compat_l; lra). lra. }
    assert (C1 : 1 / 2 <= W') by (assert (1 / 2 * W <= (1 - u) * W) by (apply Rmult_le_compat_r; lra); lra).
    assert (C2 : u * W' <= 1).
    { assert (u * W' <= u * (2 * W)) by (apply Rmult_le_compat_l; auto; pose proof (Rle_abs (W' - W)) as X; assert (u * W <= 1 * W) by (apply Rmult_le_compat_r; lra); lra). unfold v in Hvm. lra. }
    pose proof (fl_div _ _ _ FL s' W' C1 C2) as DV. replace (r_div ar s' W' - a) with ((r_div ar s' W' - s' / W') + (s' / W' - a)) by ring. eapply Rle_trans; [apply Rabs_triang|].
    pose proof (Rabs_upto _ _ _ QE) as X. rewrite (Rabs_right a) in X by lra.
    assert (X2 : Rabs (s' / W') <= 104 / 100 * q).
    { assert ((102 * u + 105 / 100 * v) * q <= 4 / 100 * q) by (apply Rmult_le_compat_r; lra). unfold q in *. lra. }
    assert (u * Rabs (s' / W') <= u * (104 / 100 * q)) by (apply Rmult_le_compat_l; auto). assert (u * B <= u * q) by (apply Rmult_le_compat_l; auto; unfold q; lra).
    assert (v * q <= (m * u) * q) by (apply Rmult_le_compat_r; auto). assert (0 <= v * q) by (apply Rmult_le_pos; auto). assert (0 <= u * q) by (apply Rmult_le_pos; auto). lra.
  Qed.

  Lemma group_mean : forall kk (rows rows' : list (list R)), rows <> [] -> (length rows <= M)%nat -> Forall (fun r => length r = kk /\ Forall (fun d => 0 <= d) r) rows -> Forall2 near_row rows rows' ->
    Forall2 (fun a c => Rabs (c - a) <= (110 + 3 * INR M) * u * (a + B)) (average_rows rows) (@average_rows R N rows').
  Proof.
    intros kk rows rows' Hne HL Hr F.
    assert (Hk : Forall (fun r => length r = kk) rows) by (eapply Forall_impl; [|exact Hr]; intros r [? _]; auto).
    assert (Hk' : Forall (fun r => length r = kk) rows').
    { clear - F Hk. induction F as [|r r' rows rows' H F IH]; constructor; inversion Hk; subst; auto. symmetry. apply (F2_len _ _ _ _ _ H). }
    rewrite (average_rows_spec rows kk Hne Hk). pose proof (F2_len _ _ _ _ _ F) as LF.
    assert (EA : @average_rows R N rows' = map (fun j => r_div ar (r_sum ar (@col_of R N j rows')) (r_ofZ ar (Z.of_nat (length rows)))) (seq 0 kk)).
    { rewrite LF. destruct rows' as [|r' t']; [destruct rows; [congruence|discriminate]|]. unfold average_rows. inversion Hk'. subst. reflexivity. }
    rewrite EA. apply F2_map_seq. intros j Hj. cbn [Nat.add] in Hj.
    assert (Lc : length (combine rows rows') = length rows) by (rewrite combine_length; lia).
    assert (NN : forall x, In x rows -> 0 <= nth j x 0).
    { intros x Hx. rewrite Forall_forall in Hr. destruct (Hr x Hx) as [Lx Nx]. rewrite Forall_forall in Nx. apply Nx, nth_In. lia. }
    pose proof (sum_any ar u eta M FL Hu HM (list R * list R) (fun x => nth j (snd x) 0) (fun x => nth j (fst x) 0) (fun x => nth j (fst x) 0 + B) 100 (combine rows rows') (r_sum ar (@col_of R N j rows')) ltac:(lra)) as X.
    rewrite Lc in X. specialize (X HL).
    assert (X3 : forall a, In a (combine rows rows') -> Rabs (nth j (snd a) 0 - nth j (fst a) 0) <= 100 * u * (nth j (fst a) 0 + B) /\ Rabs (nth j (fst a) 0) <= nth j (fst a) 0 + B).
    { intros [x x'] I. cbn [fst snd]. pose proof (F2_in _ _ _ _ _ F x x' I) as Y. apply in_combine_l in I. assert (0 <= nth j x 0) by (apply NN; auto). split.
      - apply (F2_nth _ _ _ _ _ 0 0 Y). rewrite Forall_forall in Hk. rewrite (Hk x I). auto.
      - rewrite Rabs_right; lra. }
    specialize (X X3).
    assert (E1 : map (fun x : list R * list R => nth j (snd x) 0) (combine rows rows') = @col_of R N j rows').
    { clear - LF. revert rows' LF. induction rows as [|y l IH]; intros [|y' l'] LF; cbn in *; try lia; auto. f_equal. apply IH. lia. }
    rewrite E1 in X. specialize (X (fl_sum _ _ _ FL _)).
    assert (E2 : map (fun x : list R * list R => nth j (fst x) 0) (combine rows rows') = map (fun x => nth j x 0) rows).
    { clear - LF. revert rows' LF. induction rows as [|y l IH]; intros [|y' l'] LF; cbn in *; try lia; auto. f_equal. apply IH. lia. }
    assert (E3 : rsum (map (fun x : list R * list R => nth j (fst x) 0 + B) (combine rows rows')) = rsum (map (fun x => nth j x 0) rows) + INR (length rows) * B).
    { rewrite <- E2, <- Lc. generalize (combine rows rows') as l. clear. induction l as [|y l IH]; [cbn; lra|]. cbn [map length]. unfold rsum in *. cbn [fold_right]. rewrite S_INR, IH. ring. }
    rewrite E2, E3 in X. set (a := mean rows j). assert (Ln : (1 <= length rows)%nat) by (destruct rows; [congruence|cbn; lia]).
    assert (Ea : rsum (map (fun x => nth j x 0) rows) = a * INR (length rows)). { unfold a, mean. field. apply not_0_INR. lia. }
    rewrite Ea in X.
    assert (Ha : 0 <= a). { unfold a, mean. apply Rmult_le_pos; [apply rsum_nonneg, Forall_forall; intros y Hy; apply in_map_iff in Hy as (z & <- & Hz); auto|]. left. apply Rinv_0_lt_compat. apply lt_0_INR. lia. }
    apply quotient_error; auto. eapply Rle_trans; [exact X|]. right. ring.
  Qed.
End Group.

(** ** Collapsing and sorting *)
Lemma F2_map_in : forall A B C (P : B -> C -> Prop) (f : A -> B) (g : A -> C) l, (forall a, In a l -> P (f a) (g a)) -> Forall2 P (map f l) (map g l).
Proof. intros A B C P f g. induction l as [|a l IH]; intros H; cbn; constructor; [apply H; left; auto|]. apply IH. intros b Hb. apply H. right. auto. Qed.

Lemma in_concat_le : forall A (g : list A) gs, In g gs -> (length g <= length (concat gs))%nat.
Proof. intros A g gs. induction gs as [|h gs IH]; intros []; cbn; rewrite app_length; [subst; lia|]. specialize (IH H). lia. Qed.

Section Collapse.
  Variables (ar : arith) (u eta B D : R) (M : nat).
  Hypothesis FL : float_like u eta ar.
  Hypothesis Hu : u <= 1 / 10000.
  Hypothesis HB : 0 <= B.
  Hypothesis HD : 0 <= D.
  Hypothesis He1 : eta <= u * B.
  Hypothesis HM : INR M * u <= 1 / 100.
  Let u0 : 0 <= u := fl_u _ _ _ FL.
  Notation N := (num_of ar).
  Let mg := 203 * u * (D + B).

  Definition near_weight (a c : R) : Prop := Rabs (c - a) <= (5 + 2 * INR M) * u * a.
  Definition near_mean (ds es : list R) : Prop := Forall2 (fun a c => Rabs (c - a) <= (110 + 3 * INR M) * u * (a + B)) ds es.

  Definition apart_or_close (tol : R) (ds ds' : list R) : Prop :=
    close_rows (tol - mg) ds ds' \/ (exists j, (j < length ds)%nat /\ tol + mg < Rabs (nth j ds 0 - nth j ds' 0)).

  Lemma collapse_close : forall kk (w w' : list R) (d d' : list (list R)) collapse tol, length w = length d -> (length d <= M)%nat ->
    Forall (fun a => 0 <= a) w -> Forall2 (fun a c => Rabs (c - a) <= 5 * u * a) w w' ->
    Forall (fun r => length r = kk /\ Forall (fun x => 0 <= x <= D) r) d -> Forall2 (near_row u B) d d' ->
    (collapse = true -> mg <= tol /\ forall i j, (i < j < length d)%nat -> apart_or_close tol (nth i d []) (nth j d [])) ->
    exists W V W' V' G, collapse_rows w d collapse tol = (W, V, G) /\ @collapse_rows R N w' d' collapse tol = (W', V', G) /\
      length W = length G /\ length V = length G /\ Forall2 near_weight W W' /\ Forall2 near_mean V V'.
  Proof.
    intros kk w w' d d' collapse tol Lw LM Hw Fw Hd Fd Hc. pose proof (F2_len _ _ _ _ _ Fd) as Ld. pose proof (F2_len _ _ _ _ _ Fw) as Lw'.
    set (ov := fun i j => nleb (cheb (nth i d []) (nth j d [])) tol). set (ov' := fun i j => @nleb R N (@cheb R N (nth i d' []) (nth j d' [])) tol).
    assert (Lrow : forall i, (i < length d)%nat -> length (nth i d []) = kk /\ Forall (fun x => 0 <= x <= D) (nth i d [])) by (intros i Hi; rewrite Forall_forall in Hd; apply Hd, nth_In; auto).
    assert (OV : collapse = true -> condensed ov' (length d') = condensed ov (length d)).
    { intros C. destruct (Hc C) as [Ht HA]. rewrite <- Ld. unfold condensed. apply map_ext_in. intros [i j] I. apply pairs_In in I. unfold ov, ov'. cbn [fst snd].
      destruct (Lrow i ltac:(lia)) as [Li Di], (Lrow j ltac:(lia)) as [Lj Dj].
      pose proof (F2_nth _ _ _ _ _ [] [] Fd i ltac:(lia)) as Fi. pose proof (F2_nth _ _ _ _ _ [] [] Fd j ltac:(lia)) as Fj. cbv beta in Fi, Fj. unfold near_row in Fi, Fj.
      apply (cheb_rounded ar u eta B D FL Hu HB HD); [congruence|auto|auto|auto|auto|auto|apply HA; lia]. }
    unfold collapse_rows. fold ov. fold ov'.
    assert (EB : (collapse && existsb (fun b => b) (condensed ov' (length d')) = collapse && existsb (fun b => b) (condensed ov (length d)))%bool) by (destruct collapse; auto; rewrite OV by auto; auto).
    rewrite EB. destruct (collapse && existsb (fun b => b) (condensed ov (length d)))%bool eqn:EC.
    - apply andb_prop in EC as [EC _]. rewrite (OV EC), <- Ld. set (G := collapse_into_groups (length d) (condensed ov (length d))).
      destruct (groups_leader_partition (length d) (squareform false (length d) (condensed ov (length d)))) as [P1 P2 P3 P4 P5 P6]. change (build_groups _ _) with G in *.
      assert (GI : forall g, In g G -> g <> [] /\ (length g <= M)%nat /\ forall i, In i g -> (i < length d)%nat).
      { intros g Hg. split; [rewrite Forall_forall in P2; auto|]. split.
        - pose proof (in_concat_le _ _ _ Hg) as X. rewrite (Permutation_length P1), seq_length in X. lia.
        - intros i Hi. assert (X : In i (seq 0 (length d))) by (eapply Permutation_in; [exact P1|]; apply in_concat; eauto). apply in_seq in X. lia. }
      eexists _, _, _, _, G. split; [reflexivity|]. split; [reflexivity|]. split; [apply map_length|]. split; [apply map_length|]. split.
      + apply F2_map_in. intros g Hg. destruct (GI g Hg) as (Gn & Gl & Gi). unfold near_weight. apply (group_weight ar u eta M FL Hu HM); auto.
        intros i Hi. specialize (Gi i Hi). split; [rewrite Forall_forall in Hw; apply Hw, nth_In; lia|]. apply (F2_nth _ _ _ _ _ 0 0 Fw). lia.
      + apply F2_map_in. intros g Hg. destruct (GI g Hg) as (Gn & Gl & Gi). unfold near_mean. apply (group_mean ar u eta B M FL Hu HB He1 HM kk).
        * destruct g; [congruence|discriminate].
        * rewrite map_length. auto.
        * apply Forall_forall. intros r Hr. apply in_map_iff in Hr as (i & <- & Hi). destruct (Lrow i (Gi i Hi)) as [X Y]. split; auto. eapply Forall_impl; [|exact Y]. intros x Hx. apply Hx.
        * apply F2_map_in. intros i Hi. apply (F2_nth _ _ _ _ _ [] [] Fd). auto.
    - rewrite <- Ld. eexists _, _, _, _, _. split; [reflexivity|]. split; [reflexivity|]. rewrite map_length, seq_length. split; [auto|]. split; [auto|].
      pose proof (pos_INR M) as HM0. split.
      + clear - Fw Hw u0 HM0. induction Fw as [|a c w w' H Fw IH]; constructor; inversion Hw as [|? ? Ha Hw']; subst; auto. unfold near_weight. eapply Rle_trans; [exact H|]. apply Rmult_le_compat_r; auto. apply Rmult_le_compat_r; auto. lra.
      + clear - Fd Hd u0 HM0 HB. induction Fd as [|r r' d d' H Fd IH]; constructor; inversion Hd as [|? ? [_ Hr] Hd']; subst; auto. clear - H Hr u0 HM0 HB. unfold near_row, near_mean in *.
        induction H as [|a c r r' H F IH]; constructor; inversion Hr as [|? ? Ha Hr']; subst; auto. eapply Rle_trans; [exact H|]. apply Rmult_le_compat_r; [lra|]. apply Rmult_le_compat_r; auto. lra.
  Qed.
End Collapse.

(** The rows with their groups, in some order. *)
Lemma assemble_perm : forall (Nm : Num R) (W : list R) V (G : list (list nat)) lexsort, length W = length G -> length V = length G ->
  exists l, Permutation (combine (combine W V) G) l /\ (lexsort = false -> l = combine (combine W V) G) /\
    assemble (W, V, G) lexsort = (map fst l, map snd l).
Proof.
  intros Nm W V G lexsort L1 L2. unfold assemble. set (T := combine (combine W V) G).
  set (f := fun i => ((nth i W (@n0 R Nm), nth i V []), nth i G [])).
  assert (E : map f (seq 0 (length V)) = T).
  { apply (nth_ext _ _ ((@n0 R Nm, []), []) ((@n0 R Nm, []), [])); [unfold T; rewrite map_length, seq_length, !combine_length; lia|]. intros i Hi. rewrite map_length, seq_length in Hi.
    rewrite nth_map_seq by auto. unfold T. rewrite !combine_nth by (rewrite ?combine_length; lia). reflexivity. }
  set (o := if lexsort then lex_ordering V else seq 0 (length V)).
  exists (map f o). split; [|split].
  - rewrite <- E. apply Permutation_map. unfold o. destruct lexsort; [|auto]. apply isort_perm.
  - intros ->. unfold o. auto.
  - rewrite !map_map. reflexivity.
Qed.

Section Top.
  Variables (ar : arith) (u eta B D : R) (dims : nat) (ps : pset R).
  Hypothesis FL : float_like u eta ar.
  Hypothesis Hu : u <= 1 / 10000.
  Hypothesis Hwf : pset_wf dims ps.
  Hypothesis H4 : (dims <= 4)%nat.
  Hypothesis Hdom : half_dominant dims (ps_cell ps).
  Hypothesis Hin : spread dims (ps_cell ps) (ps_motif ps).
  Hypothesis HB : 0 <= B.
  Hypothesis He1 : eta <= u * B.
  Hypothesis He2 : eta <= (u * B) * (u * B).
  Hypothesis Hm : motif_within ar B (ps_motif ps).
  Hypothesis HM : INR (length (ps_motif ps)) * u <= 1 / 100.
  Hypothesis HeM : INR (length (ps_motif ps)) * eta <= u.
  Notation m := (length (ps_motif ps)).

  Theorem pdd_collapse_close : forall k fuel fuel' lexsort lexsort' collapse tol a g b g', distances_within dims (ps_motif ps) (ps_cell ps) (points_of ps) k D ->
    (collapse = true -> decided dims (ps_motif ps) (ps_cell ps) (points_of ps) k tol (203 * u * (D + B))) ->
    PDD fuel ps k lexsort collapse tol = Done (a, g) -> @PDD R (num_of ar) fuel' ps k lexsort' collapse tol = Done (b, g') ->
    exists L L', Permutation (combine a g) L /\ Permutation (combine b g') L' /\ (lexsort = false -> L = combine a g) /\ (lexsort' = false -> L' = combine b g') /\
      Forall2 (fun x y => snd y = snd x /\ Rabs (fst (fst y) - fst (fst x)) <= (5 + 2 * INR m) * u * fst (fst x) /\
        Forall2 (fun d e => Rabs (e - d) <= (110 + 3 * INR m) * u * (d + B)) (snd (fst x)) (snd (fst y))) L L'.
  Proof.
    intros k fuel fuel' lexsort lexsort' collapse tol a g b g' HD HC E E'. rewrite (PDD_run dims ps Hwf) in E.
    destruct (nearest_neighbors fuel (ps_motif ps) (ps_cell ps) (points_of ps) (S k)) as [rows| | |] eqn:En; try discriminate. cbn [obind] in E.
    unfold PDD in E'. rewrite (query_eq dims ps Hwf) in E'. cbn [obind] in E'.
    destruct (@nearest_neighbors R (num_of ar) fuel' (ps_motif ps) (ps_cell ps) (points_of ps) (S k)) as [rows'| | |] eqn:En'; try discriminate. cbn [obind] in E'.
    pose proof (rows_close ar u eta B dims ps FL Hu Hwf H4 Hdom (spread_rounded _ _ _ _ _ _ FL Hin) HB He1 He2 Hm Hin k fuel fuel' rows rows' En En') as RC. pose proof (F2_len _ _ _ _ _ RC) as LR.
    destruct (nn_rows_ok dims ps Hwf fuel k rows En) as [Lr Hr]. pose proof (points_length _ _ Hwf) as PL.
    assert (Hmp : (1 <= m)%nat) by (apply INR_lt; exact (motif_pos dims ps Hwf)). pose proof (wf_pos _ _ Hwf) as WP. pose proof (fl_u _ _ _ FL) as u0. pose proof (fl_eta _ _ _ FL) as e0.
    assert (M1 : 1 <= INR m) by (apply (le_INR 1); auto).
    pose proof (C05_rows_are_nearest dims _ _ _ k fuel rows (wf_ok _ _ Hwf) H4 Hin (points_incl _ _ Hwf) (points_nonempty _ _ Hwf) En) as ND.
    assert (TL : forall l j, nth j (@tl R l) 0 = nth (S j) l 0) by (intros [|y l] [|j]; cbn; auto).
    assert (NDi : forall i, (i < length rows)%nat -> nearest_distances dims (ps_motif ps) (ps_cell ps) (nth i (points_of ps) []) (S k) (nth i rows [])) by (intros i Hi; apply (F2_nth _ _ _ _ _ [] [] ND); lia).
    assert (D0 : 0 <= D).
    { pose proof (points_nonempty _ _ Hwf) as NE. assert (L0 : (0 < length rows)%nat) by (destruct (points_of ps); [congruence|cbn in Lr; lia]). rewrite Forall_forall in Hr. destruct (Hr (nth 0 rows []) ltac:(apply nth_In; auto)) as (Z1 & Z2 & Z3 & _).
      pose proof (HD (nth 0 (points_of ps) []) (nth 0 rows []) ltac:(apply nth_In; lia) (NDi 0%nat L0)) as Y. destruct (nth 0 rows []) as [|y l]; [discriminate|]. inversion Y; subst. inversion Z3; subst. lra. }
    assert (Lm : (length rows <= m)%nat).
    { rewrite Lr, PL, <- (wf_sum _ _ Hwf). clear - WP. unfold list_sum. induction WP as [|c l Hc WP IH]; cbn in *; lia. }
    set (w' := map (fun c => r_div ar (r_ofZ ar (Z.of_nat c)) (r_ofZ ar (Z.of_nat m))) (counts_of ps)).
    assert (Ea : forall A (p q : A), Done p = Done q -> p = q) by (intros A p q Z; injection Z; auto).
    apply Ea in E. apply Ea in E'.
    match type of E' with assemble (collapse_rows ?z _ _ _) _ = _ => change z with w' in E' end.
    destruct (collapse_close ar u eta B D m FL Hu HB D0 He1 HM k (weights_of ps) w' (map (@tl R) rows) (map (@tl R) rows') collapse tol) as (W & V & W' & V' & G & C1 & C2 & L1 & L2 & F1 & F2).
    { rewrite (weights_length _ _ Hwf), map_length. lia. }
    { rewrite map_length. auto. }
    { eapply Forall_impl; [|apply (weights_pos _ _ Hwf)]. intros z Hz. cbv beta in Hz. lra. }
    { unfold weights_of, w'. apply F2_map_in. intros c Hc. rewrite Forall_forall in WP. specialize (WP c Hc). pose proof (weight_error ar u eta FL Hu c m WP Hmp HM) as X. eapply Rle_trans; [exact X|].
      assert (C1 : 1 <= INR c) by (apply (le_INR 1); auto). assert (Y : eta <= u * (INR c / INR m)); [|lra].
      apply (Rmult_le_reg_r (INR m)); [lra|]. replace (u * (INR c / INR m) * INR m) with (u * INR c) by (field; lra). assert (u * 1 <= u * INR c) by (apply Rmult_le_compat_l; lra). lra. }
    { apply Forall_forall. intros r Hrr. apply in_map_iff in Hrr as (r0 & <- & I). apply (In_nth _ _ []) in I as (i & Hi & Ei). rewrite Forall_forall in Hr. destruct (Hr r0) as (Z1 & Z2 & Z3 & _); [rewrite <- Ei; apply nth_In; auto|].
      pose proof (HD _ _ ltac:(apply nth_In; rewrite <- Lr; exact Hi) (NDi i Hi)) as Y. rewrite Ei in Y. destruct r0 as [|y l]; [discriminate|]. cbn in *. inversion Y; subst. inversion Z3; subst. split; [lia|]. apply Forall_forall. intros z Hz. rewrite Forall_forall in *. split; auto. }
    { clear - RC. induction RC as [|r r' rows rows' H RC IH]; cbn; constructor; auto. unfold near_row, close_rows_of in *. destruct H; cbn; auto. }
    { intros C. destruct (HC C) as [Q1 Q2]. split; auto. rewrite map_length. intros i j Hij. rewrite !(map_nth (@tl R) rows []).
      assert (Li : length (nth i rows []) = S k) by (rewrite Forall_forall in Hr; apply Hr, nth_In; lia). assert (Lj : length (nth j rows []) = S k) by (rewrite Forall_forall in Hr; apply Hr, nth_In; lia).
      assert (Lt : length (tl (nth i rows [])) = k) by (destruct (nth i rows []); cbn in *; lia).
      destruct (Q2 i j _ _ ltac:(lia) (NDi i ltac:(lia)) (NDi j ltac:(lia))) as [Q|(l & Hl & Q)].
      - left. intros l Hl. rewrite Lt in Hl. rewrite !TL. apply Q. lia.
      - right. exists (l - 1)%nat. rewrite Lt. split; [lia|]. rewrite !TL. replace (S (l - 1)) with l by lia. auto. }
    rewrite C1 in E. rewrite C2 in E'. pose proof (F2_len _ _ _ _ _ F1) as L3. pose proof (F2_len _ _ _ _ _ F2) as L4.
    destruct (assemble_perm NumR W V G lexsort L1 L2) as (l & P1 & P2 & P3). destruct (assemble_perm (num_of ar) W' V' G lexsort' ltac:(lia) ltac:(lia)) as (l' & P1' & P2' & P3').
    rewrite P3 in E. rewrite P3' in E'. injection E as <- <-. injection E' as <- <-.
    assert (CB : forall A A' (z : list (A * A')), combine (map fst z) (map snd z) = z) by (intros A A' z; induction z as [|[x y] z IH]; cbn; f_equal; auto).
    rewrite !CB. exists (combine (combine W V) G), (combine (combine W' V') G). split; [symmetry; auto|]. split; [symmetry; auto|]. split; [intros Z; symmetry; auto|]. split; [intros Z; symmetry; auto|].
    clear - F1 F2 L1 L2. unfold near_weight, near_mean in *. revert V V' F2 G L1 L2. induction F1 as [|x y W W' H F1 IH]; intros V V' F2 G L1 L2; destruct G as [|g0 G]; try discriminate; cbn in *; [constructor|].
    destruct F2 as [|v v' V V' Hv F2]; [discriminate|]. cbn. constructor; [cbn; auto|]. apply IH; auto.
  Qed.
End Top.
