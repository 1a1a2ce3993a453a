(** Lemmas for C83: the rounding errors of [cellpar_to_cell]. *)
From Coq Require Import List ZArith Arith Bool Lia Reals Lra Psatz.
From Verif Require Import Num Base SpecGeom SpecCell SpecDeform Outcome NNModel UtilsModel RoundModel SpecRound RoundSum RoundBinary SpecRoundCell RoundCellModel.
Import ListNotations.
Open Scope R_scope.

(** ** Lipschitz bounds of cosine and sine *)
Lemma cos_lip : forall x y, Rabs (cos x - cos y) <= Rabs (x - y).
Proof.
  assert (H : forall x y, x < y -> Rabs (cos x - cos y) <= y - x).
  { intros x y L. destruct (MVT_cor2 cos (fun t => - sin t) x y L) as (c & E & _); [intros; apply derivable_pt_lim_cos|].
    replace (cos x - cos y) with (sin c * (y - x)) by lra. rewrite Rabs_mult, (Rabs_right (y - x)) by lra.
    assert (Rabs (sin c) <= 1) by (apply Rabs_le; pose proof (SIN_bound c); lra). nra. }
  intros x y. destruct (Rtotal_order x y) as [L|[->|L]].
  - rewrite (Rabs_left (x - y)) by lra. specialize (H x y L). lra.
  - rewrite Rminus_eq_0, Rabs_R0. rewrite Rminus_eq_0, Rabs_R0. lra.
  - rewrite (Rabs_right (x - y)) by lra. rewrite Rabs_minus_sym. apply H. lra.
Qed.
Lemma sin_lip : forall x y, Rabs (sin x - sin y) <= Rabs (x - y).
Proof. intros x y. rewrite <- !cos_shift. eapply Rle_trans; [apply cos_lip|]. right. rewrite Rabs_minus_sym. f_equal. lra. Qed.

Lemma PI_small : 3 < PI < 17 / 5.
Proof.
  split; [pose proof PI2_3_2; lra|]. pose proof (PI_ineq 2) as [_ H]. unfold tg_alt, PI_tg in H. simpl in H. lra.
Qed.

Lemma cos_90 : cos (90 * PI / 180) = 0.
Proof. replace (90 * PI / 180) with (PI / 2) by lra. apply cos_PI2. Qed.
Lemma sin_90 : sin (90 * PI / 180) = 1.
Proof. replace (90 * PI / 180) with (PI / 2) by lra. apply sin_PI2. Qed.

Section Trig.
  Variables (ar : arith) (u eta : R) (rdeg rcos rsin : R -> R).
  Hypothesis FL : float_like u eta ar.
  Hypothesis TG : trig_like u rdeg rcos rsin.
  Hypothesis U : u64 <= u <= 1 / 100.

  (** A difference from a right angle which is rounded to less than [eps]. *)
  Lemma near_right : forall x d, Rabs (d - (x - 90)) <= u * Rabs (x - 90) -> Rabs d < eps -> Rabs (x * PI / 180 - 90 * PI / 180) <= 12 * u.
  Proof.
    intros x d Hd He. assert (B : Rabs (x - 90) <= 2 * eps).
    { assert (Rabs (x - 90) <= Rabs d + u * Rabs (x - 90)) by (replace (x - 90) with (d - (d - (x - 90))) at 1 by lra; eapply Rle_trans; [apply Rabs_triang|]; rewrite Rabs_Ropp; lra).
      pose proof (Rabs_pos (x - 90)). nra. }
    replace (x * PI / 180 - 90 * PI / 180) with ((x - 90) * (PI / 180)) by lra. pose proof PI_small as P. rewrite Rabs_mult, (Rabs_right (PI / 180)) by lra.
    apply Rle_trans with (2 * eps * (PI / 180)); [apply Rmult_le_compat_r; lra|].
    assert (E : eps = 256 * u64) by (unfold eps, u64; simpl; field). rewrite E. pose proof (Rabs_pos (x - 90)). nra.
  Qed.
  Lemma r_cos_err : forall x, 0 <= x <= 180 -> Rabs (r_cos_deg ar rdeg rcos x - cos (x * PI / 180)) <= 12 * u.
  Proof.
    intros x Hx. unfold r_cos_deg. rewrite (Rabs_right x) by lra. destruct (Rltb _ eps) eqn:B.
    - apply Rltb_true in B. rewrite <- cos_90 at 1. eapply Rle_trans; [apply cos_lip|]. rewrite Rabs_minus_sym. apply (near_right x (r_sub ar x 90)); auto. apply (fl_sub _ _ _ FL).
    - replace (rcos (rdeg x) - cos (x * PI / 180)) with ((rcos (rdeg x) - cos (rdeg x)) + (cos (rdeg x) - cos (x * PI / 180))) by lra.
      eapply Rle_trans; [apply Rabs_triang|]. pose proof (tg_cos _ _ _ _ TG (rdeg x)). pose proof (tg_deg _ _ _ _ TG x Hx). pose proof (cos_lip (rdeg x) (x * PI / 180)). lra.
  Qed.
  Lemma r_sin_err : forall x, 0 <= x <= 180 -> Rabs (r_sin_deg ar rdeg rsin x - sin (x * PI / 180)) <= 12 * u.
  Proof.
    intros x Hx. unfold r_sin_deg. destruct (Rltb _ eps) eqn:B.
    - apply Rltb_true in B. rewrite <- sin_90 at 1. eapply Rle_trans; [apply sin_lip|]. rewrite Rabs_minus_sym. apply (near_right x (r_sub ar x 90)); auto. apply (fl_sub _ _ _ FL).
    - destruct (Rltb (Rabs (r_add ar x 90)) eps) eqn:C.
      + exfalso. apply Rltb_true in C. pose proof (fl_add _ _ _ FL x 90) as A. rewrite (Rabs_right (x + 90)) in A by lra. apply Rabs_le_both in A. apply Rabs_def2 in C.
        assert (eps < 1) by (unfold eps; simpl; lra). nra.
      + replace (rsin (rdeg x) - sin (x * PI / 180)) with ((rsin (rdeg x) - sin (rdeg x)) + (sin (rdeg x) - sin (x * PI / 180))) by lra.
        eapply Rle_trans; [apply Rabs_triang|]. pose proof (tg_sin _ _ _ _ TG (rdeg x)). pose proof (tg_deg _ _ _ _ TG x Hx). pose proof (sin_lip (rdeg x) (x * PI / 180)). lra.
  Qed.
End Trig.

(** ** The entries of the cell *)
Lemma Rabs_prod : forall x y x' y' dx dy, Rabs x <= 1 -> Rabs y <= 1 -> Rabs (x' - x) <= dx -> Rabs (y' - y) <= dy -> Rabs (x' * y' - x * y) <= dx + dy + dx * dy.
Proof.
  intros x y x' y' dx dy X Y DX DY. replace (x' * y' - x * y) with ((x' - x) * y + x * (y' - y) + (x' - x) * (y' - y)) by ring.
  eapply Rle_trans; [apply Rabs_triang|]. eapply Rle_trans; [apply Rplus_le_compat_r, Rabs_triang|]. rewrite !Rabs_mult. pose proof (Rabs_pos x). pose proof (Rabs_pos y). pose proof (Rabs_pos (x' - x)). pose proof (Rabs_pos (y' - y)).
  assert (Rabs (x' - x) * Rabs y <= dx * 1) by (apply Rmult_le_compat; auto). assert (Rabs x * Rabs (y' - y) <= 1 * dy) by (apply Rmult_le_compat; auto). assert (Rabs (x' - x) * Rabs (y' - y) <= dx * dy) by (apply Rmult_le_compat; auto). lra.
Qed.

Section Entries.
  Variables (ar : arith) (u eta e : R).
  Hypothesis FL : float_like u eta ar.
  Hypothesis He : 0 <= e <= 1 / 10000.
  Hypothesis Hu : u <= e.
  Hypothesis Heta : eta <= e / 10.

  Lemma upos : 0 <= u. Proof. exact (fl_u _ _ _ FL). Qed.

  (** A computed value near [x], and the operation that gave it. *)
  Lemma mul_err : forall x y x' y' dx dy, Rabs x <= 1 -> Rabs y <= 1 -> Rabs (x' - x) <= dx -> Rabs (y' - y) <= dy ->
    Rabs (r_mul ar x' y' - x * y) <= dx + dy + dx * dy + e * (1 + dx + dy + dx * dy) + e / 10.
  Proof.
    intros x y x' y' dx dy X Y DX DY. pose proof (Rabs_prod _ _ _ _ _ _ X Y DX DY) as P. pose proof (fl_mul _ _ _ FL x' y') as M. pose proof upos.
    assert (B : Rabs (x' * y') <= 1 + (dx + dy + dx * dy)).
    { replace (x' * y') with (x * y + (x' * y' - x * y)) by ring. eapply Rle_trans; [apply Rabs_triang|]. rewrite (Rabs_mult x y). pose proof (Rabs_pos x). pose proof (Rabs_pos y).
      assert (Rabs x * Rabs y <= 1 * 1) by (apply Rmult_le_compat; auto). lra. }
    assert (u * Rabs (x' * y') <= e * (1 + (dx + dy + dx * dy))) by (apply Rmult_le_compat; auto; apply Rabs_pos).
    replace (r_mul ar x' y' - x * y) with ((r_mul ar x' y' - x' * y') + (x' * y' - x * y)) by ring. eapply Rle_trans; [apply Rabs_triang|]. lra.
  Qed.
  Lemma sub_err : forall x y x' y' dx dy, Rabs (x' - x) <= dx -> Rabs (y' - y) <= dy ->
    Rabs (r_sub ar x' y' - (x - y)) <= dx + dy + e * (Rabs (x - y) + dx + dy).
  Proof.
    intros x y x' y' dx dy DX DY. pose proof (fl_sub _ _ _ FL x' y') as M. pose proof upos.
    assert (D : Rabs ((x' - y') - (x - y)) <= dx + dy) by (apply Rabs_le_both in DX; apply Rabs_le_both in DY; apply Rabs_le; lra).
    assert (B : Rabs (x' - y') <= Rabs (x - y) + (dx + dy)) by (replace (x' - y') with ((x - y) + ((x' - y') - (x - y))) by ring; eapply Rle_trans; [apply Rabs_triang|]; lra).
    assert (u * Rabs (x' - y') <= e * (Rabs (x - y) + (dx + dy))) by (apply Rmult_le_compat; auto; apply Rabs_pos).
    replace (r_sub ar x' y' - (x - y)) with ((r_sub ar x' y' - (x' - y')) + ((x' - y') - (x - y))) by ring. eapply Rle_trans; [apply Rabs_triang|]. lra.
  Qed.

  Variables (ca cb cg sg ca' cb' cg' sg' : R).
  Hypothesis Ca : Rabs ca <= 1.
  Hypothesis Cb : Rabs cb <= 1.
  Hypothesis Cg : Rabs cg <= 1.
  Hypothesis Sg : 4 / 5 <= sg <= 1.
  Hypothesis Ea : Rabs (ca' - ca) <= e.
  Hypothesis Eb : Rabs (cb' - cb) <= e.
  Hypothesis Eg : Rabs (cg' - cg) <= e.
  Hypothesis Es : Rabs (sg' - sg) <= e.
  Let cy := (ca - cb * cg) / sg.
  Let cz2 := 1 - cb * cb - cy * cy.
  Hypothesis Cz : 16 / 25 <= cz2.
  Let cy' := r_div ar (r_sub ar ca' (r_mul ar cb' cg')) sg'.
  Let cz2' := r_sub ar (r_sub ar 1 (r_mul ar cb' cb')) (r_mul ar cy' cy').

  Lemma cy_le : Rabs cy <= 1.
  Proof. assert (cy * cy <= 1) by (unfold cz2 in Cz; nra). apply Rabs_le. nra. Qed.

  Lemma num_err : Rabs (r_sub ar ca' (r_mul ar cb' cg') - (ca - cb * cg)) <= 63 / 10 * e.
  Proof.
    pose proof (mul_err _ _ _ _ _ _ Cb Cg Eb Eg) as M.
    assert (M' : Rabs (r_mul ar cb' cg' - cb * cg) <= 311 / 100 * e) by (eapply Rle_trans; [exact M|nra]).
    pose proof (sub_err _ _ _ _ _ _ Ea M') as S.
    assert (B : Rabs (ca - cb * cg) <= 2).
    { replace (ca - cb * cg) with (ca + - (cb * cg)) by ring. eapply Rle_trans; [apply Rabs_triang|]. rewrite Rabs_Ropp, Rabs_mult. pose proof (Rabs_pos cb). pose proof (Rabs_pos cg).
      assert (Rabs cb * Rabs cg <= 1 * 1) by (apply Rmult_le_compat; auto). lra. }
    eapply Rle_trans; [exact S|]. nra.
  Qed.

  Lemma cy_err : Rabs (cy' - cy) <= 105 / 10 * e.
  Proof.
    pose proof num_err as N. pose proof cy_le as C. unfold cy'. set (n' := r_sub ar ca' (r_mul ar cb' cg')) in *. apply Rabs_le_both in Es as Es'.
    assert (S' : 79 / 100 <= sg') by lra. pose proof upos as u0.
    pose proof (fl_div _ _ _ FL n' sg' ltac:(lra) ltac:(nra)) as D.
    assert (Q : Rabs (n' / sg' - cy) <= 925 / 100 * e).
    { replace (n' / sg' - cy) with (((n' - (ca - cb * cg)) + cy * (sg - sg')) * / sg') by (unfold cy; field; lra).
      rewrite Rabs_mult, (Rabs_right (/ sg')) by (left; apply Rinv_0_lt_compat; lra). apply Rmult_le_reg_r with sg'; [lra|]. rewrite Rmult_assoc, Rinv_l, Rmult_1_r by lra.
      eapply Rle_trans; [apply Rabs_triang|]. rewrite Rabs_mult, (Rabs_minus_sym sg sg'). pose proof (Rabs_pos cy). pose proof (Rabs_pos (sg' - sg)). assert (Rabs cy * Rabs (sg' - sg) <= 1 * e) by (apply Rmult_le_compat; auto). nra. }
    assert (B : Rabs (n' / sg') <= 1 + 925 / 100 * e) by (replace (n' / sg') with (cy + (n' / sg' - cy)) by ring; eapply Rle_trans; [apply Rabs_triang|]; lra).
    assert (u * Rabs (n' / sg') <= e * (1 + 925 / 100 * e)) by (apply Rmult_le_compat; auto; apply Rabs_pos).
    replace (r_div ar n' sg' - cy) with ((r_div ar n' sg' - n' / sg') + (n' / sg' - cy)) by ring. eapply Rle_trans; [apply Rabs_triang|]. nra.
  Qed.

  Lemma cz2_err : Rabs (cz2' - cz2) <= 28 * e.
  Proof.
    pose proof cy_err as Y. pose proof cy_le as C. pose proof (mul_err _ _ _ _ _ _ Cb Cb Eb Eb) as M. pose proof (mul_err _ _ _ _ _ _ C C Y Y) as M2.
    assert (M' : Rabs (r_mul ar cb' cb' - cb * cb) <= 311 / 100 * e) by (eapply Rle_trans; [exact M|nra]).
    assert (M2' : Rabs (r_mul ar cy' cy' - cy * cy) <= 222 / 10 * e) by (eapply Rle_trans; [exact M2|nra]).
    assert (E1 : Rabs (1 - 1) <= 0) by (rewrite Rminus_eq_0, Rabs_R0; lra).
    pose proof (sub_err _ _ _ _ _ _ E1 M') as S1.
    assert (cb2 : 0 <= cb * cb <= 1) by (apply Rabs_le_both in Cb; nra). assert (cy2 : 0 <= cy * cy <= 1) by (apply Rabs_le_both in C; nra).
    assert (S1' : Rabs (r_sub ar 1 (r_mul ar cb' cb') - (1 - cb * cb)) <= 412 / 100 * e) by (eapply Rle_trans; [exact S1|]; rewrite (Rabs_right (1 - cb * cb)) by lra; nra).
    pose proof (sub_err _ _ _ _ _ _ S1' M2') as S2. fold cz2 in S2. eapply Rle_trans; [exact S2|]. assert (cz2 <= 1) by (unfold cz2; lra). rewrite (Rabs_right cz2) by lra. nra.
  Qed.

  Lemma cz2_pos : 3 / 5 <= cz2'.
  Proof. pose proof cz2_err as H. apply Rabs_le_both in H. lra. Qed.

  Lemma cz_err : Rabs (r_sqrt ar cz2' - sqrt cz2) <= 37 * e.
  Proof.
    pose proof cz2_err as H. pose proof cz2_pos as P. pose proof (fl_sqrt _ _ _ FL cz2' ltac:(lra)) as S. pose proof upos.
    assert (Q : 4 / 5 <= sqrt cz2). { rewrite <- (sqrt_square (4 / 5)) by lra. apply sqrt_le_1_alt. lra. }
    assert (B : sqrt cz2 <= 1). { rewrite <- sqrt_1. apply sqrt_le_1_alt. unfold cz2. nra. }
    pose proof (sqrt_pos cz2') as P'.
    assert (D : Rabs (sqrt cz2' - sqrt cz2) <= 35 * e).
    { apply Rmult_le_reg_r with (sqrt cz2' + sqrt cz2); [lra|]. rewrite <- (Rabs_right (sqrt cz2' + sqrt cz2)) at 1 by lra. rewrite <- Rabs_mult.
      replace ((sqrt cz2' - sqrt cz2) * (sqrt cz2' + sqrt cz2)) with (cz2' - cz2); [nra|]. rewrite <- (sqrt_sqrt cz2') at 1 by lra. rewrite <- (sqrt_sqrt cz2) at 1 by lra. ring. }
    assert (u * sqrt cz2' <= e * (1 + 35 * e)) by (apply Rabs_le_both in D; apply Rmult_le_compat; lra).
    replace (r_sqrt ar cz2' - sqrt cz2) with ((r_sqrt ar cz2' - sqrt cz2') + (sqrt cz2' - sqrt cz2)) by ring. eapply Rle_trans; [apply Rabs_triang|]. nra.
  Qed.

  (** An entry: a length times a computed value. *)
  Lemma entry_err : forall b x x' d, 0 <= b -> eta <= e * b / 10 -> Rabs x <= 1 -> Rabs (x' - x) <= d * e -> 0 <= d <= 40 -> Rabs (r_mul ar b x' - b * x) <= (d + 12 / 10) * e * b.
  Proof.
    intros b x x' d B E X D Hd. pose proof (fl_mul _ _ _ FL b x') as M. pose proof upos as u0. rewrite Rabs_mult, (Rabs_right b) in M by lra.
    assert (B' : Rabs x' <= 1 + d * e) by (replace x' with (x + (x' - x)) by ring; eapply Rle_trans; [apply Rabs_triang|]; lra).
    assert (DE : d * e <= 40 * (1 / 10000)) by (apply Rmult_le_compat; lra).
    assert (T1 : u * (b * Rabs x') <= e * (b * (1 + 40 * (1 / 10000)))) by (apply Rmult_le_compat; auto; [apply Rmult_le_pos; auto; apply Rabs_pos|apply Rmult_le_compat_l; lra]).
    assert (T2 : Rabs (b * x' - b * x) <= b * (d * e)) by (rewrite <- Rmult_minus_distr_l, Rabs_mult, (Rabs_right b) by lra; apply Rmult_le_compat_l; auto).
    replace (r_mul ar b x' - b * x) with ((r_mul ar b x' - b * x') + (b * x' - b * x)) by ring. eapply Rle_trans; [apply Rabs_triang|].
    assert (0 <= e * b) by (apply Rmult_le_pos; lra). nra.
  Qed.
End Entries.
