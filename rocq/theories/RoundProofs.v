(** Error bounds for the rounded vector operations of the neighbour search. *)
From Coq Require Import List ZArith Arith Bool Lia Reals Lra Psatz.
From Verif Require Import Num Base Outcome NNModel VecR SpecGeom NNProofs NNSpecProofs NNComplete CalcProofs RoundModel SpecRound RoundSum RoundSearch.
Import ListNotations.
Open Scope R_scope.

(** * Numbers *)
Lemma Rabs_tri2 : forall a b c d, Rabs (a - b) <= c -> Rabs (b - d) <= 0 -> Rabs (a - d) <= c.
Proof. intros. replace (a - d) with ((a - b) + (b - d)) by ring. eapply Rle_trans; [apply Rabs_triang|]. lra. Qed.

Lemma Rabs_upto : forall a b e, Rabs (a - b) <= e -> Rabs a <= Rabs b + e.
Proof. intros. replace a with (b + (a - b)) by ring. eapply Rle_trans; [apply Rabs_triang|]. lra. Qed.

Lemma sqrt_near : forall X Y t h, 0 <= X -> 0 <= Y -> 0 <= t <= 1 -> 0 <= h -> Rabs (X - Y) <= t * Y + h * h ->
  Rabs (sqrt X - sqrt Y) <= t * sqrt Y + h.
Proof.
  intros X Y t h HX HY Ht Hh H. pose proof (sqrt_pos X) as PX. pose proof (sqrt_pos Y) as PY.
  pose proof (sqrt_sqrt X HX) as EX. pose proof (sqrt_sqrt Y HY) as EY. set (a := sqrt X) in *. set (b := sqrt Y) in *.
  rewrite <- EX, <- EY in H. clearbody a b. clear EX EY HX HY X Y.
  assert (H1 := Rle_abs (a * a - b * b)). assert (H2 := Rle_abs (- (a * a - b * b))). rewrite Rabs_Ropp in H2.
  assert (a <= (1 + t) * b + h).
  { apply Rle_of_sq; [nra|]. assert (0 <= t * b * b) by nra. assert (0 <= t * t * (b * b)) by nra. assert (0 <= (1 + t) * b * h) by (apply Rmult_le_pos; nra). nra. }
  assert ((1 - t) * b <= a + h).
  { apply Rle_of_sq; [lra|]. assert (0 <= a * h) by nra. assert (0 <= t * (1 - t) * (b * b)) by (apply Rmult_le_pos; nra). nra. }
  apply Rabs_le. lra.
Qed.

Lemma rsum_const : forall A c (l : list A), rsum (map (fun _ => c) l) = INR (length l) * c.
Proof. intros A c l. induction l as [|a l IH]; [cbn; lra|]. cbn [map length]. rewrite S_INR. unfold rsum in *. cbn [fold_right]. rewrite IH. ring. Qed.

Section Rounded.
  Variables (ar : arith) (u eta : R).
  Hypothesis FL : float_like u eta ar.
  Hypothesis Hu : u <= 1 / 10000.
  Let N : Num R := num_of ar.
  Let u0 : 0 <= u := fl_u _ _ _ FL.
  Let e0 : 0 <= eta := fl_eta _ _ _ FL.

  Lemma r_ofZ_zero : r_ofZ ar 0 = 0.
  Proof. pose proof (fl_ofZ _ _ _ FL 0%Z) as H. rewrite Rabs_R0, Rmult_0_r in H. pose proof (Rabs_pos (r_ofZ ar 0 - 0)). destruct (Req_dec (r_ofZ ar 0 - 0) 0) as [E|E]; [lra|]. apply Rabs_pos_lt in E. lra. Qed.
  Lemma r_sub_self : forall a, r_sub ar a a = 0.
  Proof. intros a. pose proof (fl_sub _ _ _ FL a a) as H. replace (a - a) with 0 in H by ring. rewrite Rabs_R0, Rmult_0_r in H. destruct (Req_dec (r_sub ar a a - 0) 0) as [E|E]; [lra|]. apply Rabs_pos_lt in E. lra. Qed.
  Lemma r_add_zero : r_add ar 0 0 = 0.
  Proof. pose proof (fl_add _ _ _ FL 0 0) as H. replace (0 + 0) with 0 in H by ring. rewrite Rabs_R0, Rmult_0_r in H. destruct (Req_dec (r_add ar 0 0 - 0) 0) as [E|E]; [lra|]. apply Rabs_pos_lt in E. lra. Qed.
  Lemma r_add_nonneg : forall a b, 0 <= a -> 0 <= b -> 0 <= r_add ar a b.
  Proof.
    intros a b Ha Hb. pose proof (fl_add _ _ _ FL a b) as H. rewrite (Rabs_right (a + b)) in H by lra.
    pose proof (Rle_abs (- (r_add ar a b - (a + b)))) as H2. rewrite Rabs_Ropp in H2. nra.
  Qed.
  Lemma r_sq_nonneg : forall a, 0 <= r_mul ar a a.
  Proof. intros a. apply (fl_mul_sign _ _ _ FL). nra. Qed.

  (** * Sums of squares *)
  Lemma square_error : forall a a' q, Rabs (a' - a) <= u * Rabs a -> product_within u eta a' a' q -> Rabs (q - a * a) <= 3001 / 1000 * u * (a * a) + eta.
  Proof.
    intros a a' q Ha (M & _ & _). set (aa := a * a).
    assert (Haa : 0 <= aa) by (unfold aa; nra).
    assert (Hsq : Rabs (a' * a' - aa) <= 20001 / 10000 * u * aa).
    { replace (a' * a' - aa) with ((a' - a) * (a' - a) + 2 * a * (a' - a)) by (unfold aa; ring).
      eapply Rle_trans; [apply Rabs_triang|]. rewrite !Rabs_mult, (Rabs_right 2) by lra.
      assert (E : aa = Rabs a * Rabs a) by (unfold aa; rewrite <- Rabs_mult; rewrite Rabs_right; nra).
      pose proof (Rabs_pos a). pose proof (Rabs_pos (a' - a)). rewrite E. set (x := Rabs a) in *. set (y := Rabs (a' - a)) in *.
      assert (y * y <= (u * x) * (u * x)) by nra. assert (x * y <= x * (u * x)) by nra. assert (u * x * (u * x) <= u * (x * x) * (1 / 10000)) by (assert (0 <= u * (x * x)) by nra; nra). nra. }
    assert (Ha2 : Rabs (a' * a') <= aa + 20001 / 10000 * u * aa).
    { eapply Rle_trans; [apply (Rabs_upto _ aa _ Hsq)|]. rewrite (Rabs_right aa) by lra. lra. }
    replace (q - aa) with ((q - a' * a') + (a' * a' - aa)) by ring. eapply Rle_trans; [apply Rabs_triang|].
    assert (u * Rabs (a' * a') <= u * (aa + 20001 / 10000 * u * aa)) by (apply Rmult_le_compat_l; auto).
    assert (0 <= u * aa) by nra. assert (u * (u * aa) <= 1 / 10000 * (u * aa)) by nra. nra.
  Qed.

  Lemma r_dot_zero : forall xs ys, length xs = length ys -> (forall i, (i < length xs)%nat -> nth i xs 0 * nth i ys 0 = 0) -> r_dot ar xs ys = 0.
  Proof.
    intros xs ys L H. destruct (fl_dot _ _ _ FL xs ys L) as (ps & Lp & Hp & HS). apply (sum_within_zero _ _ _ HS). constructor; auto.
    apply Forall_forall. intros x Hx. apply (In_nth _ _ 0) in Hx as (i & Hi & <-). destruct (Hp i ltac:(lia)) as (_ & _ & Z). apply Z, H. lia.
  Qed.

  Lemma dot_squares : forall v : list R, rsum (map (fun i => nth i v 0 * nth i v 0) (seq 0 (length v))) = dot v v.
  Proof.
    induction v as [|a v IH]; [reflexivity|]. cbn [length seq map]. rewrite <- seq_shift, map_map. cbn [nth]. unfold rsum in *. cbn [fold_right]. rewrite IH, dot_cons. reflexivity.
  Qed.
  Lemma sq_dot_nonneg : forall v, 0 <= r_dot ar v v.
  Proof.
    intros v. destruct (fl_dot _ _ _ FL v v eq_refl) as (ps & Lp & Hp & HS). apply (sum_within_nonneg u (0 :: ps)); [lra|auto|]. constructor; [lra|].
    apply Forall_forall. intros x Hx. apply (In_nth _ _ 0) in Hx as (i & Hi & <-). destruct (Hp i ltac:(lia)) as (_ & H & _). apply H. nra.
  Qed.
  Lemma sq_dot_error : forall v v', (length v <= 4)%nat -> Forall2 (fun a a' => Rabs (a' - a) <= u * Rabs a) v v' ->
    Rabs (r_dot ar v' v' - dot v v) <= 704 / 100 * u * dot v v + 404 / 100 * eta.
  Proof.
    intros v v' H4 F. destruct (fl_dot _ _ _ FL v' v' eq_refl) as (ps & Lp & Hp & HS).
    assert (L : length v' = length v) by (clear - F; induction F; cbn; auto).
    assert (Ep : ps = map (fun i => nth i ps 0) (seq 0 (length v))) by (rewrite <- L, <- Lp; symmetry; apply map_nth_seq).
    rewrite Ep in HS. assert (N4 : INR 4 = 4) by (cbn; lra).
    pose proof (sum_terms nat (fun i => nth i ps 0) (fun i => nth i v 0 * nth i v 0) (fun i => 3001 / 1000 * u * (nth i v 0 * nth i v 0) + eta) (1001 / 1000) (4 / 10000) u 4 (seq 0 (length v)) (r_dot ar v' v')
      u0 ltac:(lra) ltac:(lra) ltac:(rewrite seq_length; lia) ltac:(rewrite N4; lra)) as X.
    assert (P : forall i, In i (seq 0 (length v)) -> Rabs (nth i ps 0 - nth i v 0 * nth i v 0) <= 3001 / 1000 * u * (nth i v 0 * nth i v 0) + eta).
    { intros i Hi. apply in_seq in Hi. apply (square_error _ (nth i v' 0)); [|apply Hp; lia]. clear - F Hi. revert i Hi. induction F as [|a a' v v' Ha F IH]; intros [|i] Hi; cbn in *; try lia; auto. apply IH. lia. }
    specialize (X P HS). rewrite dot_squares in X. rewrite seq_length in X.
    assert (EA : rsum (map (fun i => Rabs (nth i v 0 * nth i v 0)) (seq 0 (length v))) = dot v v).
    { rewrite <- dot_squares. apply rsum_ext. intros i _. apply Rabs_right. nra. }
    assert (EH : rsum (map (fun i => 3001 / 1000 * u * (nth i v 0 * nth i v 0) + eta) (seq 0 (length v))) = 3001 / 1000 * u * dot v v + INR (length v) * eta).
    { rewrite rsum_plus, rsum_scale, dot_squares. f_equal. rewrite rsum_const, seq_length. reflexivity. }
    rewrite EA, EH in X. eapply Rle_trans; [exact X|]. pose proof (dot_nonneg v) as D. set (S := dot v v) in *. clearbody S. apply le_INR in H4. rewrite N4 in H4. pose proof (pos_INR (length v)) as Q. set (n := INR (length v)) in *. clearbody n.
    assert (A1 : n * eta <= 4 * eta) by (apply Rmult_le_compat_r; auto). assert (A0 : 0 <= n * eta) by (apply Rmult_le_pos; auto). assert (A2 : 0 <= u * S) by nra. assert (A3 : n * u <= 4 * u) by nra. assert (A4 : 0 <= n * u) by nra.
    assert (A5 : 3001 / 1000 * u * S <= 1 / 1000 * S) by nra.
    assert (A6 : 1001 / 1000 * (n * u) * (S + (3001 / 1000 * u * S + n * eta)) <= 1001 / 1000 * (4 * u) * (1001 / 1000 * S + 4 * eta)).
    { apply Rmult_le_compat; try lra. }
    assert (u * eta <= 1 / 10000 * eta) by nra. lra.
  Qed.
  Lemma sqd_eq : forall p q, @sqd R N p q = r_dot ar (map2 (r_sub ar) p q) (map2 (r_sub ar) p q).
  Proof. reflexivity. Qed.
  Lemma sqnorm_eq : forall v, @sqnorm R N v = r_dot ar v v.
  Proof. reflexivity. Qed.
  Lemma sqd_nonneg_r : forall p q, 0 <= @sqd R N p q.
  Proof. intros. rewrite sqd_eq. apply sq_dot_nonneg. Qed.
  Lemma sqnorm_nonneg_r : forall v, 0 <= @sqnorm R N v.
  Proof. intros. rewrite sqnorm_eq. apply sq_dot_nonneg. Qed.

  Lemma near_self : forall v : list R, Forall2 (fun a a' => Rabs (a' - a) <= u * Rabs a) v v.
  Proof. induction v as [|a v IH]; constructor; auto. rewrite Rminus_diag_eq, Rabs_R0 by auto. pose proof (Rabs_pos a). nra. Qed.
  Lemma near_sub : forall p q, Forall2 (fun a a' => Rabs (a' - a) <= u * Rabs a) (vsub p q) (map2 (r_sub ar) p q).
  Proof. induction p as [|a p IH]; intros [|b q]; cbn; constructor; auto. apply (fl_sub _ _ _ FL). Qed.

  Lemma sqd_error : forall p q dims, length p = dims -> length q = dims -> (dims <= 4)%nat ->
    Rabs (@sqd R N p q - dist p q * dist p q) <= 704 / 100 * u * (dist p q * dist p q) + 404 / 100 * eta.
  Proof.
    intros p q dims Hp Hq H4. rewrite sqd_eq. unfold dist. rewrite norm_sq. apply sq_dot_error; [|apply near_sub]. rewrite vsub_length. lia.
  Qed.
  Lemma sqnorm_error : forall v, (length v <= 4)%nat ->
    Rabs (@sqnorm R N v - norm v * norm v) <= 704 / 100 * u * (norm v * norm v) + 404 / 100 * eta.
  Proof.
    intros v H4. rewrite sqnorm_eq, norm_sq. apply sq_dot_error; auto. apply near_self.
  Qed.

  (** * Lattice vectors *)
  Lemma nth_vadd_r : forall (v w : list R) j, length v = length w -> (j < length v)%nat ->
    nth j (@vadd R N v w) 0 = r_add ar (nth j v 0) (nth j w 0).
  Proof. intros v w j L H. unfold vadd. rewrite (map2_nth _ _ _ _ _ _ _ 0 0) by lia. reflexivity. Qed.
  Lemma nth_vadd_R : forall (v w : list R) j, length v = length w -> (j < length v)%nat ->
    nth j (vadd v w) 0 = nth j v 0 + nth j w 0.
  Proof. intros v w j L H. unfold vadd. rewrite (map2_nth _ _ _ _ _ _ _ 0 0) by lia. reflexivity. Qed.
  Lemma nth_vscale_r : forall z (v : list R) j, (j < length v)%nat -> nth j (@vscale R N z v) 0 = r_mul ar z (nth j v 0).
  Proof. intros z v j H. unfold vscale. rewrite (nth_indep _ 0 (@nmul R N z 0)) by (rewrite map_length; auto). rewrite map_nth. reflexivity. Qed.
  Lemma nth_vscale_R : forall z (v : list R) j, (j < length v)%nat -> nth j (vscale z v) 0 = z * nth j v 0.
  Proof. intros z v j H. unfold vscale. rewrite (nth_indep _ 0 (@nmul R NumR z 0)) by (rewrite map_length; auto). rewrite map_nth. reflexivity. Qed.
  Lemma vadd_length_r : forall v w : list R, length (@vadd R N v w) = Nat.min (length v) (length w).
  Proof. intros. apply map2_length. Qed.
  Lemma rlat_length : forall dims cell l, Forall (fun r => length r = dims) cell -> length (rlat ar cell dims l) = dims.
  Proof. intros dims cell l _. unfold rlat, latvec. rewrite map_length, seq_length. auto. Qed.

  (** Sum of the absolute values of the terms of each coordinate. *)
  Definition vabs (v : list R) : list R := map Rabs v.
  Definition abs_lat (dims : nat) (cell : list (list R)) (l : list Z) : list R :=
    fold_right vadd (vzero dims) (map2 (fun z row => vscale (Rabs (IZR z)) (vabs row)) l cell).
  Lemma abs_lat_length : forall dims cell l, Forall (fun r => length r = dims) cell -> length (abs_lat dims cell l) = dims.
  Proof.
    intros dims cell l Hc. revert l. unfold abs_lat. induction Hc as [|r cell Hr Hc IH]; intros [|z l]; cbn [map2 fold_right]; try apply repeat_length.
    rewrite vadd_length, IH, vscale_length. unfold vabs. rewrite map_length. lia.
  Qed.

  Lemma nth_abs_lat : forall dims cell l j, Forall (fun r => length r = dims) cell -> (j < dims)%nat ->
    nth j (abs_lat dims cell l) 0 = rsum (map2 (fun z row => Rabs (IZR z) * Rabs (nth j row 0)) l cell).
  Proof.
    intros dims cell l j Hc Hj. revert l. induction Hc as [|r cell Hr Hc IH]; intros [|z l]; try (unfold abs_lat; cbn [map2 fold_right]; apply nth_repeat0).
    change (abs_lat dims (r :: cell) (z :: l)) with (vadd (vscale (Rabs (IZR z)) (vabs r)) (abs_lat dims cell l)).
    rewrite nth_vadd_R by (rewrite vscale_length, ?abs_lat_length; auto; unfold vabs; rewrite map_length; lia). rewrite nth_vscale_R by (unfold vabs; rewrite map_length; lia).
    rewrite IH. cbn [map2]. unfold rsum. cbn [fold_right]. f_equal. f_equal. unfold vabs. rewrite <- Rabs_R0 at 1. apply map_nth.
  Qed.
  Lemma nth_latvec_R : forall dims cell l j, Forall (fun r => length r = dims) cell -> (j < dims)%nat ->
    nth j (latvec dims cell l) 0 = rsum (map2 (fun z row => IZR z * nth j row 0) l cell).
  Proof.
    intros dims cell l j Hc Hj. rewrite latvec_comb by auto. revert l. induction Hc as [|r cell Hr Hc IH]; intros [|z l]; try (cbn [map2 fold_right]; apply nth_repeat0).
    cbn [map2 fold_right]. rewrite <- latvec_comb by auto. rewrite nth_vadd_R by (rewrite vscale_length, ?latvec_length; auto; lia). rewrite nth_vscale_R by lia.
    rewrite latvec_comb, IH by auto. reflexivity.
  Qed.

  Lemma term_error : forall z a q, product_within u eta (r_ofZ ar z) a q -> Rabs (q - IZR z * a) <= 20001 / 10000 * u * (Rabs (IZR z) * Rabs a) + eta.
  Proof.
    intros z a q (M & _ & _). pose proof (fl_ofZ _ _ _ FL z) as Z0. set (y := r_ofZ ar z) in *.
    assert (D : Rabs (y * a - IZR z * a) <= u * (Rabs (IZR z) * Rabs a)).
    { rewrite <- Rmult_minus_distr_r, Rabs_mult. pose proof (Rabs_pos a). nra. }
    pose proof (Rabs_upto _ _ _ D) as X. rewrite (Rabs_mult (IZR z)) in X. set (t := Rabs (IZR z) * Rabs a) in *.
    assert (0 <= t) by (unfold t; apply Rmult_le_pos; apply Rabs_pos).
    replace (q - IZR z * a) with ((q - y * a) + (y * a - IZR z * a)) by ring. eapply Rle_trans; [apply Rabs_triang|].
    assert (u * Rabs (y * a) <= u * (t + u * t)) by (apply Rmult_le_compat_l; auto). assert (0 <= u * t) by nra. assert (u * (u * t) <= 1 / 10000 * (u * t)) by nra. lra.
  Qed.

  Lemma nth_rlat : forall dims cell l j, (j < dims)%nat -> nth j (rlat ar cell dims l) 0 = r_dot ar (map (r_ofZ ar) l) (map (fun row => nth j row 0) cell).
  Proof.
    intros dims cell l j Hj. unfold rlat, latvec. rewrite (nth_indep _ 0 ((fun j => @ndot R (num_of ar) (map (@nofZ R (num_of ar)) l) (@col_of R (num_of ar) j cell)) 0%nat)) by (rewrite map_length, seq_length; auto).
    rewrite (map_nth (fun j => @ndot R (num_of ar) (map (@nofZ R (num_of ar)) l) (@col_of R (num_of ar) j cell))), seq_nth by auto. reflexivity.
  Qed.
  Lemma map2_seq : forall A B C (f : A -> B -> C) l1 l2 d1 d2, length l1 = length l2 -> map2 f l1 l2 = map (fun i => f (nth i l1 d1) (nth i l2 d2)) (seq 0 (length l1)).
  Proof.
    intros A B C f. induction l1 as [|a l1 IH]; intros [|b l2] d1 d2 L; try discriminate; auto. cbn [map2 length seq map]. f_equal. rewrite <- seq_shift, map_map. apply IH. cbn in L. lia.
  Qed.

  Lemma rlat_error : forall dims cell l j, Forall (fun r => length r = dims) cell -> length l = length cell -> (length cell <= 4)%nat -> (j < dims)%nat ->
    Rabs (nth j (rlat ar cell dims l) 0 - nth j (latvec dims cell l) 0)
      <= (3 + 101 / 100 * INR (length cell)) * u * nth j (abs_lat dims cell l) 0 + 101 / 100 * INR (length cell) * eta /\
    Rabs (nth j (latvec dims cell l) 0) <= nth j (abs_lat dims cell l) 0.
  Proof.
    intros dims cell l j Hc HL H4 Hj. rewrite nth_rlat, nth_latvec_R, nth_abs_lat by auto.
    rewrite !(map2_seq _ _ _ _ l cell 0%Z []) by auto. set (g := fun i => IZR (nth i l 0%Z) * nth j (nth i cell []) 0).
    set (h := fun i => Rabs (IZR (nth i l 0%Z)) * Rabs (nth j (nth i cell []) 0)). set (n := length l) in *.
    assert (Eg : forall i, Rabs (g i) = h i) by (intros; apply Rabs_mult).
    split.
    - destruct (fl_dot _ _ _ FL (map (r_ofZ ar) l) (map (fun row => nth j row 0) cell)) as (ps & Lp & Hp & HS); [rewrite !map_length; auto|]. rewrite map_length in Lp, Hp. fold n in Lp, Hp.
      assert (Ep : ps = map (fun i => nth i ps 0) (seq 0 n)) by (rewrite <- Lp; symmetry; apply map_nth_seq). rewrite Ep in HS. assert (N4 : INR 4 = 4) by (cbn; lra).
      pose proof (sum_terms nat (fun i => nth i ps 0) g (fun i => 20001 / 10000 * u * h i + eta) (1001 / 1000) (4 / 10000) u 4 (seq 0 n) (r_dot ar (map (r_ofZ ar) l) (map (fun row => nth j row 0) cell))
        u0 ltac:(lra) ltac:(lra) ltac:(rewrite seq_length; lia) ltac:(rewrite N4; lra)) as X.
      assert (P : forall i, In i (seq 0 n) -> Rabs (nth i ps 0 - g i) <= 20001 / 10000 * u * h i + eta).
      { intros i Hi. apply in_seq in Hi. apply term_error. specialize (Hp i ltac:(lia)).
        rewrite (nth_indep (map (r_ofZ ar) l) 0 (r_ofZ ar 0%Z)) in Hp by (rewrite map_length; fold n; lia). rewrite map_nth in Hp.
        rewrite (nth_indep (map (fun row => nth j row 0) cell) 0 (nth j [] 0)) in Hp by (rewrite map_length; lia). rewrite (map_nth (fun row : list R => nth j row 0)) in Hp. exact Hp. }
      specialize (X P HS). rewrite seq_length in X.
      assert (EA : rsum (map (fun i => Rabs (g i)) (seq 0 n)) = rsum (map h (seq 0 n))) by (apply rsum_ext; auto).
      assert (EH : rsum (map (fun i => 20001 / 10000 * u * h i + eta) (seq 0 n)) = 20001 / 10000 * u * rsum (map h (seq 0 n)) + INR n * eta).
      { rewrite rsum_plus, rsum_scale. f_equal. rewrite rsum_const, seq_length. reflexivity. }
      rewrite EA, EH in X. rewrite <- HL. eapply Rle_trans; [exact X|]. assert (D : 0 <= rsum (map h (seq 0 n))) by (apply rsum_nonneg, Forall_forall; intros y Hy; apply in_map_iff in Hy as (i & <- & _); unfold h; apply Rmult_le_pos; apply Rabs_pos).
      set (A := rsum (map h (seq 0 n))) in *. clearbody A. assert (H4' : INR n <= 4) by (rewrite <- N4; apply le_INR; lia). pose proof (pos_INR n) as Q. clear - u0 e0 Hu D H4' Q. set (m := INR n) in *. clearbody m.
      assert (A1 : m * eta <= 4 * eta) by (apply Rmult_le_compat_r; auto). assert (A0 : 0 <= m * eta) by (apply Rmult_le_pos; auto). assert (A2 : 0 <= u * A) by nra. assert (A4 : 0 <= m * u) by nra. assert (A7 : m * u <= 4 / 10000) by nra.
      assert (A8 : 0 <= m * (u * A)) by (apply Rmult_le_pos; lra). assert (A9 : u * (m * (u * A)) <= 1 / 10000 * (m * (u * A))) by (apply Rmult_le_compat_r; lra). assert (A10 : (m * u) * (m * eta) <= 4 / 10000 * (m * eta)) by (apply Rmult_le_compat_r; lra). nra.
    - rewrite (rsum_ext _ h (fun i => Rabs (g i))) by (intros; symmetry; apply Eg). unfold rsum. generalize (seq 0 n) as s. induction s as [|i s IH]; cbn [map fold_right]; [rewrite Rabs_R0; lra|]. eapply Rle_trans; [apply Rabs_triang|]. lra.
  Qed.

  (** * Lengths *)
  Lemma norm_pointwise : forall v w : list R, length v = length w -> (forall j, (j < length v)%nat -> Rabs (nth j v 0) <= nth j w 0) -> norm v <= norm w.
  Proof.
    intros v w L H. unfold norm. apply sqrt_le_1_alt. revert w L H. induction v as [|a v IH]; intros [|b w] L H; try discriminate; [lra|].
    rewrite !dot_cons. assert (dot v v <= dot w w).
    { apply IH; [cbn in L; lia|]. intros j Hj. apply (H (S j)). cbn. lia. }
    specialize (H 0%nat ltac:(cbn; lia)). cbn in H. pose proof (Rabs_pos a). assert (a * a = Rabs a * Rabs a) by (rewrite <- Rabs_mult, Rabs_right; nra). nra.
  Qed.
  Lemma norm_scale : forall c v, 0 <= c -> norm (vscale c v) = c * norm v.
  Proof.
    intros c v Hc. unfold norm. rewrite dot_vscale_l, dot_vscale_r, <- Rmult_assoc. rewrite sqrt_mult by (try nra; apply dot_nonneg). f_equal. apply sqrt_square. auto.
  Qed.
  Lemma norm_vabs : forall v, norm (vabs v) = norm v.
  Proof. intros v. unfold norm. f_equal. induction v as [|a v IH]; [reflexivity|]. cbn [vabs map]. rewrite !dot_cons. fold (vabs v). rewrite IH. rewrite <- Rabs_mult, Rabs_right by nra. ring. Qed.
  Lemma norm_vzero : forall n, norm (vzero n) = 0.
  Proof. intros. unfold norm. rewrite dot_vzero_l. apply sqrt_0. Qed.
  Definition len_sum (cell : list (list R)) (l : list Z) : R := rsum (map2 (fun z row => Rabs (IZR z) * norm row) l cell).
  Lemma norm_abs_lat : forall dims cell l, Forall (fun r => length r = dims) cell -> norm (abs_lat dims cell l) <= len_sum cell l.
  Proof.
    intros dims cell l Hc. revert l. unfold len_sum. induction Hc as [|r cell Hr Hc IH]; intros [|z l]; try (unfold abs_lat; cbn [map2 fold_right rsum]; rewrite norm_vzero; cbn; lra).
    change (abs_lat dims (r :: cell) (z :: l)) with (vadd (vscale (Rabs (IZR z)) (vabs r)) (abs_lat dims cell l)).
    eapply Rle_trans; [apply norm_triangle; rewrite vscale_length, abs_lat_length by auto; unfold vabs; rewrite map_length; auto|].
    rewrite norm_scale, norm_vabs by apply Rabs_pos. cbn [map2]. unfold rsum. cbn [fold_right]. specialize (IH l). unfold rsum in IH. lra.
  Qed.
End Rounded.
