(** Euclidean geometry of lists of reals. *)
From Coq Require Import List ZArith Arith Lia Reals Lra.
From Verif Require Import Num Base Outcome NNModel.
Import ListNotations.
Open Scope R_scope.

Definition sumR (l : list R) : R := fold_right Rplus 0 l.
Definition dot (u v : list R) : R := sumR (map2 Rmult u v).
Definition vsub (u v : list R) : list R := map2 Rminus u v.
Definition norm (v : list R) : R := sqrt (dot v v).
Definition dist (p q : list R) : R := norm (vsub p q).

Lemma map2_length : forall A B C (f : A -> B -> C) l1 l2,
  length (map2 f l1 l2) = Nat.min (length l1) (length l2).
Proof. induction l1 as [|a t IH]; intros [|b t2]; simpl; auto. Qed.

Lemma fold_left_Rplus : forall A (f : A -> R) l s,
  fold_left (fun s a => s + f a) l s = s + sumR (map f l).
Proof.
  induction l as [|a t IH]; intros s; simpl; [lra|]. rewrite IH. lra.
Qed.

Lemma ndot_dot : forall u v : list R, ndot u v = dot u v.
Proof.
  intros u v. cbn [ndot NumR]. rewrite (fold_left_Rplus _ (fun ab => fst ab * snd ab)), Rplus_0_l. unfold dot. f_equal.
  revert v. induction u as [|a u IH]; intros [|b v]; cbn; auto. f_equal; auto.
Qed.

Lemma sqnorm_dot : forall v : list R, sqnorm v = dot v v.
Proof. intros v. unfold sqnorm. apply ndot_dot. Qed.

Lemma sqd_dot : forall p q : list R, sqd p q = dot (vsub p q) (vsub p q).
Proof. intros p q. unfold sqd. cbv zeta. rewrite ndot_dot. reflexivity. Qed.

Lemma dot_nil_r : forall u, dot u [] = 0.
Proof. destruct u; reflexivity. Qed.
Lemma dot_cons : forall a u b v, dot (a :: u) (b :: v) = a * b + dot u v.
Proof. reflexivity. Qed.

Lemma dot_comm : forall u v, dot u v = dot v u.
Proof.
  induction u as [|a u IH]; intros [|b v]; try reflexivity. rewrite !dot_cons, IH. lra.
Qed.

Lemma dot_nonneg : forall u, 0 <= dot u u.
Proof. induction u as [|a u IH]; [apply Rle_refl|]. rewrite dot_cons. nra. Qed.

Lemma dot_vadd_l : forall u v w, length u = length v -> dot (vadd u v) w = dot u w + dot v w.
Proof.
  induction u as [|a u IH]; intros [|b v] w Hl; try discriminate; simpl in Hl.
  - unfold dot; simpl. lra.
  - destruct w as [|c w]; [rewrite !dot_nil_r; lra|].
    change (vadd (a :: u) (b :: v)) with ((a + b) :: vadd u v). rewrite !dot_cons, IH by lia. lra.
Qed.

Lemma dot_vsub_l : forall u v w, length u = length v -> dot (vsub u v) w = dot u w - dot v w.
Proof.
  induction u as [|a u IH]; intros [|b v] w Hl; try discriminate; simpl in Hl.
  - unfold dot; simpl. lra.
  - destruct w as [|c w]; [rewrite !dot_nil_r; lra|].
    change (vsub (a :: u) (b :: v)) with ((a - b) :: vsub u v). rewrite !dot_cons, IH by lia. lra.
Qed.

Lemma dot_vscale_l : forall a u w, dot (vscale a u) w = a * dot u w.
Proof.
  induction u as [|b u IH]; intros w; [unfold dot; simpl; lra|].
  destruct w as [|c w]; [rewrite !dot_nil_r; lra|].
  change (vscale a (b :: u)) with ((a * b) :: vscale a u). rewrite !dot_cons, IH. lra.
Qed.

Lemma dot_vadd_r : forall u v w, length u = length v -> dot w (vadd u v) = dot w u + dot w v.
Proof. intros. rewrite !(dot_comm w). apply dot_vadd_l; auto. Qed.
Lemma dot_vsub_r : forall u v w, length u = length v -> dot w (vsub u v) = dot w u - dot w v.
Proof. intros. rewrite !(dot_comm w). apply dot_vsub_l; auto. Qed.
Lemma dot_vscale_r : forall a u w, dot w (vscale a u) = a * dot w u.
Proof. intros. rewrite !(dot_comm w). apply dot_vscale_l. Qed.

Lemma dot_vzero_l : forall n w, dot (vzero n) w = 0.
Proof.
  induction n as [|n IH]; intros [|c w]; try reflexivity.
  change (vzero (S n)) with (0 :: vzero n : list R). rewrite dot_cons, IH. lra.
Qed.

Lemma vadd_length : forall u v : list R, length (vadd u v) = Nat.min (length u) (length v).
Proof. intros. apply map2_length. Qed.
Lemma vsub_length : forall u v, length (vsub u v) = Nat.min (length u) (length v).
Proof. intros. apply map2_length. Qed.
Lemma vscale_length : forall a (v : list R), length (vscale a v) = length v.
Proof. intros. apply map_length. Qed.
Lemma vzero_length : forall n, length (vzero (T := R) n) = n.
Proof. intros. apply repeat_length. Qed.

Lemma Rle_of_sq : forall x y, 0 <= y -> x * x <= y * y -> x <= y.
Proof. intros x y Hy H. destruct (Rle_lt_dec x y); auto. nra. Qed.

Lemma cauchy_schwarz : forall u v, dot u v * dot u v <= dot u u * dot v v.
Proof.
  induction u as [|a u IH]; intros [|b v]; try (rewrite ?dot_nil_r; unfold dot; simpl; lra).
  rewrite !dot_cons. specialize (IH v).
  pose proof (dot_nonneg u) as HU. pose proof (dot_nonneg v) as HV.
  set (D := dot u v) in *. set (U := dot u u) in *. set (V := dot v v) in *.
  assert (H : 2 * (a * b * D) <= a * a * V + b * b * U).
  { apply Rle_of_sq; [nra|].
    assert (a * b * (a * b) * (D * D) <= a * b * (a * b) * (U * V)) by (apply Rmult_le_compat_l; [nra|auto]).
    pose proof (Rle_0_sqr (a * a * V - b * b * U)) as Hs. unfold Rsqr in Hs.
    replace (2 * (a * b * D) * (2 * (a * b * D))) with (4 * (a * b * (a * b) * (D * D))) by ring.
    replace ((a * a * V + b * b * U) * (a * a * V + b * b * U))
      with ((a * a * V - b * b * U) * (a * a * V - b * b * U) + 4 * (a * b * (a * b) * (U * V))) by ring.
    lra. }
  nra.
Qed.

Lemma dot_le_norm : forall u v, dot u v <= norm u * norm v.
Proof.
  intros u v. unfold norm. rewrite <- sqrt_mult by apply dot_nonneg.
  apply Rle_of_sq; [apply sqrt_pos|]. rewrite sqrt_sqrt.
  - apply cauchy_schwarz.
  - apply Rmult_le_pos; apply dot_nonneg.
Qed.

Lemma norm_nonneg : forall u, 0 <= norm u. Proof. intros. apply sqrt_pos. Qed.
Lemma norm_sq : forall u, norm u * norm u = dot u u.
Proof. intros. unfold norm. apply sqrt_sqrt, dot_nonneg. Qed.

Lemma norm_triangle : forall u v, length u = length v -> norm (vadd u v) <= norm u + norm v.
Proof.
  intros u v Hl. apply Rle_of_sq.
  - pose proof (norm_nonneg u). pose proof (norm_nonneg v). lra.
  - rewrite norm_sq, dot_vadd_l by auto. rewrite !dot_vadd_r by auto.
    pose proof (dot_le_norm u v). rewrite (dot_comm v u).
    rewrite <- !norm_sq. nra.
Qed.

Lemma vec_ext : forall u v : list R, length u = length v ->
  (forall i, (i < length u)%nat -> nth i u 0 = nth i v 0) -> u = v.
Proof. intros. apply nth_ext with (d := 0) (d' := 0); auto. Qed.

Lemma map2_nth : forall A B C (f : A -> B -> C) l1 l2 i da db dc,
  (i < length l1)%nat -> (i < length l2)%nat ->
  nth i (map2 f l1 l2) dc = f (nth i l1 da) (nth i l2 db).
Proof.
  induction l1 as [|a t IH]; intros [|b t2] [|i] da db dc H1 H2; simpl in *; try lia; auto.
  apply IH; lia.
Qed.

(** dot in terms of equality of lists *)
Lemma vsub_vadd_assoc : forall p q l, length p = length q -> length q = length l ->
  vsub p (vadd q l) = vsub (vsub p q) l.
Proof.
  induction p as [|a p IH]; intros [|b q] [|c l] H1 H2; simpl in *; try discriminate; auto.
  unfold vsub, vadd in *. simpl. f_equal; [lra|]. apply IH; congruence.
Qed.

Lemma vsub_cancel : forall p l, length p = length l -> vadd (vsub p l) l = p.
Proof.
  induction p as [|a p IH]; intros [|c l] H; simpl in *; try discriminate; auto.
  unfold vsub, vadd in *. simpl. f_equal; [lra|]. apply IH; congruence.
Qed.

Lemma norm_vsub_sym : forall p q, norm (vsub p q) = norm (vsub q p).
Proof.
  intros p q. unfold norm. f_equal. revert q. induction p as [|a p IH]; intros [|b q]; try reflexivity.
  change (vsub (a :: p) (b :: q)) with ((a - b) :: vsub p q).
  change (vsub (b :: q) (a :: p)) with ((b - a) :: vsub q p). rewrite !dot_cons, IH. lra.
Qed.

Lemma sqd_sym : forall p q : list R, sqd p q = sqd q p.
Proof.
  intros p q. rewrite !sqd_dot. revert q. induction p as [|a p IH]; intros [|b q]; try reflexivity.
  change (vsub (a :: p) (b :: q)) with ((a - b) :: vsub p q).
  change (vsub (b :: q) (a :: p)) with ((b - a) :: vsub q p). rewrite !dot_cons, IH. lra.
Qed.

Lemma sqd_nonneg : forall p q : list R, 0 <= sqd p q.
Proof. intros. rewrite sqd_dot. apply dot_nonneg. Qed.

Lemma sqd_refl : forall p : list R, sqd p p = 0.
Proof.
  intros p. rewrite sqd_dot. induction p as [|a p IH]; [reflexivity|].
  change (vsub (a :: p) (a :: p)) with ((a - a) :: vsub p p). rewrite dot_cons, IH. lra.
Qed.

Lemma sqrt_sqd : forall p q : list R, sqrt (sqd p q) = dist p q.
Proof. intros. rewrite sqd_dot. reflexivity. Qed.

(** |p - (q + l)| >= |l| - |p - q| *)
Lemma dist_translate_lower : forall p q l, length p = length q -> length q = length l ->
  norm l - dist p q <= dist p (vadd q l).
Proof.
  intros p q l H1 H2. unfold dist. rewrite vsub_vadd_assoc by auto.
  rewrite (norm_vsub_sym (vsub p q) l).
  assert (Hl : length (vsub l (vsub p q)) = length (vsub p q)) by (rewrite !vsub_length; lia).
  pose proof (norm_triangle (vsub l (vsub p q)) (vsub p q) Hl) as H.
  rewrite vsub_cancel in H by (rewrite vsub_length; lia). lra.
Qed.

Lemma vadd_vsub_vadd : forall p q r, length p = length q -> length q = length r ->
  vsub p r = vadd (vsub p q) (vsub q r).
Proof.
  induction p as [|a p IH]; intros [|b q] [|c l] H1 H2; simpl in *; try discriminate; auto.
  unfold vsub, vadd in *. simpl. f_equal; [lra|]. apply IH; congruence.
Qed.

Lemma dist_triangle : forall p q r, length p = length q -> length q = length r ->
  dist p r <= dist p q + dist q r.
Proof.
  intros p q r H1 H2. unfold dist. rewrite (vadd_vsub_vadd p q r) by auto.
  apply norm_triangle. rewrite !vsub_length. lia.
Qed.

Lemma dist_sym : forall p q, dist p q = dist q p.
Proof. intros. unfold dist. apply norm_vsub_sym. Qed.
Lemma dist_nonneg : forall p q, 0 <= dist p q.
Proof. intros. apply norm_nonneg. Qed.

Lemma vadd_zero_r : forall (p : list R) n, length p = n -> vadd p (vzero n) = p.
Proof.
  induction p as [|a p IH]; intros n H; simpl in H; subst n; auto.
  unfold vadd, vzero in *. simpl. f_equal; [lra|]. apply IH; auto.
Qed.

(** * Lattice vectors *)
Lemma latvec_length : forall dims (cell : list (list R)) l,
  Forall (fun r => length r = dims) cell -> length (latvec dims cell l) = dims.
Proof.
  intros dims cell l _. unfold latvec. rewrite map_length, seq_length. auto.
Qed.

(** The lattice vector as a combination of the cell vectors. *)
Lemma latvec_comb : forall dims (cell : list (list R)) l, Forall (fun r => length r = dims) cell ->
  latvec dims cell l = fold_right vadd (vzero dims) (map2 (fun z row => vscale (IZR z) row) l cell).
Proof.
  intros dims cell l Hc. revert l. induction Hc as [|r cell Hr Hc IH]; intros l.
  - transitivity (vzero dims); [|destruct l; reflexivity]. unfold latvec, vzero. rewrite <- (seq_length dims 0) at 2. generalize (seq 0 dims) as s.
    induction s as [|j s IHs]; cbn [map length repeat]; auto. f_equal; auto. rewrite ndot_dot. apply dot_nil_r.
  - destruct l as [|z l].
    + cbn [map2 fold_right]. unfold latvec, vzero. rewrite <- (seq_length dims 0) at 2. generalize (seq 0 dims) as s.
      induction s as [|j s IHs]; cbn [map length repeat]; auto. f_equal; auto.
    + cbn [map2 fold_right]. rewrite <- IH. unfold latvec. subst dims. clear.
      assert (E : r = map (fun j => nth j r 0) (seq 0 (length r))).
      { apply (nth_ext _ _ 0 0); [rewrite map_length, seq_length; auto|]. intros j Hj.
        rewrite (nth_indep (map _ _) 0 (nth 0 r 0)) by (rewrite map_length, seq_length; auto).
        rewrite (map_nth (fun j => nth j r 0)), seq_nth; auto. }
      rewrite E at 2. unfold vscale, vadd. rewrite map_map. generalize (seq 0 (length r)) as s.
      induction s as [|j s IHs]; cbn [map map2]; auto. f_equal; auto. rewrite !ndot_dot. reflexivity.
Qed.

Lemma latvec_cons : forall dims (cell : list (list R)) l r z, length r = dims -> Forall (fun r => length r = dims) cell ->
  latvec dims (r :: cell) (z :: l) = vadd (vscale (IZR z) r) (latvec dims cell l).
Proof. intros. rewrite !latvec_comb by (try constructor; auto). reflexivity. Qed.

Lemma latvec_zero : forall dims (cell : list (list R)) n,
  Forall (fun r => length r = dims) cell -> latvec dims cell (repeat 0%Z n) = vzero dims.
Proof.
  intros dims cell n Hc. rewrite latvec_comb by auto. revert n.
  induction Hc as [|r cell Hr Hc IH]; intros n.
  - destruct n; reflexivity.
  - destruct n as [|n]; [reflexivity|]. simpl. rewrite IH.
    rewrite vadd_zero_r by (rewrite vscale_length; auto).
    rewrite <- Hr. clear. induction r as [|a r IHr]; simpl; auto.
    unfold vscale, vzero in *. simpl. f_equal; [lra|auto].
Qed.
