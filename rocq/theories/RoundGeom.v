(** Rounded distances in a periodic set whose cell vectors dominate. *)
From Coq Require Import List ZArith Arith Bool Lia Reals Lra Psatz.
From Verif Require Import Num Base Outcome NNModel VecR SpecGeom NNProofs NNSpecProofs NNComplete NNInvariance RoundModel SpecRound RoundSearch RoundProofs.
Import ListNotations.
Open Scope R_scope.

(** ** Combinations of dominating vectors do not cancel *)
Lemma young : forall x y g, -1 * (/ 2 * (x * x * Rabs g) + / 2 * (y * y * Rabs g)) <= x * (y * g).
Proof.
  intros x y g. pose proof (Rle_0_sqr (x + y)) as H1. pose proof (Rle_0_sqr (x - y)) as H2. unfold Rsqr in *. unfold Rabs. destruct (Rcase_abs g); nra.
Qed.
Lemma dominant_lower : forall dims cell c, length cell = dims -> Forall (fun r => length r = dims) cell -> half_dominant dims cell -> length c = dims ->
  rsum (map (fun i => (nth i c 0 * nth i c 0) * dot (nth i cell []) (nth i cell [])) (seq 0 dims)) <= 2 * dot (latvecR dims cell c) (latvecR dims cell c).
Proof.
  intros dims cell c Hc Hv Hdom Hl. set (v := latvecR dims cell c). set (g := fun i j => dot (nth i cell []) (nth j cell [])). set (a := fun i => nth i c 0).
  assert (E : dot v v = rsum (map (fun i => a i * rsum (map (fun j => a j * g j i) (seq 0 dims))) (seq 0 dims))).
  { unfold v at 1. rewrite dot_latvecR by (auto; lia). rewrite Hc. apply rsum_ext. intros i _. unfold a. f_equal. rewrite dot_comm. unfold v. rewrite dot_latvecR by (auto; lia). rewrite Hc. auto. }
  set (h := fun i j => if Nat.eqb j i then 0 else Rabs (g i j)).
  assert (Hsym : forall i j, h i j = h j i). { intros i j. unfold h, g. rewrite (Nat.eqb_sym j i). destruct (Nat.eqb i j); auto. rewrite dot_comm. auto. }
  assert (L : forall i, In i (seq 0 dims) -> (a i * a i) * g i i - / 2 * (a i * a i * rsum (map (h i) (seq 0 dims))) - / 2 * rsum (map (fun j => a j * a j * h j i) (seq 0 dims))
                 <= a i * rsum (map (fun j => a j * g j i) (seq 0 dims))).
  { intros i Hi. apply in_seq in Hi. rewrite (rsum_split dims i (fun j => a j * g j i)) by lia.
    assert (B : - rsum (map (fun j => / 2 * (a i * a i * h i j) + / 2 * (a j * a j * h j i)) (seq 0 dims)) <= a i * rsum (map (fun j => if Nat.eqb j i then 0 else a j * g j i) (seq 0 dims))).
    { rewrite <- rsum_scale. replace (- rsum (map (fun j => / 2 * (a i * a i * h i j) + / 2 * (a j * a j * h j i)) (seq 0 dims))) with (-1 * rsum (map (fun j => / 2 * (a i * a i * h i j) + / 2 * (a j * a j * h j i)) (seq 0 dims))) by ring. rewrite <- rsum_scale. apply rsum_le. intros j _. rewrite (Hsym j i). unfold h. destruct (Nat.eqb j i) eqn:Ej; [right; ring|].
      assert (Eg : g j i = g i j) by (unfold g; apply dot_comm). rewrite Eg. apply young. }
    rewrite rsum_plus, !rsum_scale in B. lra. }
  pose proof (rsum_le _ _ _ (seq 0 dims) L) as S1. rewrite <- E in S1.
  assert (X : rsum (map (fun i => (a i * a i) * g i i - / 2 * (a i * a i * rsum (map (h i) (seq 0 dims))) - / 2 * rsum (map (fun j => a j * a j * h j i) (seq 0 dims))) (seq 0 dims))
          = rsum (map (fun i => a i * a i * (g i i - rsum (map (h i) (seq 0 dims)))) (seq 0 dims))).
  { assert (Y : rsum (map (fun i => rsum (map (fun j => a j * a j * h j i) (seq 0 dims))) (seq 0 dims)) = rsum (map (fun i => a i * a i * rsum (map (h i) (seq 0 dims))) (seq 0 dims))).
    { rewrite (rsum_swap _ _ (fun i j => a j * a j * h j i)). apply rsum_ext. intros j _. rewrite rsum_scale. auto. }
    transitivity (rsum (map (fun i => (a i * a i) * g i i) (seq 0 dims)) + (- / 2) * rsum (map (fun i => a i * a i * rsum (map (h i) (seq 0 dims))) (seq 0 dims))
                  + (- / 2) * rsum (map (fun i => rsum (map (fun j => a j * a j * h j i) (seq 0 dims))) (seq 0 dims))).
    - rewrite <- !rsum_scale, <- !rsum_plus. apply rsum_ext. intros i _. ring.
    - rewrite Y. rewrite <- !rsum_scale, <- !rsum_plus. apply rsum_ext. intros i _. field. }
  rewrite X in S1.
  assert (Z1 : rsum (map (fun i => / 2 * (a i * a i * g i i)) (seq 0 dims)) <= rsum (map (fun i => a i * a i * (g i i - rsum (map (h i) (seq 0 dims)))) (seq 0 dims))).
  { apply rsum_le. intros i Hi. apply in_seq in Hi. specialize (Hdom i ltac:(lia)). rewrite !rdot_dot in Hdom.
    assert (Eh : rsum (map (h i) (seq 0 dims)) <= g i i / 2).
    { eapply Rle_trans; [|exact Hdom]. right. apply rsum_ext. intros j _. unfold h, g. rewrite rdot_dot. auto. }
    assert (0 <= a i * a i) by apply Rle_0_sqr. clearbody a g h. set (A2 := a i * a i) in *. set (G := g i i) in *. set (Hs := rsum _) in *. clearbody A2 G Hs. nra. }
  rewrite rsum_scale in Z1. change (rsum (map (fun i => a i * a i * g i i) (seq 0 dims)) <= 2 * dot v v). lra.
Qed.

Lemma rsum_sq_le : forall l : list R, rsum l * rsum l <= INR (length l) * rsum (map (fun a => a * a) l).
Proof.
  intros l. pose proof (cauchy_schwarz (repeat 1 (length l)) l) as H.
  assert (E1 : dot (repeat 1 (length l)) l = rsum l). { clear. induction l as [|a l IH]; [reflexivity|]. cbn [length repeat]. rewrite dot_cons, IH. unfold rsum. cbn. ring. }
  assert (E2 : dot (repeat 1 (length l)) (repeat 1 (length l)) = INR (length l)). { clear. induction (length l) as [|n IH]; [reflexivity|]. cbn [repeat]. rewrite dot_cons, IH, S_INR. ring. }
  assert (E3 : dot l l = rsum (map (fun a => a * a) l)). { clear. induction l as [|a l IH]; [reflexivity|]. rewrite dot_cons, IH. reflexivity. }
  rewrite E1, E2, E3 in H. exact H.
Qed.

Lemma len_sum_le : forall dims cell l, length cell = dims -> Forall (fun r => length r = dims) cell -> half_dominant dims cell -> (dims <= 4)%nat -> length l = dims ->
  len_sum cell l <= 3 * norm (latvec dims cell l).
Proof.
  intros dims cell l Hc Hv Hdom H4 Hl. pose proof (norm_nonneg (latvec dims cell l)) as Hn. apply Rle_of_sq; [lra|].
  unfold len_sum. set (t := map2 (fun z row => Rabs (IZR z) * norm row) l cell). eapply Rle_trans; [apply rsum_sq_le|].
  assert (Lt : length t = dims) by (unfold t; rewrite map2_length; lia).
  assert (E : rsum (map (fun a => a * a) t) = rsum (map (fun i => (nth i (map IZR l) 0 * nth i (map IZR l) 0) * dot (nth i cell []) (nth i cell [])) (seq 0 dims))).
  { f_equal. rewrite <- (map_nth_seq0 R t 0), map_map, Lt. apply map_ext_in. intros i Hi. apply in_seq in Hi. unfold t. rewrite (map2_nth _ _ _ _ _ _ _ 0%Z []) by lia.
    rewrite <- norm_sq. change 0 with (IZR 0). rewrite map_nth. assert (Rabs (IZR (nth i l 0%Z)) * Rabs (IZR (nth i l 0%Z)) = IZR (nth i l 0%Z) * IZR (nth i l 0%Z)) by (rewrite <- Rabs_mult, Rabs_right; nra). nra. }
  pose proof (dominant_lower dims cell (map IZR l) Hc Hv Hdom ltac:(rewrite map_length; auto)) as D. rewrite <- latvec_latvecR in D by auto. rewrite E.
  assert (Hd : INR (length t) <= 4) by (rewrite Lt, INR_IZR_INZ; apply IZR_le; lia).
  replace (3 * norm (latvec dims cell l) * (3 * norm (latvec dims cell l))) with (9 * (norm (latvec dims cell l) * norm (latvec dims cell l))) by ring.
  rewrite norm_sq. pose proof (dot_nonneg (latvec dims cell l)). pose proof (pos_INR (length t)).
  set (x := rsum _) in *. assert (0 <= x \/ x < 0) as [P|P] by lra; nra.
Qed.

Lemma vsub_shift_eq : forall q a b : list R, length q = length a -> length a = length b -> vsub (vadd q a) (vadd q b) = vsub a b.
Proof.
  unfold vsub, vadd. induction q as [|x q IH]; intros [|y a] [|z b] H1 H2; cbn in *; try discriminate; auto. f_equal; [lra|]. apply IH; lia.
Qed.
Lemma norm_vsub_r : forall a b : list R, length a = length b -> norm a <= norm b + norm (vsub a b).
Proof.
  intros a b L. assert (E : a = vadd b (vsub a b)).
  { apply vec_ext; [rewrite vadd_length, vsub_length; lia|]. intros j Hj. unfold vadd, vsub. rewrite !(map2_nth _ _ _ _ _ _ _ 0 0) by (rewrite ?map2_length; lia). cbn. lra. }
  rewrite E at 1. apply norm_triangle. rewrite vsub_length. lia.
Qed.
Lemma norm_repeat : forall c n, 0 <= c -> (n <= 4)%nat -> norm (repeat c n) <= 2 * c.
Proof.
  intros c n Hc Hn. apply Rle_of_sq; [lra|]. rewrite norm_sq. assert (E : dot (repeat c n) (repeat c n) = INR n * (c * c)). { clear. induction n as [|n IH]; [cbn; unfold dot; cbn; lra|]. cbn [repeat]. rewrite dot_cons, IH, S_INR. ring. }
  rewrite E. assert (INR n <= 4) by (rewrite INR_IZR_INZ; apply IZR_le; lia). nra.
Qed.

Lemma nth_vabs : forall v j, nth j (vabs v) 0 = Rabs (nth j v 0).
Proof. intros v j. unfold vabs. rewrite <- Rabs_R0 at 1. apply map_nth. Qed.

Section Points.
  Variables (ar : arith) (u eta B : R) (dims : nat) (motif cell : list (list R)).
  Hypothesis FL : float_like u eta ar.
  Hypothesis Hu : u <= 1 / 10000.
  Hypothesis OK : pset_ok dims motif cell.
  Hypothesis H4 : (dims <= 4)%nat.
  Hypothesis Hdom : half_dominant dims cell.
  Hypothesis HB : 0 <= B.
  Hypothesis He1 : eta <= u * B.
  Hypothesis He2 : eta <= (u * B) * (u * B).
  Hypothesis Hm : motif_within ar B motif.
  Let N : Num R := num_of ar.
  Let u0 : 0 <= u := fl_u _ _ _ FL.
  Let e0 : 0 <= eta := fl_eta _ _ _ FL.
  Let uB0 : 0 <= u * B := Rmult_le_pos _ _ u0 HB.

  Lemma motif_len : forall p, In p motif -> length p = dims.
  Proof. intros p Hp. pose proof (ok_motif_len _ _ _ OK) as H. rewrite Forall_forall in H. auto. Qed.
  Lemma motif_norm : forall p, In p motif -> norm p <= B.
  Proof.
    intros p Hp. unfold motif_within in Hm. rewrite Forall_forall in Hm. destruct (Hm p Hp) as [_ H]. eapply Rle_trans; [|exact H]. right. unfold norm. f_equal.
    clear. induction p as [|a p IH]; [reflexivity|]. rewrite dot_cons, IH. reflexivity.
  Qed.
  Lemma motif_dist : forall p q, In p motif -> In q motif -> dist p q <= 2 * B.
  Proof.
    intros p q Hp Hq. pose proof (motif_len p Hp). pose proof (motif_len q Hq). unfold dist.
    assert (E : norm (vsub p q) <= norm p + norm (vsub (vsub p q) p)) by (apply norm_vsub_r; rewrite vsub_length; lia).
    assert (E2 : norm (vsub (vsub p q) p) = norm q).
    { unfold norm. f_equal. rewrite !dot_vsub_l, !dot_vsub_r by (rewrite ?vsub_length; lia). rewrite (dot_comm q p). ring. }
    pose proof (motif_norm p Hp). pose proof (motif_norm q Hq). lra.
  Qed.

  Lemma rlat_near : forall l, length l = dims ->
    norm (vsub (rlat ar cell dims l) (latvec dims cell l)) <= 2112 / 100 * u * norm (latvec dims cell l) + 808 / 100 * (u * B).
  Proof.
    intros l Hl. pose proof (ok_cell _ _ _ OK) as Hc. pose proof (ok_cell_len _ _ _ OK) as Hv.
    pose proof (rlat_length ar dims cell l Hv) as L1. pose proof (latvec_length dims cell l Hv) as L2. pose proof (abs_lat_length dims cell l Hv) as L3.
    set (w := vadd (vscale (704 / 100 * u) (abs_lat dims cell l)) (repeat (404 / 100 * eta) dims)).
    assert (Lw : length w = dims) by (unfold w; rewrite vadd_length, vscale_length, repeat_length; lia).
    apply Rle_trans with (norm w).
    - apply norm_pointwise; [rewrite vsub_length; lia|]. intros j Hj. rewrite vsub_length, L1, L2, Nat.min_id in Hj.
      unfold vsub, w. rewrite (map2_nth _ _ _ _ _ _ _ 0 0) by lia. rewrite nth_vadd_R by (rewrite vscale_length, ?repeat_length; lia). rewrite nth_vscale_R by lia.
      assert (E : nth j (repeat (404 / 100 * eta) dims) 0 = 404 / 100 * eta). { rewrite (nth_indep _ 0 (404 / 100 * eta)) by (rewrite repeat_length; auto). apply nth_repeat. }
      rewrite E. destruct (rlat_error ar u eta FL Hu dims cell l j Hv ltac:(lia) ltac:(lia) Hj) as [R1 R2]. eapply Rle_trans; [exact R1|]. rewrite Hc.
      set (A := nth j (abs_lat dims cell l) 0) in *. pose proof (Rabs_pos (nth j (latvec dims cell l) 0)). assert (Hd : INR dims <= 4) by (rewrite INR_IZR_INZ; apply IZR_le; lia).
      assert (0 <= u * A) by (apply Rmult_le_pos; lra). apply Rplus_le_compat.
      + replace ((3 + 101 / 100 * INR dims) * u * A) with ((3 + 101 / 100 * INR dims) * (u * A)) by ring. replace (704 / 100 * u * A) with (704 / 100 * (u * A)) by ring. apply Rmult_le_compat_r; lra.
      + apply Rmult_le_compat_r; lra.
    - unfold w. eapply Rle_trans; [apply norm_triangle; rewrite vscale_length, repeat_length; auto|].
      rewrite norm_scale by lra. pose proof (norm_repeat (404 / 100 * eta) dims ltac:(lra) H4) as NR.
      pose proof (norm_abs_lat dims cell l Hv) as NA. pose proof (len_sum_le dims cell l Hc Hv Hdom H4 Hl) as NL.
      assert (704 / 100 * u * norm (abs_lat dims cell l) <= 704 / 100 * u * (3 * norm (latvec dims cell l))) by (apply Rmult_le_compat_l; lra). lra.
  Qed.

  Lemma add_near : forall v w : list R, length v = length w -> norm (vsub (@vadd R N v w) (vadd v w)) <= u * norm (vadd v w).
  Proof.
    intros v w L. rewrite <- norm_scale, <- (norm_vabs (vscale u (vadd v w))) by auto. apply norm_pointwise.
    - unfold vabs. rewrite map_length, vsub_length, vscale_length, (vadd_length_r ar), vadd_length. lia.
    - intros j Hj. rewrite vsub_length, (vadd_length_r ar), vadd_length in Hj. unfold vsub. rewrite (map2_nth _ _ _ _ _ _ _ 0 0) by (rewrite ?(vadd_length_r ar), ?vadd_length; lia).
      unfold N. rewrite nth_vadd_r by lia. rewrite nth_vadd_R by lia. rewrite nth_vabs.
      rewrite nth_vscale_R by (rewrite vadd_length; lia). rewrite nth_vadd_R by lia. rewrite Rabs_mult, (Rabs_right u) by lra.
      apply (fl_add _ _ _ FL).
  Qed.

  (** The rounded point of an index. *)
  Lemma rpt_length : forall a, pindex dims motif a -> length (rpt ar motif cell dims a) = dims.
  Proof.
    intros [l i] [Hl Hi]. unfold rpt. cbn [fst snd] in *. rewrite (vadd_length_r ar), rlat_length by apply (ok_cell_len _ _ _ OK). rewrite motif_len by (apply nth_In; auto). lia.
  Qed.
  Lemma pt_length : forall a, pindex dims motif a -> length (pt dims motif cell a) = dims.
  Proof.
    intros [l i] [Hl Hi]. unfold pt. cbn [fst snd] in *. rewrite vadd_length, latvec_length by apply (ok_cell_len _ _ _ OK). rewrite motif_len by (apply nth_In; auto). lia.
  Qed.
  Lemma latvec_le_dist : forall p l i, In p motif -> length l = dims -> (i < length motif)%nat ->
    norm (latvec dims cell l) <= dist p (pt dims motif cell (l, i)) + dist p (nth i motif []).
  Proof.
    intros p l i Hp Hl Hi. pose proof (latvec_length dims cell l (ok_cell_len _ _ _ OK)) as L2. pose proof (motif_len p Hp). pose proof (motif_len _ (nth_In motif [] Hi)).
    pose proof (dist_translate_lower p (nth i motif []) (latvec dims cell l) ltac:(lia) ltac:(lia)) as D. unfold pt. cbn [fst snd]. lra.
  Qed.
  Lemma rpt_near : forall p a, In p motif -> pindex dims motif a ->
    dist (rpt ar motif cell dims a) (pt dims motif cell a) <= 23 * u * dist p (pt dims motif cell a) + 515 / 10 * (u * B).
  Proof.
    intros p [l i] Hp [Hl Hi]. cbn [fst snd] in Hl, Hi. pose proof (nth_In motif [] Hi) as Hq. pose proof (latvec_le_dist p l i Hp Hl Hi) as NV.
    pose proof (motif_dist p _ Hp Hq) as D2. pose proof (rlat_near l Hl) as RN. pose proof (ok_cell_len _ _ _ OK) as Hv.
    pose proof (rlat_length ar dims cell l Hv) as L1. pose proof (latvec_length dims cell l Hv) as L2. pose proof (motif_len _ Hq) as Lq. pose proof (motif_len p Hp) as Lp.
    pose proof (pt_length (l, i) (conj Hl Hi)) as Lc. pose proof (rpt_length (l, i) (conj Hl Hi)) as Lr.
    set (d := dist p (pt dims motif cell (l, i))) in *. unfold rpt in *. cbn [fst snd] in *. set (q := nth i motif []) in *. set (v' := rlat ar cell dims l) in *.
    set (v := latvec dims cell l) in *. set (c := pt dims motif cell (l, i)) in *. assert (Ec : c = vadd q v) by reflexivity.
    pose proof (add_near q v' ltac:(lia)) as A. unfold N in A.
    assert (Es : norm (vsub (vadd q v') c) = norm (vsub v' v)) by (rewrite Ec, vsub_shift_eq; auto; lia).
    assert (S1 : norm (vadd q v') <= norm c + norm (vsub v' v)) by (rewrite <- Es; apply norm_vsub_r; rewrite vadd_length; lia).
    assert (S2 : norm c <= B + d).
    { pose proof (norm_vsub_r c p ltac:(lia)) as X. pose proof (motif_norm p Hp). rewrite norm_vsub_sym in X. fold (dist p c) in X. fold d in X. lra. }
    assert (T : dist (@vadd R (num_of ar) q v') c <= dist (@vadd R (num_of ar) q v') (vadd q v') + dist (vadd q v') c) by (apply dist_triangle; rewrite ?(vadd_length_r ar), ?vadd_length; lia).
    unfold dist in T at 2 3. rewrite Es in T.
    assert (Hd : 0 <= d) by apply dist_nonneg. set (e := norm (vsub v' v)) in *. assert (0 <= e) by apply norm_nonneg.
    assert (E1 : e <= 2112 / 100 * u * (d + 2 * B) + 808 / 100 * (u * B)). { assert (2112 / 100 * u * norm v <= 2112 / 100 * u * (d + 2 * B)) by (apply Rmult_le_compat_l; lra). lra. }
    assert (u * norm (vadd q v') <= u * (B + d + e)) by (apply Rmult_le_compat_l; lra).
    assert (u * e <= 1 / 10000 * e) by (apply Rmult_le_compat_r; lra). assert (0 <= u * d) by (apply Rmult_le_pos; auto). lra.
  Qed.

  Lemma sqd_root : forall p q, length p = dims -> length q = dims -> Rabs (sqrt (@sqd R N p q) - dist p q) <= 704 / 100 * u * dist p q + 202 / 100 * (u * B).
  Proof.
    intros p q Hp Hq. pose proof (sqd_error ar u eta FL Hu p q dims Hp Hq H4) as E. pose proof (dist_nonneg p q) as D.
    rewrite <- (sqrt_square (dist p q)) at 1 2 by auto. apply sqrt_near; [apply (sqd_nonneg_r ar u eta FL Hu)|nra|lra|lra|].
    eapply Rle_trans; [exact E|]. apply Rplus_le_compat_l. nra.
  Qed.

  Theorem key_error : forall p a, In p motif -> pindex dims motif a ->
    Rabs (sqrt (key ar motif cell dims p a) - dist p (pt dims motif cell a)) <= 54 * u * (dist p (pt dims motif cell a) + B).
  Proof.
    intros p a Hp Ha. pose proof (rpt_near p a Hp Ha) as R1. pose proof (rpt_length a Ha) as L1. pose proof (pt_length a Ha) as L2. pose proof (motif_len p Hp) as Lp.
    pose proof (sqd_root p (rpt ar motif cell dims a) Lp L1) as S1. unfold key. fold N. set (c' := rpt ar motif cell dims a) in *. set (c := pt dims motif cell a) in *.
    pose proof (dist_triangle p c' c ltac:(lia) ltac:(lia)) as T1. pose proof (dist_triangle p c c' ltac:(lia) ltac:(lia)) as T2. rewrite (dist_sym c c') in T2.
    pose proof (dist_nonneg p c) as D. set (d := dist p c) in *. set (d' := dist p c') in *. set (e := dist c' c) in *.
    replace (sqrt (@sqd R N p c') - d) with ((sqrt (@sqd R N p c') - d') + (d' - d)) by ring. eapply Rle_trans; [apply Rabs_triang|].
    assert (Rabs (d' - d) <= e) by (apply Rabs_le; lra).
    assert (0 <= u * d) by (apply Rmult_le_pos; auto). assert (0 <= e) by apply dist_nonneg.
    assert (704 / 100 * u * d' <= 704 / 100 * u * (d + e)) by (apply Rmult_le_compat_l; lra).
    assert (u * e <= 1 / 10000 * e) by (apply Rmult_le_compat_r; lra). lra.
  Qed.

  Lemma rlat_zero : rlat ar cell dims (repeat 0%Z dims) = repeat 0 dims.
  Proof.
    pose proof (ok_cell _ _ _ OK) as Hc. unfold rlat, latvec. transitivity (repeat 0 (length (seq 0 dims))); [|rewrite seq_length; auto]. generalize (seq 0 dims) as s. induction s as [|j s IH]; cbn [map length repeat]; auto. f_equal; auto.
    apply (r_dot_zero ar u eta FL); unfold col_of; rewrite !map_length, repeat_length; auto. intros i Hi.
    rewrite (nth_indep _ 0 (r_ofZ ar 0%Z)) by (rewrite map_length, repeat_length; auto). change (@nofZ R (num_of ar)) with (r_ofZ ar). rewrite map_nth, nth_repeat, (r_ofZ_zero ar u eta FL). ring.
  Qed.
  Lemma rpt_zero : forall i, (i < length motif)%nat -> rpt ar motif cell dims (repeat 0%Z dims, i) = nth i motif [].
  Proof.
    intros i Hi. unfold rpt. cbn [fst snd]. rewrite rlat_zero. pose proof (nth_In motif [] Hi) as Hq. pose proof (motif_len _ Hq) as Lq.
    unfold motif_within in Hm. rewrite Forall_forall in Hm. destruct (Hm _ Hq) as [Rp _]. set (q := nth i motif []) in *. clear Hq. clearbody q. revert Lq Rp. clear. intros Lq Rp. revert dims Lq.
    induction Rp as [|a q Ha Rp IH]; intros [|k] Lq; try discriminate; [reflexivity|]. cbn [repeat vadd map2]. f_equal; [exact Ha|]. apply IH. cbn in Lq. lia.
  Qed.
  Lemma key_zero : forall i, (i < length motif)%nat -> key ar motif cell dims (nth i motif []) (repeat 0%Z dims, i) = 0.
  Proof.
    intros i Hi. unfold key. rewrite rpt_zero by auto. rewrite (sqd_eq ar). apply (r_dot_zero ar u eta FL); auto. generalize (nth i motif []) as q. clear - FL.
    induction q as [|a q IH]; intros [|j] Hj; cbn in *; try lia; [rewrite (r_sub_self ar u eta FL); ring|]. apply IH. lia.
  Qed.

  (** A lattice vector beyond the bound of the search. *)
  Theorem far_error : forall x k mx mxd diam p l i, incl x motif -> (1 <= k)%nat ->
    diam = r_sqrt ar mxd -> 0 <= mxd -> (forall p i, In p x -> (i < length motif)%nat -> key ar motif cell dims p (repeat 0%Z dims, i) <= mxd) ->
    In p x -> length l = dims -> (i < length motif)%nat -> far ar cell dims diam mx l ->
    sqrt mx <= dist p (pt dims motif cell (l, i)) + 90 * u * (dist p (pt dims motif cell (l, i)) + B).
  Proof.
    intros x k mx mxd diam p l i Hx Hk Ed Hd0 Hd Hp Hl Hi (mx' & M1 & M2 & M3).
    assert (Hpm : In p motif) by auto. pose proof (nth_In motif [] Hi) as Hq. pose proof (motif_len p Hpm) as Lp. pose proof (motif_len _ Hq) as Lq.
    pose proof (latvec_le_dist p l i Hpm Hl Hi) as NV. pose proof (motif_dist p _ Hpm Hq) as D2. pose proof (dist_nonneg p (pt dims motif cell (l, i))) as Dd.
    pose proof (dist_nonneg p (nth i motif [])) as Dpq. pose proof (ok_cell_len _ _ _ OK) as Hv.
    pose proof (rlat_length ar dims cell l Hv) as L1. pose proof (latvec_length dims cell l Hv) as L2.
    (* the diameter *)
    assert (HD : dist p (nth i motif []) - (704 / 100 * u * dist p (nth i motif []) + 202 / 100 * (u * B)) <= sqrt mxd).
    { specialize (Hd p i Hp Hi). unfold key in Hd. rewrite rpt_zero in Hd by auto. apply sqrt_le_1_alt in Hd. pose proof (sqd_root p _ Lp Lq) as S1. fold N in Hd.
      pose proof (Rle_abs (- (sqrt (@sqd R N p (nth i motif [])) - dist p (nth i motif [])))) as A. rewrite Rabs_Ropp in A. lra. }
    (* the length of the lattice vector *)
    set (n' := norm (rlat ar cell dims l)). assert (Hn' : 0 <= n') by apply norm_nonneg.
    assert (HN : n' <= norm (latvec dims cell l) + (2112 / 100 * u * norm (latvec dims cell l) + 808 / 100 * (u * B))).
    { pose proof (norm_vsub_r (rlat ar cell dims l) (latvec dims cell l) ltac:(lia)) as A. pose proof (rlat_near l Hl). unfold n'. lra. }
    assert (HS : rnorm ar cell dims l <= n' * n' + (704 / 100 * u * (n' * n') + 404 / 100 * eta)).
    { pose proof (sqnorm_error ar u eta FL Hu (rlat ar cell dims l) ltac:(lia)) as A. fold n' in A. unfold rnorm.
      pose proof (Rle_abs (@sqnorm R (num_of ar) (rlat ar cell dims l) - n' * n')). lra. }
    (* the bound *)
    pose proof (sqrt_pos mx') as P1. pose proof (sqrt_pos mxd) as P2.
    set (s := r_sqrt ar mx'). assert (Hs : (1 - u) * sqrt mx' <= s).
    { pose proof (fl_sqrt _ _ _ FL mx' M2) as A. fold s in A. pose proof (Rle_abs (- (s - sqrt mx'))) as A2. rewrite Rabs_Ropp in A2. lra. }
    assert (Hdi : (1 - u) * sqrt mxd <= diam).
    { pose proof (fl_sqrt _ _ _ FL mxd Hd0) as A. rewrite <- Ed in A. pose proof (Rle_abs (- (diam - sqrt mxd))) as A2. rewrite Rabs_Ropp in A2. lra. }
    assert (Hs0 : 0 <= s) by (assert (0 <= (1 - u) * sqrt mx') by (apply Rmult_le_pos; lra); lra).
    assert (Hdi0 : 0 <= diam) by (assert (0 <= (1 - u) * sqrt mxd) by (apply Rmult_le_pos; lra); lra).
    set (b := r_add ar s diam). assert (Hb : (1 - u) * (s + diam) <= b).
    { pose proof (fl_add _ _ _ FL s diam) as A. fold b in A. rewrite (Rabs_right (s + diam)) in A by lra. pose proof (Rle_abs (- (b - (s + diam)))) as A2. rewrite Rabs_Ropp in A2. lra. }
    assert (Hb0 : 0 <= b) by (assert (0 <= (1 - u) * (s + diam)) by (apply Rmult_le_pos; lra); lra).
    assert (Hbb : b * b - (u * (b * b) + eta) <= bnd ar mx' diam).
    { unfold bnd. fold s. fold b. pose proof (fl_mul _ _ _ FL b b) as A. rewrite (Rabs_right (b * b)) in A by nra. pose proof (Rle_abs (- (r_mul ar b b - b * b))) as A2. rewrite Rabs_Ropp in A2. lra. }
    assert (HR : (1 - u) * b <= (1 + 704 / 100 * u) * n' + 225 / 100 * (u * B)).
    { assert (X : b * b - u * (b * b) <= n' * n' + 704 / 100 * u * (n' * n') + 504 / 100 * ((u * B) * (u * B))) by lra.
      assert (0 <= (704 / 100 * u) * n') by (apply Rmult_le_pos; lra).
      apply Rle_of_sq; [lra|]. set (t := 704 / 100 * u) in *. set (g := u * B) in *.
      assert (T1 : ((1 - u) * b) * ((1 - u) * b) <= b * b - u * (b * b)). { assert (0 <= u * (1 - u) * (b * b)) by (apply Rmult_le_pos; [apply Rmult_le_pos; lra|nra]). nra. }
      assert (T2 : n' * n' + t * (n' * n') <= ((1 + t) * n') * ((1 + t) * n')). { assert (0 <= t) by (unfold t; lra). assert (0 <= (t + t * t) * (n' * n')) by (apply Rmult_le_pos; nra). nra. }
      assert (T3 : 0 <= (1 + t) * n' * g) by (apply Rmult_le_pos; lra). assert (0 <= g * g) by nra.
      replace (((1 + t) * n' + 225 / 100 * g) * ((1 + t) * n' + 225 / 100 * g)) with (((1 + t) * n') * ((1 + t) * n') + 450 / 100 * ((1 + t) * n' * g) + 50625 / 10000 * (g * g)) by field. lra. }
    assert (HC : (1 - 3 * u) * (sqrt mx' + sqrt mxd) <= (1 - u) * b).
    { assert ((1 - u) * ((1 - u) * (s + diam)) <= (1 - u) * b) by (apply Rmult_le_compat_l; lra).
      assert ((1 - u) * ((1 - u) * ((1 - u) * sqrt mx' + (1 - u) * sqrt mxd)) <= (1 - u) * ((1 - u) * (s + diam))) by (apply Rmult_le_compat_l; [lra|]; apply Rmult_le_compat_l; lra).
      set (y := sqrt mx' + sqrt mxd) in *. assert ((1 - 3 * u) * y <= (1 - u) * (1 - u) * (1 - u) * y).
      { apply Rmult_le_compat_r; [unfold y; lra|]. assert (0 <= u * u * (3 - u)) by (apply Rmult_le_pos; nra). nra. } unfold y in *. lra. }
    (* together *)
    assert (Hmx : sqrt mx <= sqrt mx') by (apply sqrt_le_1_alt; auto).
    set (d := dist p (pt dims motif cell (l, i))) in *. set (pq := dist p (nth i motif [])) in *. set (v := norm (latvec dims cell l)) in *.
    assert (Hv0 : 0 <= v) by apply norm_nonneg.
    assert (V1 : (1 + 704 / 100 * u) * n' <= (1 + 282 / 10 * u) * v + 81 / 10 * (u * B)).
    { assert ((1 + 704 / 100 * u) * n' <= (1 + 704 / 100 * u) * ((1 + 2112 / 100 * u) * v + 808 / 100 * (u * B))) by (apply Rmult_le_compat_l; lra).
      assert (0 <= u * v) by (apply Rmult_le_pos; auto). assert (u * (u * v) <= 1 / 10000 * (u * v)) by (apply Rmult_le_compat_r; auto). assert (u * (u * B) <= 1 / 10000 * (u * B)) by (apply Rmult_le_compat_r; auto). lra. }
    assert (V2 : (1 + 282 / 10 * u) * v <= (1 + 282 / 10 * u) * (d + pq)) by (apply Rmult_le_compat_l; lra).
    assert (V3 : (1 - 3 * u) * (pq - (704 / 100 * u * pq + 202 / 100 * (u * B))) <= (1 - 3 * u) * sqrt mxd) by (apply Rmult_le_compat_l; lra).
    assert (Upq : 0 <= u * pq) by (apply Rmult_le_pos; auto). assert (Upq2 : u * pq <= u * (2 * B)) by (apply Rmult_le_compat_l; auto).
    assert (0 <= u * (u * pq)) by (apply Rmult_le_pos; auto). assert (0 <= u * (u * B)) by (apply Rmult_le_pos; auto).
    assert (Z1 : (1 - 3 * u) * sqrt mx' <= (1 + 282 / 10 * u) * d + 89 * (u * B)) by lra.
    assert (Ud : 0 <= u * d) by (apply Rmult_le_pos; auto). assert (Ud2 : u * (u * d) <= 1 / 10000 * (u * d)) by (apply Rmult_le_compat_r; auto). assert (Ub2 : u * (u * B) <= 1 / 10000 * (u * B)) by (apply Rmult_le_compat_r; auto).
    apply Rle_trans with (sqrt mx'); auto. apply (Rmult_le_reg_l (1 - 3 * u)); [lra|]. lra.
  Qed.
End Points.
