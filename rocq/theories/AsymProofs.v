(** The number of points of a periodic set within a distance, and the k-th smallest distance up to a constant. *)
From Coq Require Import List ZArith Arith Bool Lia Reals Lra Sorted.
From Verif Require Import Num Base NNModel SpecGeom SpecDet VecR NNProofs NNSpecProofs CalcProofs DetProofs Props_PPC BallProofs CountProofs GramProofs.
Import ListNotations.
Open Scope R_scope.

(** Every vector is a combination of the rows of a non-singular cell. *)
Lemma coordinates : forall n cs v, vecs n cs -> length cs = n -> det n (entries cs) <> 0 -> length v = n ->
  exists xi, length xi = n /\ forall j, (j < n)%nat -> nth j v 0 = comb_coord cs xi j.
Proof.
  intros n cs v HV HL ND Hv. destruct (project n cs v HV Hv) as (a & La & Pa). exists a. split; [lia|].
  pose proof (residual_length n v a cs HV Hv) as LR.
  assert (Z : forall i, (i < n)%nat -> nth i (residual n v a cs) 0 = 0).
  { apply (kernel_zero n (entries cs) (fun j => nth j (residual n v a cs) 0) ND). intros i Hi. unfold entries. rewrite <- (rdot_sigma n) by (auto; apply row_len; auto). rewrite rdot_dot, dot_comm. apply Pa, nth_In. lia. }
  intros j Hj. specialize (Z j Hj). rewrite residual_entry in Z by auto. unfold comb_coord. rewrite rsum_seq. lra.
Qed.
Lemma comb_offset : forall cs ls xi j, length ls = length cs -> length xi = length cs -> comb_coord cs (offset ls xi) j = lattice_coord cs ls j - comb_coord cs xi j.
Proof.
  intros cs ls xi j H1 H2. unfold lattice_coord, comb_coord. rewrite !rsum_seq. rewrite <- (Rmult_1_l (sigma _ (fun r => nth r (map IZR ls) 0 * _))).
  replace (1 * sigma (length cs) (fun r => nth r (map IZR ls) 0 * nth j (nth r cs []) 0) - sigma (length cs) (fun r => nth r xi 0 * nth j (nth r cs []) 0))
    with ((-1) * sigma (length cs) (fun r => nth r xi 0 * nth j (nth r cs []) 0) + sigma (length cs) (fun r => nth r (map IZR ls) 0 * nth j (nth r cs []) 0)) by ring.
  rewrite <- sigma_lin. apply sigma_ext. intros i Hi. unfold offset. rewrite (map2_nth _ _ _ (fun l x => IZR l - x) ls xi i 0%Z 0 0) by lia. rewrite (map_nth IZR ls 0%Z i). ring.
Qed.

Section Set_.
  Variables (dims : nat) (motif cell : list (list R)).
  Hypothesis OK : pset_ok dims motif cell.
  Hypothesis NS : nonsingular dims cell.
  Let m := length motif.

  Lemma sq_dist_sqlen : forall p i, length p = dims -> (i < m)%nat -> exists xi, length xi = dims /\ forall ls, length ls = dims -> sq_dist p (ppoint dims motif cell (ls, i)) = sqlen dims cell (offset ls xi).
  Proof.
    intros p i Hp Hi. pose proof (ok_cell _ _ _ OK) as HC. pose proof (ok_cell_len _ _ _ OK) as HV. pose proof (proj1 (nonsingular_det dims cell HC HV) NS) as ND.
    assert (Hq : length (nth i motif []) = dims). { pose proof (ok_motif_len _ _ _ OK) as H. rewrite Forall_forall in H. apply H, nth_In. auto. }
    destruct (coordinates dims cell (vsub p (nth i motif [])) HV HC ND) as (xi & LX & EX); [rewrite vsub_length; lia|].
    exists xi. split; auto. intros ls Hls. rewrite <- sqd_sq_dist, sqd_sym, sqd_dot. unfold sqlen.
    assert (LP : length (ppoint dims motif cell (ls, i)) = dims) by (unfold ppoint; rewrite map_length, seq_length; auto).
    replace (vsub (ppoint dims motif cell (ls, i)) p) with (latvecR dims cell (offset ls xi)); auto.
    apply vec_ext; [rewrite vsub_length, latvecR_length by auto; lia|]. intros j Hj. rewrite latvecR_length in Hj by auto.
    rewrite latvecR_nth by (auto; rewrite offset_length; lia). rewrite comb_offset by lia. specialize (EX j Hj). rewrite <- EX. unfold vsub. rewrite !(map2_nth _ _ _ Rminus _ _ j 0 0 0) by lia.
    unfold ppoint. set (f := fun j0 => nth j0 (nth (snd (ls, i)) motif []) 0 + lattice_coord cell (fst (ls, i)) j0). rewrite (nth_indep (map f (seq 0 dims)) 0 (f 0%nat)) by (rewrite map_length, seq_length; auto). rewrite (map_nth f (seq 0 dims) 0%nat j), seq_nth by auto. unfold f. cbn [plus fst snd]. ring.
  Qed.

  Definition density : R := INR m * ball dims / volume_of dims cell.
  Lemma volume_pos : 0 < volume_of dims cell.
  Proof. apply Rabs_pos_lt, nonsingular_det; auto; apply OK. Qed.
  Lemma m_pos' : 1 <= INR m.
  Proof. apply (le_INR 1). apply ok_size in OK. tauto. Qed.
  Lemma density_pos : 0 < density.
  Proof. apply Rdiv_lt_0_compat; [|apply volume_pos]. pose proof m_pos'. apply Rmult_lt_0_compat; [lra|apply ball_pos]. Qed.

  Theorem point_count : exists C, 0 <= C /\ forall p r, length p = dims -> 0 <= r -> exists N : list (list Z * nat), NoDup N /\
    (forall a, In a N <-> pindex dims motif a /\ edist p (ppoint dims motif cell a) <= r) /\
    Rabs (INR (length N) - density * r ^ dims) <= C * lower_order dims r.
  Proof.
    pose proof (ok_cell _ _ _ OK) as HC. pose proof (ok_cell_len _ _ _ OK) as HV. pose proof (proj1 (nonsingular_det dims cell HC HV) NS) as ND.
    destruct (lattice_count dims cell HV HC ND) as (C & HC0 & LC). exists (INR m * C). split; [apply Rmult_le_pos; auto; apply pos_INR|].
    intros p r Hp Hr.
    assert (EACH : forall i : Z, In i (map Z.of_nat (seq 0 m)) -> exists S : list (list Z), NoDup S /\ (forall ls, In ls S <-> length ls = dims /\ edist p (ppoint dims motif cell (ls, Z.to_nat i)) <= r) /\
      Rabs (INR (length S) - ball dims * r ^ dims / volume_of dims cell) <= C * lower_order dims r).
    { intros z Hz. apply in_map_iff in Hz. destruct Hz as (i & <- & Hi). apply in_seq in Hi. rewrite Nat2Z.id. destruct (sq_dist_sqlen p i Hp ltac:(lia)) as (xi & LX & EX).
      destruct (LC xi r LX Hr) as (S & S1 & S2 & S3). exists S. split; [auto|split; [|auto]]. intros ls. rewrite S2. split; intros (H1 & H2); split; auto; unfold edist in *.
      - rewrite EX by auto. rewrite <- (sqrt_square r) by auto. apply sqrt_le_1_alt. auto.
      - rewrite EX in H2 by auto. pose proof (dot_nonneg (latvecR dims cell (offset ls xi))) as P0. fold (sqlen dims cell (offset ls xi)) in P0. rewrite <- (sqrt_sqrt (sqlen dims cell (offset ls xi))) by auto.
        pose proof (sqrt_pos (sqlen dims cell (offset ls xi))). nra. }
    destruct (choose_each _ _ [] _ EACH) as (F & HF).
    exists (flat_map (fun i => map (fun l => (l, i)) (F (Z.of_nat i))) (seq 0 m)).
    assert (HF' : forall i, (i < m)%nat -> NoDup (F (Z.of_nat i)) /\ (forall ls, In ls (F (Z.of_nat i)) <-> length ls = dims /\ edist p (ppoint dims motif cell (ls, i)) <= r) /\ Rabs (INR (length (F (Z.of_nat i))) - ball dims * r ^ dims / volume_of dims cell) <= C * lower_order dims r).
    { intros i Hi. specialize (HF (Z.of_nat i)). rewrite Nat2Z.id in HF. apply HF. apply in_map, in_seq. lia. }
    split; [|split].
    - assert (G : forall n st, (st + n <= m)%nat -> NoDup (flat_map (fun i => map (fun l => (l, i)) (F (Z.of_nat i))) (seq st n))); [|apply (G m 0%nat); lia].
      induction n as [|n IH]; intros st Hst; cbn [seq flat_map]; [constructor|]. apply NoDup_app_iff. split; [|split].
      + apply FinFun.Injective_map_NoDup; [intros x y; congruence|]. apply HF'. lia.
      + apply IH. lia.
      + intros x H1 H2. apply in_map_iff in H1. destruct H1 as (l & <- & _). apply in_flat_map in H2. destruct H2 as (j & Hj & H2). apply in_map_iff in H2. destruct H2 as (l' & E & _). injection E as -> ->. apply in_seq in Hj. lia.
    - intros [l i]. rewrite in_flat_map. split.
      + intros (j & Hj & H). apply in_map_iff in H. destruct H as (l' & E & H). injection E as -> ->. apply in_seq in Hj. apply HF' in H; [|lia]. split; [split; cbn; [tauto|fold m; lia]|tauto].
      + intros ((H1 & H2) & H3). cbn in H1, H2. exists i. split; [apply in_seq; fold m in H2; lia|]. apply in_map_iff. exists l. split; auto. apply HF'; auto.
    - rewrite length_flat. assert (CL := rsum_close nat (fun i => INR (length (map (fun l => (l, i)) (F (Z.of_nat i))))) (fun _ => ball dims * r ^ dims / volume_of dims cell) (C * lower_order dims r) (seq 0 m)).
      rewrite rsum_const, seq_length in CL. replace (density * r ^ dims) with (INR m * (ball dims * r ^ dims / volume_of dims cell)) by (unfold density; field; pose proof volume_pos; lra).
      rewrite Rmult_assoc. apply CL. intros i Hi. apply in_seq in Hi. rewrite map_length. apply HF'. lia.
  Qed.
End Set_.

(** ** From counts to distances *)
Section Root.
  Variables (n : nat) (c C : R).
  Hypothesis Hn : (1 <= n)%nat.
  Hypothesis Hc : 0 < c.
  Hypothesis HC : 0 <= C.
  Definition slack : R := 1 + C * 2 ^ (n - 1) / c.
  Lemma slack_ge : 1 <= slack.
  Proof. unfold slack. assert (0 <= C * 2 ^ (n - 1) / c); [|lra]. apply Rmult_le_pos; [apply Rmult_le_pos; auto; apply pow_le; lra|left; apply Rinv_0_lt_compat; auto]. Qed.
  Lemma slack_eq : C * 2 ^ (n - 1) = c * (slack - 1).
  Proof. unfold slack. field. lra. Qed.
  Lemma lower_pow : forall r, lower_order n r = (1 + r) ^ (n - 1).
  Proof. intros r. destruct n as [|k]; [lia|]. cbn [lower_order]. f_equal. lia. Qed.
  Lemma pow_split : forall x, x ^ n = x * x ^ (n - 1).
  Proof. intros x. destruct n as [|k]; [lia|]. cbn [pow]. f_equal. f_equal. lia. Qed.
  Lemma pow_grow : forall x b, 0 <= x -> 0 <= b -> x ^ n + b * (x + b) ^ (n - 1) <= (x + b) ^ n.
  Proof. intros x b Hx Hb. rewrite !pow_split. assert (x ^ (n - 1) <= (x + b) ^ (n - 1)) by (apply pow_incr; lra). nra. Qed.
  Lemma pow_mono_inv : forall x y, 0 <= x -> 0 <= y -> x ^ n <= y ^ n -> x <= y.
  Proof. intros x y Hx Hy H. destruct (Rle_or_lt x y) as [L|L]; auto. exfalso. assert (y ^ n < x ^ n); [|lra]. rewrite !pow_split. assert (y ^ (n - 1) <= x ^ (n - 1)) by (apply pow_incr; lra). assert (0 < x ^ (n - 1)) by (apply pow_lt; lra). nra. Qed.
  Lemma below : forall d k rho, 0 <= d -> 0 <= rho -> c * rho ^ n = k -> k <= c * d ^ n + C * lower_order n d -> rho <= d + slack.
  Proof.
    intros d k rho Hd Hrho E H. pose proof slack_ge as SG. pose proof slack_eq as SE. apply pow_mono_inv; try lra. apply (Rmult_le_reg_l c); auto. rewrite E. apply Rle_trans with (1 := H).
    pose proof (pow_grow d slack Hd ltac:(lra)) as G. rewrite lower_pow. assert (P : 0 <= (1 + d) ^ (n - 1) <= (d + slack) ^ (n - 1)) by (split; [apply pow_le; lra|apply pow_incr; lra]).
    assert (C <= c * slack). { assert (1 <= 2 ^ (n - 1)) by (apply pow_R1_Rle; lra). nra. }
    apply Rle_trans with (c * (d ^ n + slack * (d + slack) ^ (n - 1))); [|apply Rmult_le_compat_l; lra].
    assert (C * (1 + d) ^ (n - 1) <= c * slack * (d + slack) ^ (n - 1)); [|lra]. apply Rmult_le_compat; lra.
  Qed.
  Lemma above : forall d k rho, 0 <= rho -> c * rho ^ n = k -> (forall r, 0 <= r -> r < d -> c * r ^ n - C * lower_order n r <= k) -> d <= rho + slack.
  Proof.
    intros d k rho Hrho E H. pose proof slack_ge as SG. pose proof slack_eq as SE. destruct (Rle_or_lt d (rho + slack)) as [L|L]; auto. exfalso.
    specialize (H (rho + slack) ltac:(lra) L). rewrite lower_pow in H. pose proof (pow_grow rho slack Hrho ltac:(lra)) as G.
    assert (P : (1 + (rho + slack)) ^ (n - 1) <= 2 ^ (n - 1) * (rho + slack) ^ (n - 1)) by (rewrite <- Rpow_mult_distr; apply pow_incr; lra).
    assert (Q : 0 < (rho + slack) ^ (n - 1)) by (apply pow_lt; lra).
    assert (C * (1 + (rho + slack)) ^ (n - 1) <= c * (slack - 1) * (rho + slack) ^ (n - 1)). { rewrite <- SE, Rmult_assoc. apply Rmult_le_compat_l; auto. }
    assert (c * (rho ^ n + slack * (rho + slack) ^ (n - 1)) <= c * (rho + slack) ^ n) by (apply Rmult_le_compat_l; lra).
    assert (0 < c * (rho + slack) ^ (n - 1)) by (apply Rmult_lt_0_compat; auto). lra.
  Qed.
End Root.
