(** The rows of nearest_neighbors for an arbitrary cell: they exceed the nearest distances by at most the sum of the
    lengths of the cell vectors and the diameter of the motif. *)
From Coq Require Import List ZArith Arith Bool Lia Reals Lra Sorted.
From Verif Require Import Num Base Outcome NNModel Spec SpecGeom SpecAsym CacheProofs VecR NNProofs NNSpecProofs NNComplete BallProofs GramProofs.
Import ListNotations.
Open Scope R_scope.

(** ** A lattice path from a far integer point towards 0, along the segment *)
Section Path.
  Variables (d : nat) (l : list Z).
  Hypothesis Hl : length l = d.
  Definition near_ray (u : list Z) : Prop := length u = d /\ (forall i, (i < d)%nat -> (0 <= nth i u 0 * nth i l 0)%Z) /\
    exists t, 0 <= t <= 1 /\ forall i, (i < d)%nat -> IZR (Z.abs (nth i u 0%Z)) <= t * IZR (Z.abs (nth i l 0%Z)) <= IZR (Z.abs (nth i u 0%Z)) + 1.
  Lemma near_start : near_ray l.
  Proof. split; auto. split; [intros; nia|]. exists 1. split; [lra|]. intros i Hi. lra. Qed.
  Lemma upd_len : forall (u : list Z) i z, length (upd u i z) = length u.
  Proof. induction u as [|a u IH]; intros [|i] z; cbn; auto. Qed.
  Lemma nth_upd_eq : forall (u : list Z) i z, (i < length u)%nat -> nth i (upd u i z) 0%Z = z.
  Proof. induction u as [|a u IH]; intros [|i] z Hi; cbn in *; try lia; auto. apply IH. lia. Qed.
  Lemma nth_upd_other : forall (u : list Z) i j z, i <> j -> nth j (upd u i z) 0%Z = nth j u 0%Z.
  Proof. induction u as [|a u IH]; intros [|i] [|j] z Hi; cbn in *; try lia; auto. Qed.
  Lemma zsq_pos : forall u, (0 < zsq u)%Z -> exists i, (i < length u)%nat /\ nth i u 0%Z <> 0%Z.
  Proof.
    induction u as [|a u IH]; intros H; [cbn in H; lia|]. rewrite zsq_cons in H. destruct (Z.eq_dec a 0) as [->|N]; [|exists 0%nat; cbn; split; [lia|auto]].
    destruct IH as (i & H1 & H2); [lia|]. exists (S i). cbn. split; [lia|auto].
  Qed.
  Lemma near_step : forall n u, (1 <= n)%Z -> near_ray u -> (n * n < zsq u)%Z -> exists u', near_ray u' /\ (zsq u' < zsq u)%Z /\ ((n - 1) * (n - 1) < zsq u')%Z.
  Proof.
    intros n u Hn (Lu & SG & t & Ht & NR) HZ. destruct (zsq_pos u ltac:(nia)) as (i0 & Hi0 & N0). rewrite Lu in Hi0.
    set (f := fun j => if Z.eq_dec (nth j l 0%Z) 0 then 0 else IZR (Z.abs (nth j u 0%Z)) / IZR (Z.abs (nth j l 0%Z))).
    assert (L0 : forall j, (j < d)%nat -> nth j l 0%Z = 0%Z -> nth j u 0%Z = 0%Z).
    { intros j Hj E. specialize (NR j Hj). rewrite E in NR. cbn [Z.abs] in NR. assert (IZR (Z.abs (nth j u 0%Z)) <= 0) by lra. apply le_IZR in H. lia. }
    assert (FE : forall j, (j < d)%nat -> f j * IZR (Z.abs (nth j l 0%Z)) = IZR (Z.abs (nth j u 0%Z))).
    { intros j Hj. unfold f. destruct (Z.eq_dec (nth j l 0%Z) 0) as [E|E]; [rewrite (L0 j Hj E), E; cbn; ring|]. field. apply not_0_IZR. lia. }
    destruct (argmax d f ltac:(lia)) as (i & Hi & MX). set (t0 := f i) in *.
    assert (POS : forall j, 0 <= IZR (Z.abs (nth j l 0%Z)) /\ 0 <= IZR (Z.abs (nth j u 0%Z))) by (intros j; split; apply IZR_le; lia).
    assert (T0 : 0 < t0).
    { apply Rlt_le_trans with (f i0); [|apply MX; auto]. specialize (FE i0 Hi0). pose proof (POS i0). assert (1 <= IZR (Z.abs (nth i0 u 0%Z))) by (apply IZR_le; lia). nra. }
    assert (NI : nth i u 0%Z <> 0%Z). { intros E. pose proof (FE i Hi) as Fi. fold t0 in Fi. rewrite E in Fi. cbn [Z.abs] in Fi. apply Rmult_integral in Fi. destruct Fi as [Fi|Fi]; [lra|]. apply eq_IZR in Fi. unfold t0, f in T0. destruct (Z.eq_dec (nth i l 0%Z) 0); [lra|lia]. }
    assert (LI : nth i l 0%Z <> 0%Z) by (intros E; apply NI, L0; auto).
    assert (T1 : t0 <= t). { pose proof (FE i Hi) as Fi. fold t0 in Fi. specialize (NR i Hi). assert (1 <= IZR (Z.abs (nth i l 0%Z))) by (apply IZR_le; lia). nra. }
    set (z := (- Z.sgn (nth i u 0))%Z). assert (AB : (Z.abs (nth i u 0 + z) = Z.abs (nth i u 0) - 1)%Z) by (unfold z; lia).
    assert (ZS : (zsq (upd u i (nth i u 0 + z)) = zsq u - 2 * Z.abs (nth i u 0) + 1)%Z) by (rewrite zsq_upd by lia; unfold z; destruct (Z.sgn_spec (nth i u 0%Z)) as [[H1 H2]|[[H1 H2]|[H1 H2]]]; rewrite H2; lia).
    exists (upd u i (nth i u 0 + z)%Z). split; [|split].
    - split; [rewrite upd_len; auto|]. split.
      + intros j Hj. destruct (Nat.eq_dec i j) as [<-|N]; [rewrite nth_upd_eq by lia|rewrite nth_upd_other by auto; auto]. specialize (SG i Hi). unfold z. nia.
      + exists t0. split; [lra|]. intros j Hj. destruct (Nat.eq_dec i j) as [<-|N].
        * rewrite nth_upd_eq by lia. rewrite AB, minus_IZR. pose proof (FE i Hi) as Fi. fold t0 in Fi. lra.
        * rewrite nth_upd_other by auto. pose proof (FE j Hj) as Fj. pose proof (MX j Hj) as Mj. fold t0 in Mj. specialize (NR j Hj). destruct (POS j). split; nra.
    - rewrite ZS. lia.
    - rewrite ZS. pose proof (zsq_ge u i). destruct (Z_le_gt_dec (Z.abs (nth i u 0%Z)) n); nia.
  Qed.
  Lemma near_shell : forall n, (1 <= n)%Z -> (n * n < zsq l)%Z -> exists u, near_ray u /\ (zsq u <= n * n)%Z /\ ((n - 1) * (n - 1) < zsq u)%Z.
  Proof.
    intros n Hn HZ. assert (G : forall k u, (zsq u < Z.of_nat k)%Z -> near_ray u -> ((n - 1) * (n - 1) < zsq u)%Z -> exists u', near_ray u' /\ (zsq u' <= n * n)%Z /\ ((n - 1) * (n - 1) < zsq u')%Z).
    { induction k as [|k IH]; intros u Hk NR Lo; [pose proof (zsq_nonneg u); lia|]. destruct (Z_le_gt_dec (zsq u) (n * n)) as [L|L]; [exists u; auto|].
      destruct (near_step n u Hn NR ltac:(lia)) as (u' & N1 & N2 & N3). apply (IH u'); auto. lia. }
    apply (G (S (Z.to_nat (zsq l))) l); [pose proof (zsq_nonneg l); lia|apply near_start|nia].
  Qed.
  Lemma near_split : forall u, near_ray u -> exists t e, 0 <= t <= 1 /\ length e = d /\ Forall (fun x => Rabs x <= 1) e /\ map IZR u = rlin t e (map IZR l).
  Proof.
    intros u (Lu & SG & t & Ht & NR). exists t, (map (fun i => IZR (nth i u 0%Z) - t * IZR (nth i l 0%Z)) (seq 0 d)). split; auto. split; [rewrite map_length, seq_length; auto|]. split.
    - apply Forall_forall. intros x Hx. apply in_map_iff in Hx. destruct Hx as (i & <- & Hi). apply in_seq in Hi. specialize (SG i ltac:(lia)). specialize (NR i ltac:(lia)).
      apply Rabs_le. destruct (Z_le_gt_dec 0 (nth i u 0%Z)) as [A|A], (Z_le_gt_dec 0 (nth i l 0%Z)) as [B|B].
      + rewrite !Z.abs_eq in NR by auto. lra.
      + assert (E : nth i u 0%Z = 0%Z) by nia. rewrite E in *. rewrite (Z.abs_neq (nth i l 0%Z)) in NR by lia. rewrite opp_IZR in NR. cbn [Z.abs] in NR. lra.
      + rewrite (Z.abs_neq (nth i u 0%Z)) in NR by lia. assert (E : nth i l 0%Z = 0%Z) by nia. rewrite E in *. rewrite opp_IZR in NR. cbn [Z.abs] in NR. lra.
      + rewrite !Z.abs_neq in NR by lia. rewrite !opp_IZR in NR. lra.
    - apply vec_ext; [rewrite rlin_length; rewrite !map_length, ?seq_length; lia|]. rewrite map_length, Lu. intros i Hi. unfold rlin.
      rewrite (map2_nth _ _ _ (fun x y => x + t * y) _ _ i 0 0 0) by (rewrite map_length, ?seq_length; lia). set (f := fun i => IZR (nth i u 0%Z) - t * IZR (nth i l 0%Z)).
      rewrite (nth_indep (map f (seq 0 d)) 0 (f 0%nat)) by (rewrite map_length, seq_length; auto). rewrite (map_nth f (seq 0 d) 0%nat i), seq_nth by auto. unfold f. rewrite (map_nth IZR u 0%Z i), (map_nth IZR l 0%Z i). cbn [plus]. ring.
  Qed.
End Path.

(** ** Lengths of combinations *)
Lemma norm_lin : forall u v w t, 0 <= t -> (forall x, dot u x = dot v x + t * dot w x) -> norm u <= norm v + t * norm w.
Proof.
  intros u v w t Ht H. pose proof (norm_nonneg u). pose proof (norm_nonneg v). pose proof (norm_nonneg w). pose proof (norm_sq u) as E. rewrite H in E.
  pose proof (dot_le_norm v u). pose proof (dot_le_norm w u). destruct H0 as [P|<-]; [|nra]. apply (Rmult_le_reg_r (norm u)); auto. assert (t * dot w u <= t * (norm w * norm u)) by (apply Rmult_le_compat_l; auto). lra.
Qed.
Lemma norm_comb : forall d cs e, vecs d cs -> length e = length cs -> Forall (fun x => Rabs x <= 1) e -> norm (latvecR d cs e) <= edge_sum cs.
Proof.
  intros d. unfold edge_sum. induction cs as [|c cs IH]; intros [|x e] HV HL HE; try discriminate.
  - cbn. unfold norm. rewrite (dot_vzero_l d). rewrite sqrt_0. lra.
  - pose proof (Forall_inv HV) as Lc. apply Forall_inv_tail in HV. pose proof (Forall_inv HE) as Hx0. apply Forall_inv_tail in HE. cbn beta in Lc, Hx0. rewrite comb_cons. cbn [map]. unfold rsum in *. cbn [fold_right]. specialize (IH e HV ltac:(cbn in HL; lia) HE).
    eapply Rle_trans; [apply norm_triangle; rewrite vscale_length, latvecR_length; auto|]. apply Rplus_le_compat; auto.
    rewrite rdot_dot. fold (norm c). pose proof (norm_nonneg c). apply Rle_of_sq; auto. rewrite !norm_sq, dot_vscale_l, dot_vscale_r. pose proof (dot_nonneg c).
    assert (x * x <= 1). { apply Rabs_def2' in Hx0. nra. } nra.
Qed.

Section Error.
  Variables (dims : nat) (motif cell : list (list R)).
  Hypothesis OK : pset_ok dims motif cell.
  Variable b : R.
  Hypothesis Hb : motif_diameter motif b.
  Variables (x : list (list R)) (k n : nat).
  Hypothesis Hx : incl x motif.
  Hypothesis Hn : (1 <= n)%nat.

  Lemma settled_within : settled motif cell x k dims n -> exists mx, is_max motif cell x k dims n mx /\
    forall a p, pindex dims motif a -> ~ In a (visited motif dims n) -> In p x -> sqrt mx <= edist p (ppoint dims motif cell a) + (edge_sum cell + b).
  Proof.
    intros (mx & M & FAR). exists mx. split; auto. intros [l i] p (Hl & Hi) NV Hp. cbn [fst snd] in Hl, Hi.
    pose proof (ok_cell _ _ _ OK) as HC. pose proof (ok_cell_len _ _ _ OK) as HV. pose proof (ok_motif_len _ _ _ OK) as HM. rewrite Forall_forall in HM. pose proof (ok_dims _ _ _ OK) as HD.
    assert (Lp : length p = dims) by (apply HM, Hx; auto). assert (Lq : length (nth i motif []) = dims) by (apply HM, nth_In; auto).
    assert (B0 : dist p (nth i motif []) <= b) by (rewrite dist_edist; apply Hb; [apply Hx; auto|apply nth_In; auto]).
    assert (ES : 0 <= edge_sum cell). { unfold edge_sum, rsum. clear. induction cell as [|c cs IH]; cbn; [lra|]. pose proof (sqrt_pos (rdot c c)). lra. }
    pose proof (dist_nonneg p (nth i motif [])) as DN.
    assert (BIG : (Z.of_nat (n - 1) * Z.of_nat (n - 1) < zsq l)%Z).
    { apply Z.nle_gt. intros L. apply NV, idxs_In. split; auto. replace n with (S (n - 1)) by lia. apply (layers_concat_In motif cell dims OK). auto. }
    rewrite <- dist_edist. rewrite <- (pt_ppoint dims motif cell (l, i) OK) by (split; auto).
    set (L := latvec dims cell l). assert (LL : length L = dims) by (apply latvec_length; auto).
    destruct (Z_le_gt_dec (zsq l) (Z.of_nat n * Z.of_nat n)) as [Z1|Z1].
    - assert (IN : In (l, i) (idxs (length motif) (layer dims n))). { apply idxs_In. split; auto. apply (layer_spec dims n HD). split; [auto|split; [auto|right]]. replace (Z.of_nat n - 1)%Z with (Z.of_nat (n - 1)) by lia. auto. }
      specialize (FAR _ p IN Hp). apply Rle_trans with (dist p (pt dims motif cell (l, i))); [|lra]. rewrite <- sqrt_sqd. apply sqrt_le_1_alt. auto.
    - destruct (near_shell dims l Hl (Z.of_nat n) ltac:(lia) ltac:(lia)) as (u & NR & U1 & U2). pose proof (proj1 NR) as LU.
      destruct (near_split dims l Hl u NR) as (t & e & Ht & Le & He & EQ).
      assert (IN : In (u, i) (idxs (length motif) (layer dims n))). { apply idxs_In. split; auto. apply (layer_spec dims n HD). split; [auto|split; [auto|right; auto]]. }
      specialize (FAR _ p IN Hp). apply Rle_trans with (dist p (pt dims motif cell (u, i))); [rewrite <- sqrt_sqd; apply sqrt_le_1_alt; auto|].
      unfold pt. cbn [fst snd]. fold L. set (q := nth i motif []) in *. set (U := latvec dims cell u). assert (LU' : length U = dims) by (apply latvec_length; auto).
      assert (DU : forall y, dot U y = dot (latvecR dims cell e) y + t * dot L y).
      { intros y. unfold U, L. rewrite !latvec_latvecR, EQ by auto. rewrite !dot_comb by (auto; rewrite ?rlin_length by (rewrite ?map_length; lia); rewrite ?map_length; lia). rewrite rdot_rlin by (rewrite ?map_length; lia). auto. }
      assert (NU : norm (vsub p (vadd q U)) <= norm (vsub (latvecR dims cell e) (vscale (1 - t) (vsub p q))) + t * norm (vsub p (vadd q L))).
      { rewrite (norm_vsub_sym p (vadd q U)). rewrite (norm_vsub_sym p (vadd q L)). apply norm_lin; [lra|]. intros y.
        rewrite !dot_vsub_l by (rewrite ?vadd_length, ?vscale_length, ?vsub_length, ?latvecR_length by auto; lia). rewrite !dot_vadd_l by lia. rewrite dot_vscale_l, dot_vsub_l by lia. rewrite DU. ring. }
      unfold dist. pose proof (norm_comb dims cell e HV ltac:(lia) He) as NE.
      assert (N2 : norm (vsub (latvecR dims cell e) (vscale (1 - t) (vsub p q))) <= norm (latvecR dims cell e) + (1 - t) * norm (vsub q p)).
      { apply norm_lin; [lra|]. intros y. rewrite !dot_vsub_l by (rewrite ?vscale_length, ?vsub_length, ?latvecR_length by auto; lia). rewrite dot_vscale_l, dot_vsub_l by lia. ring. }
      rewrite (norm_vsub_sym q p) in N2. fold (dist p q) in N2. pose proof (norm_nonneg (vsub p (vadd q L))). unfold dist in *. nra.
  Qed.
End Error.

Theorem nearest_neighbors_within : forall dims motif cell x k fuel rows b,
  pset_ok dims motif cell -> incl x motif -> x <> [] -> motif_diameter motif b ->
  nearest_neighbors fuel motif cell x (S k) = Done rows ->
  Forall2 (fun p r => nearest_within dims motif cell p (S k) (edge_sum cell + b) r) x rows.
Proof.
  intros dims motif cell x k fuel rows b Hps Hx Hne Hb E.
  destruct (nearest_neighbors_exact dims motif cell x k fuel Hps Hx Hne) as
    (s & Hs & _ & Hlen & [[E2 _]|(n & _ & (Hsn & Hset & _) & E2)]); rewrite E2 in E; [discriminate|].
  inversion E as [Er]. clear E E2 Er rows.
  destruct (settled_within dims motif cell Hps b Hb x (S k) n Hx ltac:(lia) Hset) as (mx & [_ Hmax] & Hfar).
  assert (Hl : (S k <= length (visited motif dims n))%nat).
  { eapply Nat.le_trans; [|apply (visited_mono motif dims (s - 1)); lia]. lia. }
  assert (Eb : 0 <= edge_sum cell + b).
  { destruct x as [|p x']; [congruence|]. assert (Hp : In p motif) by (apply Hx; left; auto). specialize (Hb p p Hp Hp). pose proof (sqrt_pos (sq_dist p p)). unfold edist in Hb.
    unfold edge_sum, rsum. clear - Hb H. assert (0 <= fold_right Rplus 0 (map (fun c => sqrt (rdot c c)) cell)); [|lra]. induction cell as [|c cs IH]; cbn; [lra|]. pose proof (sqrt_pos (rdot c c)). lra. }
  assert (G : forall y, incl y x -> Forall2 (fun p r => nearest_within dims motif cell p (S k) (edge_sum cell + b) r) y
    (map (fun p => map sqrt (row_at motif cell (S k) dims n p)) y)).
  2: apply G; intros ?; auto.
  induction y as [|p y IH]; intros Hy; simpl; constructor.
  2: { apply IH. intros q Hq. apply Hy. simpl; auto. }
  assert (Hp : In p x) by (apply Hy; simpl; auto).
  exists (row_ids motif cell (S k) dims n p). split.
  - apply row_ids_spec; auto.
  - intros a d Ha Hna Hd.
    destruct (in_dec idx_eq_dec a (visited motif dims n)) as [Hv|Hv].
    + apply Rle_trans with (edist p (ppoint dims motif cell a)); [|lra]. eapply row_ids_nearest; eauto.
    + apply in_map_iff in Hd as (e & <- & He).
      assert (e <= mx).
      { eapply Rle_trans; [|apply (Hmax p Hp)]. apply sorted_le_last; auto. apply kmin_sorted. }
      specialize (Hfar a p Ha Hv Hp). apply Rle_trans with (sqrt mx); auto. apply sqrt_le_1_alt. auto.
Qed.
