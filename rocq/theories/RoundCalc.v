(** AMD and PDD with rounded operations; the search returns. *)
From Coq Require Import List ZArith Arith Bool Lia Reals Lra Psatz Permutation Sorted.
From Verif Require Import Num Base Spec Outcome LatticeModel LatticeProofs LatticeProofs2 CacheModel CacheProofs MergeModel MergeProofs NNModel VecR SpecGeom SpecCalc
  NNProofs NNSpecProofs NNComplete Props_NN CalcModel CalcProofs CalcProofs2 Props_Calc RoundModel SpecRound RoundSum RoundSearch RoundProofs RoundGeom RoundTop.
Import ListNotations.
Open Scope R_scope.

(** ** Averages *)
Section Average.
  Variables (ar : arith) (u eta B : R) (M : nat).
  Hypothesis FL : float_like u eta ar.
  Hypothesis Hu : u <= 1 / 10000.
  Hypothesis HB : 0 <= B.
  Hypothesis He1 : eta <= u * B.
  Hypothesis HM : INR M * u <= 1 / 100.
  Let u0 : 0 <= u := fl_u _ _ _ FL.
  Let e0 : 0 <= eta := fl_eta _ _ _ FL.
  Let w_ (c : nat) : R := r_ofZ ar (Z.of_nat c).

  Lemma w_error : forall c, Rabs (w_ c - INR c) <= u * INR c.
  Proof. intros c. pose proof (fl_ofZ _ _ _ FL (Z.of_nat c)) as H. rewrite <- INR_IZR_INZ, (Rabs_right (INR c)) in H by (apply Rle_ge, pos_INR). exact H. Qed.

  Lemma avg_term : forall d e c q, 0 <= d -> (1 <= c)%nat -> Rabs (e - d) <= 100 * u * (d + B) -> product_within u eta e (w_ c) q ->
    Rabs (q - INR c * d) <= 1032 / 10 * u * (INR c * (d + B)).
  Proof.
    intros d e c q0 Hd Hc H (M1 & _ & _). pose proof (w_error c) as Hw. set (w := INR c) in *. assert (Hw1 : 1 <= w) by (unfold w; apply (le_INR 1); auto).
    set (w' := w_ c) in *. set (t := w * (d + B)). assert (Ht : 0 <= t) by (unfold t; apply Rmult_le_pos; lra). assert (Htd : w * d <= t) by (unfold t; apply Rmult_le_compat_l; lra). assert (HtB : B <= t) by (unfold t; assert (0 <= (w - 1) * (d + B)) by (apply Rmult_le_pos; lra); lra).
    assert (Hw' : Rabs w' <= w + u * w) by (pose proof (Rabs_upto _ _ _ Hw) as X; rewrite (Rabs_right w) in X by lra; exact X).
    assert (D : Rabs (e * w' - w * d) <= 1011 / 10 * u * t).
    { replace (e * w' - w * d) with ((e - d) * w' + d * (w' - w)) by ring. eapply Rle_trans; [apply Rabs_triang|]. rewrite !Rabs_mult, (Rabs_right d) by lra.
      assert (Rabs (e - d) * Rabs w' <= (100 * u * (d + B)) * (w + u * w)) by (apply Rmult_le_compat; auto using Rabs_pos).
      assert (d * Rabs (w' - w) <= d * (u * w)) by (apply Rmult_le_compat_l; auto).
      assert (E1 : (100 * u * (d + B)) * (w + u * w) = 100 * (u * t) + 100 * (u * (u * t))) by (unfold t; ring).
      assert (E2 : d * (u * w) = u * (w * d)) by ring. assert (0 <= u * t) by (apply Rmult_le_pos; auto). assert (u * (u * t) <= 1 / 10000 * (u * t)) by (apply Rmult_le_compat_r; auto).
      assert (u * (w * d) <= u * t) by (apply Rmult_le_compat_l; auto). lra. }
    pose proof (Rabs_upto _ _ _ D) as X. rewrite (Rabs_right (w * d)) in X by (apply Rle_ge, Rmult_le_pos; lra).
    replace (q0 - w * d) with ((q0 - e * w') + (e * w' - w * d)) by ring. eapply Rle_trans; [apply Rabs_triang|].
    assert (u * Rabs (e * w') <= u * (t + 1011 / 10 * u * t)) by (apply Rmult_le_compat_l; lra). assert (0 <= u * t) by (apply Rmult_le_pos; auto). assert (u * (u * t) <= 1 / 10000 * (u * t)) by (apply Rmult_le_compat_r; auto). assert (u * B <= u * t) by (apply Rmult_le_compat_l; auto). lra.
  Qed.

  (** A rounded sum of terms with a relative error of [c0 * u]. *)
  Lemma sum_any : forall A (f g h : A -> R) c0 l v, 1 <= c0 <= 104 -> (length l <= M)%nat ->
    (forall a, In a l -> Rabs (f a - g a) <= c0 * u * h a /\ Rabs (g a) <= h a) -> sum_within u (0 :: map f l) v ->
    Rabs (v - rsum (map g l)) <= (c0 + 103 / 100 * INR (length l)) * u * rsum (map h l).
  Proof.
    intros A f g h c0 l v Hc HL HF HS.
    pose proof (sum_terms A f g (fun a => c0 * u * h a) (1015 / 1000) (1 / 100) u M l v u0 ltac:(lra) ltac:(lra) HL HM (fun a Ha => proj1 (HF a Ha)) HS) as X.
    eapply Rle_trans; [exact X|]. rewrite rsum_scale.
    assert (G : rsum (map (fun a => Rabs (g a)) l) <= rsum (map h l)) by (apply rsum_le; intros a Ha; apply HF; auto).
    assert (G0 : 0 <= rsum (map (fun a => Rabs (g a)) l)) by (apply rsum_nonneg, Forall_forall; intros y Hy; apply in_map_iff in Hy as (a & <- & _); apply Rabs_pos).
    set (T := rsum (map h l)) in *. set (T1 := rsum (map (fun a => Rabs (g a)) l)) in *. clearbody T T1. pose proof (pos_INR (length l)) as P. set (n := INR (length l)) in *. clearbody n.
    assert (0 <= u * T) by (apply Rmult_le_pos; lra). assert (c0 * u <= 104 / 10000) by nra. assert (c0 * u * T <= 104 / 10000 * T) by (apply Rmult_le_compat_r; lra).
    assert (0 <= n * u) by (apply Rmult_le_pos; auto).
    assert (1015 / 1000 * (n * u) * (T1 + c0 * u * T) <= 1015 / 1000 * (n * u) * (10104 / 10000 * T)) by (apply Rmult_le_compat_l; lra).
    assert (0 <= n * u * T) by (apply Rmult_le_pos; lra). lra.
  Qed.

  Definition num_fold (L : list (R * R * nat)) : R := r_dot ar (map (fun a => snd (fst a)) L) (map (fun a => w_ (snd a)) L).
  Definition den_fold (L : list (R * R * nat)) : R := r_sum ar (map (fun a => w_ (snd a)) L).

  Theorem average_error : forall L : list (R * R * nat), L <> [] -> (length L <= M)%nat -> rsum (map (fun x => INR (snd x)) L) <= INR M ->
    (forall d e c, In (d, e, c) L -> 0 <= d /\ (1 <= c)%nat /\ Rabs (e - d) <= 100 * u * (d + B)) ->
    let a := rsum (map (fun x => INR (snd x) * fst (fst x)) L) / rsum (map (fun x => INR (snd x)) L) in
    Rabs (r_div ar (num_fold L) (den_fold L) - a) <= (110 + 3 * INR M) * u * (a + B).
  Proof.
    intros L Hne HL HWM HF a. set (g := fun x : R * R * nat => INR (snd x) * fst (fst x)) in *. set (W := rsum (map (fun x : R * R * nat => INR (snd x)) L)) in *.
    set (h := fun x : R * R * nat => INR (snd x) * (fst (fst x) + B)).
    assert (Hh : rsum (map h L) = rsum (map g L) + B * W). { unfold W. rewrite <- rsum_scale, <- rsum_plus. apply rsum_ext. intros x _. unfold h, g. ring. }
    assert (HW : 1 <= W).
    { unfold W. destruct L as [|[[d e] c] L]; [congruence|]. destruct (HF d e c (or_introl eq_refl)) as (_ & H & _). cbn. apply le_INR in H. cbn [INR] in H.
      assert (0 <= fold_right Rplus 0 (map (fun x : R * R * nat => INR (snd x)) L)). { clear. induction L as [|x L IH]; cbn; [lra|]. pose proof (pos_INR (snd x)). lra. } lra. }
    assert (Hg0 : 0 <= rsum (map g L)).
    { apply rsum_nonneg. apply Forall_forall. intros y Hy. apply in_map_iff in Hy as ([[d e] c] & <- & I). destruct (HF _ _ _ I) as (H1 & _). unfold g. cbn. apply Rmult_le_pos; auto. apply pos_INR. }
    assert (HN : Rabs (num_fold L - rsum (map g L)) <= (104 + 103 / 100 * INR (length L)) * u * rsum (map h L)).
    { destruct (fl_dot _ _ _ FL (map (fun a => snd (fst a)) L) (map (fun a => w_ (snd a)) L)) as (ps & Lp & Hp & HS); [rewrite !map_length; auto|]. rewrite map_length in Lp, Hp.
      set (x0 := (0, 0, 0%nat) : R * R * nat). assert (EL : forall f : R * R * nat -> R, map f L = map (fun i => f (nth i L x0)) (seq 0 (length L))) by (intros f; rewrite <- (map_nth_seq L x0) at 1; rewrite map_map; reflexivity).
      assert (Ep : ps = map (fun i => nth i ps 0) (seq 0 (length L))) by (rewrite <- Lp; symmetry; apply map_nth_seq). rewrite Ep in HS.
      pose proof (sum_any nat (fun i => nth i ps 0) (fun i => g (nth i L x0)) (fun i => h (nth i L x0)) 104 (seq 0 (length L)) (num_fold L) ltac:(lra) ltac:(rewrite seq_length; auto)) as X.
      rewrite seq_length in X. rewrite !EL. apply X; [|exact HS]. clear X. intros i Hi. apply in_seq in Hi. specialize (Hp i ltac:(lia)).
      rewrite (nth_indep (map (fun a => snd (fst a)) L) 0 (snd (fst x0))) in Hp by (rewrite map_length; lia). rewrite (map_nth (fun a : R * R * nat => snd (fst a))) in Hp.
      rewrite (nth_indep (map (fun a => w_ (snd a)) L) 0 (w_ (snd x0))) in Hp by (rewrite map_length; lia). rewrite (map_nth (fun a : R * R * nat => w_ (snd a))) in Hp.
      assert (I : In (nth i L x0) L) by (apply nth_In; lia). destruct (nth i L x0) as [[d e] c]. destruct (HF _ _ _ I) as (H1 & H2 & H3). unfold g, h. cbn [fst snd] in *. split.
      - eapply Rle_trans; [apply (avg_term d e c); eauto|]. apply Rmult_le_compat_r; [apply Rmult_le_pos; [apply pos_INR|lra]|lra].
      - pose proof (pos_INR c). rewrite Rabs_right by (apply Rle_ge, Rmult_le_pos; auto). apply Rmult_le_compat_l; lra. }
    assert (HD : Rabs (den_fold L - W) <= (1 + 103 / 100 * INR (length L)) * u * W).
    { apply (sum_any _ (fun x : R * R * nat => w_ (snd x)) (fun x => INR (snd x)) (fun x => INR (snd x)) 1 L); [lra|auto| |apply (fl_sum _ _ _ FL)].
      intros [[d e] c] _. cbn [snd]. split; [rewrite Rmult_1_l; apply w_error|]. rewrite Rabs_right; [lra|apply Rle_ge, pos_INR]. }
    rewrite Hh in HN. set (n := INR (length L)) in *. set (m := INR M) in *. assert (Hnm : n <= m) by (apply le_INR; auto). assert (Hn0 : 0 <= n) by apply pos_INR.
    set (s' := num_fold L) in *. set (W' := den_fold L) in *. set (s := rsum (map g L)) in *. assert (Ea : s = a * W) by (unfold a; field; lra).
    assert (Ha0 : 0 <= a) by (unfold a; apply Rmult_le_pos; [auto|left; apply Rinv_0_lt_compat; lra]).
    assert (Hmu : m * u <= 1 / 100) by exact HM. assert (Hnu : n * u <= 1 / 100) by (eapply Rle_trans; [|exact Hmu]; apply Rmult_le_compat_r; auto). assert (Hnu0 : 0 <= n * u) by (apply Rmult_le_pos; auto).
    set (q := a + B). assert (Hq : 0 <= q) by (unfold q; lra).
    assert (HN' : Rabs (s' - a * W) <= (104 * u + 103 / 100 * (n * u)) * (q * W)). { rewrite <- Ea. eapply Rle_trans; [exact HN|]. rewrite Ea. right. unfold q. ring. }
    assert (HD' : Rabs (W' - W) <= (u + 103 / 100 * (n * u)) * W). { eapply Rle_trans; [exact HD|]. right. ring. }
    clear HN HD. set (v := n * u) in *.
    assert (HW' : (1 - (u + 103 / 100 * v)) * W <= W'). { pose proof (Rle_abs (- (W' - W))) as X. rewrite Rabs_Ropp in X. lra. }
    assert (C1 : 98 / 100 * W <= W') by (assert (98 / 100 * W <= (1 - (u + 103 / 100 * v)) * W) by (apply Rmult_le_compat_r; lra); lra).
    assert (HW0 : 0 < W') by lra.
    assert (QE : Rabs (s' / W' - a) <= (107 * u + 211 / 100 * v) * q).
    { replace (s' / W' - a) with (((s' - a * W) - a * (W' - W)) * / W') by (field; lra). rewrite Rabs_mult, (Rabs_right (/ W')) by (apply Rle_ge; left; apply Rinv_0_lt_compat; auto).
      apply (Rmult_le_reg_r W'); auto. rewrite Rmult_assoc, Rinv_l, Rmult_1_r by lra.
      assert (A1 : Rabs ((s' - a * W) - a * (W' - W)) <= (105 * u + 206 / 100 * v) * (q * W)).
      { unfold Rminus at 1. eapply Rle_trans; [apply Rabs_triang|]. rewrite Rabs_Ropp, Rabs_mult, (Rabs_right a) by lra.
        assert (a * Rabs (W' - W) <= a * ((u + 103 / 100 * v) * W)) by (apply Rmult_le_compat_l; auto).
        assert (a * ((u + 103 / 100 * v) * W) <= q * ((u + 103 / 100 * v) * W)) by (apply Rmult_le_compat_r; [apply Rmult_le_pos; lra|unfold q; lra]). lra. }
      eapply Rle_trans; [exact A1|].
      assert (A2 : (107 * u + 211 / 100 * v) * q * ((1 - (u + 103 / 100 * v)) * W) <= (107 * u + 211 / 100 * v) * q * W') by (apply Rmult_le_compat_l; [apply Rmult_le_pos; lra|auto]).
      eapply Rle_trans; [|exact A2].
      replace ((107 * u + 211 / 100 * v) * q * ((1 - (u + 103 / 100 * v)) * W)) with (((107 * u + 211 / 100 * v) * (1 - (u + 103 / 100 * v))) * (q * W)) by ring.
      apply Rmult_le_compat_r; [apply Rmult_le_pos; lra|].
      assert ((107 * u + 211 / 100 * v) * (1 - 11 / 1000) <= (107 * u + 211 / 100 * v) * (1 - (u + 103 / 100 * v))) by (apply Rmult_le_compat_l; lra). lra. }
    assert (C2 : u * W' <= 1).
    { assert (u * W' <= u * (2 * W)) by (apply Rmult_le_compat_l; auto; pose proof (Rle_abs (W' - W)) as X; assert ((u + 103 / 100 * v) * W <= 1 * W) by (apply Rmult_le_compat_r; lra); lra).
      assert (u * W <= u * m) by (apply Rmult_le_compat_l; auto). lra. }
    pose proof (fl_div _ _ _ FL s' W' ltac:(lra) C2) as DV. replace (r_div ar s' W' - a) with ((r_div ar s' W' - s' / W') + (s' / W' - a)) by ring. eapply Rle_trans; [apply Rabs_triang|].
    pose proof (Rabs_upto _ _ _ QE) as X. rewrite (Rabs_right a) in X by lra.
    assert (X2 : Rabs (s' / W') <= 104 / 100 * q).
    { assert ((107 * u + 211 / 100 * v) * q <= 4 / 100 * q) by (apply Rmult_le_compat_r; lra). unfold q in *. lra. }
    assert (u * Rabs (s' / W') <= u * (104 / 100 * q)) by (apply Rmult_le_compat_l; auto). assert (u * B <= u * q) by (apply Rmult_le_compat_l; auto; unfold q; lra).
    assert (v <= m * u) by (unfold v; apply Rmult_le_compat_r; auto). assert (v * q <= (m * u) * q) by (apply Rmult_le_compat_r; auto). assert (0 <= v * q) by (apply Rmult_le_pos; auto). assert (0 <= u * q) by (apply Rmult_le_pos; auto). lra.
  Qed.
End Average.

(** ** Lists *)
Lemma F2_len : forall A A' (Q : A -> A' -> Prop) l1 l2, Forall2 Q l1 l2 -> length l1 = length l2.
Proof. induction 1; cbn; auto. Qed.

Lemma F2_in : forall A A' (Q : A -> A' -> Prop) l1 l2, Forall2 Q l1 l2 -> forall a b, In (a, b) (combine l1 l2) -> Q a b.
Proof. induction 1 as [|x y l1 l2 H F IH]; cbn; intros a b I; [contradiction|]. destruct I as [E|I]; [inversion E; subst; auto|auto]. Qed.
Lemma F2_nth : forall A A' (Q : A -> A' -> Prop) l1 l2 d d', Forall2 Q l1 l2 -> forall i, (i < length l1)%nat -> Q (nth i l1 d) (nth i l2 d').
Proof. induction 1 as [|x y l1 l2 H F IH]; cbn; intros i Hi; [lia|]. destruct i; auto. apply IH. lia. Qed.

Lemma F2_map_seq0 : forall A B (P : A -> B -> Prop) f g n, (forall j, (j < n)%nat -> P (f j) (g j)) -> Forall2 P (map f (seq 0 n)) (map g (seq 0 n)).
Proof. intros A B P f g n H. assert (X : forall l, (forall j, In j l -> P (f j) (g j)) -> Forall2 P (map f l) (map g l)) by (induction l; cbn; intros; constructor; auto). apply X. intros j Hj. apply in_seq in Hj. apply H. lia. Qed.

Section Amd.
  Variables (ar : arith) (u eta B : R) (dims : nat) (ps : pset R).
  Hypothesis FL : float_like u eta ar.
  Hypothesis Hu : u <= 1 / 10000.
  Hypothesis Hwf : pset_wf dims ps.
  Hypothesis H4 : (dims <= 4)%nat.
  Hypothesis Hdom : half_dominant dims (ps_cell ps).
  Hypothesis Hin : spread_within (u / 8) dims (ps_cell ps) (ps_motif ps).
  Hypothesis HB : 0 <= B.
  Hypothesis He1 : eta <= u * B.
  Hypothesis He2 : eta <= (u * B) * (u * B).
  Hypothesis Hm : motif_within ar B (ps_motif ps).

  Definition close_rows_of (ds es : list R) : Prop := Forall2 (fun d e => Rabs (e - d) <= 100 * u * (d + B)) ds es.

  Lemma rows_near : forall k fuel' rows rows',
    Forall2 (fun p r => nearest_distances dims (ps_motif ps) (ps_cell ps) p (S k) r) (points_of ps) rows ->
    @nearest_neighbors R (num_of ar) fuel' (ps_motif ps) (ps_cell ps) (points_of ps) (S k) = Done rows' ->
    Forall2 close_rows_of rows rows'.
  Proof.
    intros k fuel' rows rows' F E'.
    pose proof (rounded_nearest ar u eta B dims _ _ FL Hu (wf_ok _ _ Hwf) H4 Hdom Hin HB He1 He2 Hm (points_of ps) k fuel' rows' (points_incl _ _ Hwf) (points_nonempty _ _ Hwf) E') as F'.
    clear E'. revert rows' F'. induction F as [|p r x rows Hr F IH]; intros rows' F'; inversion F' as [|? r' ? rows'' Hr' F'']; subst; constructor; auto.
    apply Hr'. exact Hr.
  Qed.

  (** AMD with rounded operations is close to the averages of the nearest distances. *)
  Theorem amd_near : forall k fuel' rows b, INR (length (ps_motif ps)) * u <= 1 / 100 ->
    Forall2 (fun p r => nearest_distances dims (ps_motif ps) (ps_cell ps) p (S k) r) (points_of ps) rows ->
    @AMD R (num_of ar) fuel' ps k = Done b ->
    Forall2 (fun d e => Rabs (e - d) <= (110 + 3 * INR (length (ps_motif ps))) * u * (d + B)) (amd_of ps k rows) b.
  Proof.
    intros k fuel' rows b HM HN E'.
    assert (Hr2 : Forall (fun r => length r = S k /\ Forall (fun d => 0 <= d) r) rows).
    { clear - HN. induction HN as [|p r x rows (ids & (L & _ & _ & E & _) & _) HN IH]; constructor; auto. split; [rewrite E, map_length; auto|].
      rewrite E. apply Forall_forall. intros d Hd. apply in_map_iff in Hd as (a & <- & _). apply sqrt_pos. }
    assert (Hr1 : length rows = length (points_of ps)) by (symmetry; exact (F2_len _ _ _ _ _ HN)).
    unfold AMD in E'. rewrite (query_eq dims ps Hwf) in E'. cbn [obind] in E'.
    destruct (@nearest_neighbors R (num_of ar) fuel' (ps_motif ps) (ps_cell ps) (points_of ps) (S k)) as [rows'| | |] eqn:En'; try discriminate. cbn [obind] in E'.
    pose proof (rows_near k fuel' rows rows' HN En') as RC. unfold average_columns_except_first in E'.
    destruct (Nat.ltb (length (map (@nofnat R (num_of ar)) (counts_of ps))) (length rows')) eqn:El; [discriminate|].
    pose proof (F2_len _ _ _ _ _ RC) as LR. pose proof (points_length _ _ Hwf) as PL. pose proof (wf_pos _ _ Hwf) as WP.
    assert (Lc : length (counts_of ps) = length rows) by lia.
    assert (Lr' : Forall (fun r => length r = S k) rows').
    { clear - RC Hr2. induction RC as [|r r' rows rows' Hr RC IH]; constructor; inversion Hr2 as [|? ? [Hl _] Hr2']; subst; auto. pose proof (F2_len _ _ _ _ _ Hr). lia. }
    replace (S k - 1)%nat with k in E' by lia. inversion E' as [Eb]. clear E'. 
    set (ws := map (@nofnat R (num_of ar)) (counts_of ps)) in *.
    unfold amd_of. rewrite <- seq_shift, map_map. apply F2_map_seq0. intros j Hj.
    change (@ndot R (num_of ar)) with (r_dot ar). change (@nsum R (num_of ar)) with (r_sum ar). change (@ndiv R (num_of ar)) with (r_div ar).
      set (T := fun x : (list R * list R) * nat => (nth j (tl (fst (fst x))) 0, nth j (tl (snd (fst x))) 0, snd x)). set (L := map T (combine (combine rows rows') (counts_of ps))).
      assert (LL : length L = length rows) by (unfold L; rewrite map_length, !combine_length; lia).
      assert (HL : (length L <= length (ps_motif ps))%nat).
      { rewrite LL, <- Lc. rewrite <- (wf_sum _ _ Hwf). clear - WP. unfold list_sum. induction WP as [|c l Hc WP IH]; cbn in *; lia. }
      assert (Hne : L <> []). { intros X. rewrite X in LL. cbn in LL. pose proof (points_nonempty _ _ Hwf) as NE. destruct (points_of ps); [congruence|]. cbn in PL. lia. }
      assert (HF : forall d e c, In (d, e, c) L -> 0 <= d /\ (1 <= c)%nat /\ Rabs (e - d) <= 100 * u * (d + B)).
      { intros d e c I. unfold L in I. apply in_map_iff in I as ([[r r'] c'] & ET & I). unfold T in ET. cbn [fst snd] in ET. inversion ET; subst d e c'. clear ET.
        pose proof (in_combine_r _ _ _ _ I) as Ic. apply in_combine_l in I. rewrite Forall_forall in WP.
        assert (CR : close_rows_of r r') by (apply (F2_in _ _ _ _ _ RC); auto).
        apply in_combine_l in I. rewrite Forall_forall in Hr2. destruct (Hr2 r I) as (Lr & Nr).
        assert (TL : forall l : list R, nth j (tl l) 0 = nth (S j) l 0) by (intros [|y l]; cbn; auto; destruct j; auto). rewrite !TL. split; [|split; [apply WP; auto|]].
        - rewrite Forall_forall in Nr. apply Nr, nth_In. lia.
        - apply (F2_nth _ _ _ _ _ 0 0 CR). lia. }
      assert (HWM : rsum (map (fun x => INR (snd x)) L) <= INR (length (ps_motif ps))).
      { right. rewrite <- (wf_sum _ _ Hwf). unfold L. rewrite map_map. unfold T. cbn [snd]. assert (LC : length (combine rows rows') = length (counts_of ps)) by (rewrite combine_length; lia). revert LC. clear.
        generalize (combine rows rows') (counts_of ps). intros l cs. revert cs. induction l as [|x l IH]; intros [|c cs] H; try discriminate; cbn; auto. rewrite plus_INR, <- IH by (cbn in H; lia). reflexivity. }
      pose proof (average_error ar u eta B (length (ps_motif ps)) FL Hu HB He1 HM L Hne HL HWM HF) as AE. cbv zeta in AE.
      assert (E1 : num_fold ar L = r_dot ar (@col_of R (num_of ar) (S j) rows') ws).
      { unfold num_fold. f_equal; unfold L, T, ws; rewrite map_map; cbn [fst snd].
        - clear - LR Lc. revert rows' LR Lc. generalize (counts_of ps) as cs. induction rows as [|r rows IH]; intros [|c cs] [|r' rows'] LR Lc; cbn in *; try lia; auto. f_equal; [destruct r' as [|y r']; cbn; auto; destruct j; auto|]. eapply IH; try eassumption; lia.
        - clear - LR Lc. revert rows' LR Lc. generalize (counts_of ps) as cs. induction rows as [|r rows IH]; intros [|c cs] [|r' rows'] LR Lc; cbn in *; try lia; auto. f_equal. eapply IH; try eassumption; lia. }
      assert (E2 : den_fold ar L = r_sum ar ws).
      { unfold den_fold. f_equal; unfold L, T, ws; rewrite map_map; cbn [fst snd].
        clear - LR Lc. revert rows' LR Lc. generalize (counts_of ps) as cs. induction rows as [|r rows IH]; intros [|c cs] [|r' rows'] LR Lc; cbn in *; try lia; auto. f_equal. eapply IH; try eassumption; lia. }
      assert (E3 : rsum (map (fun x => INR (snd x) * fst (fst x)) L) / rsum (map (fun x => INR (snd x)) L) = wmean (map INR (counts_of ps)) (map (@tl R) rows) j).
      { unfold wmean, L, T. f_equal; f_equal; clear - LR Lc; revert rows' LR Lc; generalize (counts_of ps) as cs; induction rows as [|r rows IH]; intros [|c cs] [|r' rows'] LR Lc; cbn -[INR] in *; try lia; auto; f_equal; eapply IH; try eassumption; lia. }
      rewrite E1, E2, E3 in AE. exact AE.
  Qed.
  Hypothesis Hsp : spread dims (ps_cell ps) (ps_motif ps).
  Lemma rows_close : forall k fuel fuel' rows rows',
    nearest_neighbors fuel (ps_motif ps) (ps_cell ps) (points_of ps) (S k) = Done rows ->
    @nearest_neighbors R (num_of ar) fuel' (ps_motif ps) (ps_cell ps) (points_of ps) (S k) = Done rows' ->
    Forall2 close_rows_of rows rows'.
  Proof.
    intros k fuel fuel' rows rows' E E'. eapply rows_near; [|exact E'].
    exact (C05_rows_are_nearest dims _ _ _ k fuel rows (wf_ok _ _ Hwf) H4 Hsp (points_incl _ _ Hwf) (points_nonempty _ _ Hwf) E).
  Qed.
  Theorem amd_close : forall k fuel fuel' a b, INR (length (ps_motif ps)) * u <= 1 / 100 ->
    AMD fuel ps k = Done a -> @AMD R (num_of ar) fuel' ps k = Done b ->
    Forall2 (fun d e => Rabs (e - d) <= (110 + 3 * INR (length (ps_motif ps))) * u * (d + B)) a b.
  Proof.
    intros k fuel fuel' a b HM E E'. destruct (AMD_Done _ _ _ _ _ Hwf E) as (rows & En & _ & ->). eapply amd_near; eauto.
    exact (C05_rows_are_nearest dims _ _ _ k fuel rows (wf_ok _ _ Hwf) H4 Hsp (points_incl _ _ Hwf) (points_nonempty _ _ Hwf) En).
  Qed.
End Amd.

Lemma spread_rounded : forall u eta ar dims cell motif, float_like u eta ar -> spread dims cell motif -> spread_within (u / 8) dims cell motif.
Proof. intros u eta ar dims cell motif FL. pose proof (fl_u _ _ _ FL). apply spread_weaken. lra. Qed.


(** ** The search returns *)
Lemma nn_loop_more : forall (T : Type) (N : Num T) motif cell x k dims fuel pos rows diam mx bd r,
  nn_loop motif cell x k dims fuel pos rows diam mx bd = Done r ->
  forall fuel', (fuel <= fuel')%nat -> nn_loop motif cell x k dims fuel' pos rows diam mx bd = Done r.
Proof.
  intros T N motif cell x k dims. induction fuel as [|fuel IH]; intros pos rows diam mx bd r E fuel' Hf; [discriminate|].
  destruct fuel' as [|fuel']; [lia|]. cbn [nn_loop] in E |- *.
  destruct (gen_item dims pos) as [ly| | |]; try discriminate. cbn [obind] in E |- *.
  cbv zeta in E |- *.
  match goal with |- match ?o with [] => _ | _ :: _ => _ end = _ => destruct o as [|l0 lat]; auto end.
  match goal with |- match ?o with [] => _ | _ :: _ => _ end = _ => destruct o as [|c0 close]; auto end.
  match goal with |- obind ?o _ = _ => destruct o as [rows'| | |]; try discriminate end. cbn [obind] in E |- *.
  match goal with |- obind ?o _ = _ => destruct o as [[mx' bd']| | |]; try discriminate end.
  cbn [obind] in E |- *. apply IH; auto. lia.
Qed.

Lemma nn_more : forall (T : Type) (N : Num T) motif cell x k fuel r, nearest_neighbors fuel motif cell x k = Done r ->
  forall fuel', (fuel <= fuel')%nat -> nearest_neighbors fuel' motif cell x k = Done r.
Proof.
  intros T N motif cell x k fuel r E fuel' Hf. unfold nearest_neighbors, nn_sq in *. cbv zeta in *.
  repeat match type of E with obind (obind ?o _) _ = _ => destruct o as [?y| | |]; try discriminate; cbn [obind] in E |- * | (obind (let '(_, _) := ?p in _) _) = _ => destruct p end.
  match type of E with obind ?o _ = _ => destruct o as [r0| | |] eqn:El; try discriminate end.
  rewrite (nn_loop_more _ _ _ _ _ _ _ _ _ _ _ _ _ _ El fuel' Hf). exact E.
Qed.

Section Returns.
  Variables (ar : arith) (u eta B : R) (dims : nat) (motif cell : list (list R)).
  Hypothesis FL : float_like u eta ar.
  Hypothesis Hu : u <= 1 / 10000.
  Hypothesis OK : pset_ok dims motif cell.
  Hypothesis H4 : (dims <= 4)%nat.
  Hypothesis Hdom : half_dominant dims cell.
  Hypothesis Hns : nonsingular dims cell.
  Hypothesis HB : 0 <= B.
  Hypothesis He1 : eta <= u * B.
  Hypothesis He2 : eta <= (u * B) * (u * B).
  Hypothesis Hm : motif_within ar B motif.

  Theorem rounded_returns : forall x k, incl x motif -> x <> [] ->
    exists rows fuel0, forall fuel, (fuel0 <= fuel)%nat -> @nearest_neighbors R (num_of ar) fuel motif cell x (S k) = Done rows.
  Proof.
    intros x k Hx Hne. pose proof (fl_u _ _ _ FL) as u0.
    assert (HK : forall p a, 0 <= key ar motif cell dims p a) by (intros; apply (sqd_nonneg_r ar u eta FL Hu)).
    pose proof (rnn_sq ar motif cell x (S k) dims (ok_dims _ _ _ OK) ltac:(lia) Hx Hne HK (fun i Hi => key_zero ar u eta B dims motif cell FL OK Hm i Hi)) as RS.
    destruct (RS 0%nat) as (s & _ & _ & mx0 & Hs & _ & _ & _ & Hst & _ & Htop & _).
    destruct (latvec_far dims cell (ok_cell _ _ _ OK) (ok_cell_len _ _ _ OK) Hns) as (C & HC & Hfar).
    set (r := 2 * sqrt (Rabs mx0) + 4 * B + 1).
    assert (Hr : 0 <= r) by (unfold r; pose proof (sqrt_pos (Rabs mx0)); lra).
    destruct (INR_exceeds (C * (r * r) + 1)) as (N & HN).
    assert (F : exists rows, @nearest_neighbors R (num_of ar) (S (N + 2)) motif cell x (S k) = Done rows).
    { unfold nearest_neighbors. rewrite (hd_motif_length dims motif cell OK).
      destruct (RS (S (N + 2))) as (s' & diam & mxd & mx1 & Hs' & _ & _ & _ & Hst' & _ & Htop' & [[_ H]|(n & V & W & mx & _ & _ & _ & E)]); [|rewrite E; cbn [obind]; eauto].
      exfalso. assert (s' = s) by (assert ((s' - 2)%nat = (s - 2)%nat); [eapply stop_unique; eauto|lia]). subst s'.
      assert (mx1 = mx0) as ->.
      { destruct Htop as [(p & Hp & ->) A], Htop' as [(q & Hq & ->) A']. apply Rle_antisym; auto. }
      destruct (H (s + N + 2)%nat ltac:(lia)) as ([l i] & p & Ha & Hp & HLt). apply idxs_In in Ha as [Hl Hi].
      destruct (layer_spec dims (s + N + 2) (ok_dims _ _ _ OK)) as (_ & _ & Hin). apply Hin in Hl as (Hll & _ & [Hz|Hz]); [lia|].
      pose proof (key_error ar u eta B dims motif cell FL Hu OK H4 Hdom He1 He2 Hm p (l, i) (Hx p Hp) (conj Hll Hi)) as KE.
      pose proof (latvec_le_dist dims motif cell OK H4 p l i (Hx p Hp) Hll Hi) as LD. pose proof (motif_dist ar B dims motif cell OK H4 Hm p (nth i motif []) (Hx p Hp) (nth_In motif [] Hi)) as MD.
      assert (HL : r <= norm (latvec dims cell l)).
      { apply Rle_of_sq; [apply sqrt_pos|]. rewrite norm_sq. specialize (Hfar l Hll).
        assert (IZR ((Z.of_nat (s + N + 2) - 1) * (Z.of_nat (s + N + 2) - 1)) < IZR (zsq l)) by (apply IZR_lt; auto).
        assert (INR N <= IZR ((Z.of_nat (s + N + 2) - 1) * (Z.of_nat (s + N + 2) - 1))) by (rewrite INR_IZR_INZ; apply IZR_le; nia).
        apply (Rmult_le_reg_l C); auto. lra. }
      assert (Hk : sqrt (key ar motif cell dims p (l, i)) <= sqrt (Rabs mx0)) by (apply sqrt_le_1_alt; pose proof (Rle_abs mx0); lra).
      set (d := dist p (pt dims motif cell (l, i))) in *. assert (Hd : 0 <= d) by apply sqrt_pos.
      assert (K2 : d - sqrt (key ar motif cell dims p (l, i)) <= 54 * u * (d + B)) by (eapply Rle_trans; [|exact KE]; rewrite <- Rabs_Ropp; eapply Rle_trans; [|apply Rle_abs]; lra).
      assert (K3 : 54 * u * (d + B) <= 54 / 10000 * (d + B)) by (apply Rmult_le_compat_r; lra). unfold r in HL. pose proof (sqrt_pos (Rabs mx0)). lra. }
    destruct F as (rows & F). exists rows, (S (N + 2)). intros fuel Hf. eapply nn_more; eauto.
  Qed.
End Returns.

(** ** PDD without collapsing *)
Lemma assemble_uncollapsed : forall (N : Num R) (w : list R) d lexsort tol, length w = length d ->
  exists l, Permutation (combine w d) l /\ (lexsort = false -> l = combine w d) /\
    fst (assemble (collapse_rows w d false tol) lexsort) = l.
Proof.
  intros N w d lexsort tol L. unfold collapse_rows. cbn [andb]. unfold assemble. cbn [fst].
  assert (E : map (fun i => (nth i w (@n0 R N), nth i d [])) (seq 0 (length d)) = combine w d).
  { apply (nth_ext _ _ (@n0 R N, []) (@n0 R N, [])); [rewrite map_length, seq_length, combine_length; lia|]. intros i Hi. rewrite map_length, seq_length in Hi.
    rewrite combine_nth by lia. rewrite nth_map_seq by auto. reflexivity. }
  destruct lexsort.
  - eexists. split; [|split; [discriminate|reflexivity]]. rewrite <- E. apply Permutation_map. apply isort_perm.
  - exists (combine w d). auto.
Qed.

Section Pdd.
  Variables (ar : arith) (u eta B : R) (dims : nat) (ps : pset R).
  Hypothesis FL : float_like u eta ar.
  Hypothesis Hu : u <= 1 / 10000.
  Hypothesis Hwf : pset_wf dims ps.
  Hypothesis H4 : (dims <= 4)%nat.
  Hypothesis Hdom : half_dominant dims (ps_cell ps).
  Hypothesis Hin : spread dims (ps_cell ps) (ps_motif ps).
  Hypothesis HB : 0 <= B.
  Hypothesis He1 : eta <= u * B.
  Hypothesis He2 : eta <= (u * B) * (u * B).
  Hypothesis Hm : motif_within ar B (ps_motif ps).

  Lemma weight_error : forall c m, (1 <= c)%nat -> (1 <= m)%nat -> INR m * u <= 1 / 100 ->
    Rabs (r_div ar (r_ofZ ar (Z.of_nat c)) (r_ofZ ar (Z.of_nat m)) - INR c / INR m) <= 4 * u * (INR c / INR m) + eta.
  Proof.
    intros c m Hc Hmm Hmu. pose proof (fl_u _ _ _ FL) as u0. assert (C1 : 1 <= INR c) by (apply (le_INR 1); auto). assert (M1 : 1 <= INR m) by (apply (le_INR 1); auto).
    pose proof (fl_ofZ _ _ _ FL (Z.of_nat c)) as A. pose proof (fl_ofZ _ _ _ FL (Z.of_nat m)) as D. rewrite <- !INR_IZR_INZ in A, D. rewrite (Rabs_right (INR c)) in A by lra. rewrite (Rabs_right (INR m)) in D by lra.
    set (x := r_ofZ ar (Z.of_nat c)) in *. set (y := r_ofZ ar (Z.of_nat m)) in *. clearbody x y. set (cc := INR c) in *. set (mm := INR m) in *. clearbody cc mm. 
    assert (A' : cc - u * cc <= x <= cc + u * cc) by (unfold Rabs in A; destruct Rcase_abs in A; lra). assert (D' : mm - u * mm <= y <= mm + u * mm) by (unfold Rabs in D; destruct Rcase_abs in D; lra).
    assert (x0 : 0 < x) by nra. assert (y0 : 0 < y) by nra. assert (y1 : 1 / 2 <= y) by nra. assert (y2 : u * y <= 1) by (assert (u * y <= u * (2 * mm)) by (apply Rmult_le_compat_l; auto; nra); lra). pose proof (fl_div _ _ _ FL x y y1 y2) as Q.
    set (w := cc / mm). assert (Ew : cc = w * mm) by (unfold w; field; lra). assert (w0 : 0 < w) by (apply Rdiv_lt_0_compat; lra). set (q := x / y) in *. assert (Eq : x = q * y) by (unfold q; field; lra). assert (q0 : 0 < q) by (apply Rdiv_lt_0_compat; lra).
    rewrite (Rabs_right q) in Q by lra.
    assert (Hq1 : q <= w * (1 + 21 / 10 * u)).
    { apply (Rmult_le_reg_r y); auto. rewrite <- Eq. apply Rle_trans with (w * (1 + 21 / 10 * u) * (mm - u * mm)); [|apply Rmult_le_compat_l; nra].
      assert (0 <= w * mm * (u * (1 / 10 - 21 / 10 * u))) by (apply Rmult_le_pos; [nra|apply Rmult_le_pos; lra]). nra. }
    assert (Hq2 : w * (1 - 21 / 10 * u) <= q).
    { apply (Rmult_le_reg_r y); auto. rewrite <- Eq. apply Rle_trans with (w * (1 - 21 / 10 * u) * (mm + u * mm)); [apply Rmult_le_compat_l; nra|].
      assert (0 <= w * mm * (u * (1 / 10 + 21 / 10 * u))) by (apply Rmult_le_pos; [nra|apply Rmult_le_pos; lra]). nra. }
    replace (r_div ar x y - w) with ((r_div ar x y - q) + (q - w)) by ring. eapply Rle_trans; [apply Rabs_triang|].
    assert (Rabs (q - w) <= 21 / 10 * u * w) by (apply Rabs_le; split; nra). assert (u * q <= 11 / 10 * u * w) by nra. lra.
  Qed.

  Theorem pdd_close : forall k fuel fuel' lexsort lexsort' tol tol' a g b g', INR (length (ps_motif ps)) * u <= 1 / 100 ->
    PDD fuel ps k lexsort false tol = Done (a, g) -> @PDD R (num_of ar) fuel' ps k lexsort' false tol' = Done (b, g') ->
    exists a' b', Permutation a a' /\ Permutation b b' /\ (lexsort = false -> a' = a) /\ (lexsort' = false -> b' = b) /\
      Forall2 (fun x y => Rabs (fst y - fst x) <= 4 * u * fst x + eta /\ Forall2 (fun d e => Rabs (e - d) <= 100 * u * (d + B)) (snd x) (snd y)) a' b'.
  Proof.
    intros k fuel fuel' lexsort lexsort' tol tol' a g b g' HMu E E'. rewrite (PDD_run dims ps Hwf) in E.
    destruct (nearest_neighbors fuel (ps_motif ps) (ps_cell ps) (points_of ps) (S k)) as [rows| | |] eqn:En; try discriminate. cbn [obind] in E.
    unfold PDD in E'. rewrite (query_eq dims ps Hwf) in E'. cbn [obind] in E'.
    destruct (@nearest_neighbors R (num_of ar) fuel' (ps_motif ps) (ps_cell ps) (points_of ps) (S k)) as [rows'| | |] eqn:En'; try discriminate. cbn [obind] in E'.
    pose proof (rows_close ar u eta B dims ps FL Hu Hwf H4 Hdom (spread_rounded _ _ _ _ _ _ FL Hin) HB He1 He2 Hm Hin k fuel fuel' rows rows' En En') as RC. pose proof (F2_len _ _ _ _ _ RC) as LR.
    destruct (nn_rows_ok dims ps Hwf fuel k rows En) as [Lr _]. pose proof (points_length _ _ Hwf) as PL.
    assert (Hmp : (1 <= length (ps_motif ps))%nat) by (apply INR_lt; exact (motif_pos dims ps Hwf)).
    destruct (assemble_uncollapsed NumR (weights_of ps) (map (@tl R) rows) lexsort tol) as (l & P1 & P2 & P3); [unfold weights_of; rewrite !map_length; lia|].
    destruct (assemble_uncollapsed (num_of ar) (map (fun c => r_div ar (r_ofZ ar (Z.of_nat c)) (r_ofZ ar (Z.of_nat (length (ps_motif ps))))) (counts_of ps)) (map (@tl R) rows') lexsort' tol') as (l' & P1' & P2' & P3'); [rewrite !map_length; lia|].
    assert (Ea : forall A (p q : A), Done p = Done q -> p = q) by (intros A p q Z; injection Z; auto).
    apply Ea in E. apply Ea in E'. rewrite E in P3. cbn [fst] in P3.
    match type of P3' with fst ?z = _ => change z with (@assemble R (num_of ar) (@collapse_rows R (num_of ar) (map (fun c => @ndiv R (num_of ar) (@nofnat R (num_of ar) c) (@nofnat R (num_of ar) (length (ps_motif ps)))) (counts_of ps)) (map (@tl R) rows') false tol') lexsort') in P3' end.
    rewrite E' in P3'. cbn [fst] in P3'. subst a b.
    eexists _, _. split; [symmetry; exact P1|]. split; [symmetry; exact P1'|]. split; [intros F; symmetry; auto|]. split; [intros F; symmetry; auto|].
    clear - RC PL LR Lr Hmp FL Hu Hwf HMu. unfold weights_of. pose proof (wf_pos _ _ Hwf) as WP. assert (Lc : length (counts_of ps) = length rows) by lia. clear Lr PL. revert WP Lc. generalize (counts_of ps) as cs.
    clear LR. induction RC as [|r r' rows rows' Hr RC IH]; intros cs WP Lc; [destruct cs; [constructor|discriminate]|]. destruct cs as [|c cs]; [discriminate|]. inversion WP as [|? ? Wc Wcs]; subst. cbn [map combine]. constructor; [|apply IH; auto].
    cbn [fst snd]. split; [apply weight_error; auto|]. destruct Hr; cbn; auto.
  Qed.
End Pdd.
