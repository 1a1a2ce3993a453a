(** Property C76: the Earth mover's distance with rounded operations. *)
From Coq Require Import List ZArith Arith Bool Reals Lia Lra Psatz Permutation FinFun.
From Verif Require Import CalcProofs CalcProofs2 Num Outcome Base NNModel CalcModel EmdModel VecR Sums SpecGeom SpecCalc SpecEmd SpecEmd64 EmdReal EmdSym EmdTop
  Props_NN Props_Calc Props_Emd Props_EmdPdd RoundModel SpecRound RoundProofs RoundCalc RoundCollapse RoundBinary Props_Round RoundEmdModel RoundEmd RoundEmdTop RoundEmdArgs RoundEmdPdd.
From Verif Require NNComplete.
Import ListNotations.
Open Scope R_scope.

Lemma perm_forall : forall A (P : A -> Prop) l l', Permutation l l' -> Forall P l -> Forall P l'.
Proof. intros A P l l' H F. rewrite Forall_forall in *. intros x Hx. apply F. apply (Permutation_in _ (Permutation_sym H)). auto. Qed.

(** For matrices [p'] and [q'] close to exact ones [p] and [q], EMD with rounded operations
    returns a value which is close to the exact distance of [p] and [q]. *)
Theorem C76_emd_rounded : forall u eta ar cast k m1 m2 p q p' q' d w del dmax,
  emd_arithmetic u eta ar cast -> pdd_like k p -> pdd_like k q ->
  multiples m1 (map (fun r => nth 0 r 0) p) -> multiples m2 (map (fun r => nth 0 r 0) q) ->
  close_matrices w del p p' -> close_matrices w del q q' ->
  row_distance k p q d -> below_cap (length p) (length q) (fun _ _ => dmax) d ->
  emd_size u eta w del dmax m1 m2 (length p) (length q) ->
  exists v plan fuel0, forall fuel, (fuel0 <= fuel)%nat -> EMD_r ar cast fuel p' q' = Done (v, plan) /\
    emd_within (length p) (length q) (fun i => mx p i 0) (fun j => mx q j 0) d (rounded_accuracy (length p) (length q) u w del dmax) v.
Proof.
  intros u eta ar cast k m1 m2 p q p' q' d w del dmax EA P Q M1 M2 CP CQ D DM SZ.
  exact (emd_rounded ar u eta cast EA k m1 m2 p q p' q' d w del dmax P Q M1 M2 CP CQ D DM SZ).
Qed.

(** ** From motifs to the distance of their PDDs *)
(** What C74_pdd_rounded asks of a periodic set. *)
Definition pdd_case (ar : arith) (u eta b : R) (dims : nat) (ps : pset R) (k : nat) (D : R) (collapse : bool) (tol : R) : Prop :=
  pset_wf dims ps /\ nonsingular dims (ps_cell ps) /\ spread dims (ps_cell ps) (ps_motif ps) /\
  motif_within ar b (ps_motif ps) /\ INR (length (ps_motif ps)) * u <= 1 / 100 /\ INR (length (ps_motif ps)) * eta <= u /\
  distances_within dims (ps_motif ps) (ps_cell ps) (points_of ps) k D /\
  (collapse = true -> decided dims (ps_motif ps) (ps_cell ps) (points_of ps) k tol (203 * u * (D + b))).

Lemma pdd_close : forall ar u eta b dims ps k D lexsort lexsort' collapse tol M,
  arithmetic_for ar u eta b -> (dims <= 4)%nat -> pdd_case ar u eta b dims ps k D collapse tol -> INR (length (ps_motif ps)) <= M -> INR (length (ps_motif ps)) <= 10000000 ->
  exists exact g rounded g' fuel0 p0, (forall fuel, (fuel0 <= fuel)%nat ->
    PDD fuel ps k lexsort collapse tol = Done (exact, g) /\ @PDD R (num_of ar) fuel ps k lexsort' collapse tol = Done (rounded, g')) /\
    Permutation (pdd_array exact) p0 /\ close_matrices ((5 + 2 * M) * u) ((110 + 3 * M) * u * (D + b)) p0 (pdd_array rounded) /\
    pdd_like k (pdd_array exact) /\ multiples (length (ps_motif ps)) (map fst exact) /\ (length exact <= length (ps_motif ps))%nat /\
    0 <= D /\ Forall (fun r => Forall (fun x => 0 <= x <= D) (snd r)) exact.
Proof.
  intros ar u eta b dims ps k D lexsort lexsort' collapse tol M AF H4 (Hwf & Hns & Hin & Hm & HM & HeM & HD & HC) HMM Hm7.
  pose proof AF as (FL & Hu & Hb & _). pose proof (fl_u _ _ _ FL) as u0.
  destruct (C74_pdd_rounded ar u eta b dims ps k D lexsort lexsort' collapse tol AF Hwf H4 Hns Hin Hm HM HeM HD HC) as (e & g & r & g' & f0 & HR & e' & r' & P1 & P2 & _ & _ & F).
  destruct (HR f0 (le_n _)) as [E1 E2]. pose proof (pdd_lengths _ _ _ _ _ _ _ _ _ E1) as L1. pose proof (pdd_lengths _ _ _ _ _ _ _ _ _ E2) as L2.
  destruct (pdd_range dims ps k D Hwf H4 Hin HD _ _ _ _ _ _ E1) as [D0 RG]. destruct (pdd_multiples dims ps k Hwf H4 _ _ _ _ _ _ E1) as [MU LE].
  assert (PL : pdd_like k (pdd_array e)) by (apply (C32_pdd_weights _ _ _ _ _ _ _ _ _ Hwf) with (2 := E1); apply le_IZR; rewrite <- INR_IZR_INZ; lra).
  assert (Q1 : Permutation e (map fst e')) by (rewrite <- (map_fst_combine _ _ e g L1) at 1; apply Permutation_map; auto).
  assert (Q2 : Permutation (map fst r') r) by (symmetry; rewrite <- (map_fst_combine _ _ r g' L2) at 1; apply Permutation_map; auto).
  set (near := fun x y : R * list R => Rabs (fst y - fst x) <= (5 + 2 * INR (length (ps_motif ps))) * u * fst x /\
        Forall2 (fun d e => Rabs (e - d) <= (110 + 3 * INR (length (ps_motif ps))) * u * (d + b)) (snd x) (snd y)).
  assert (F0 : Forall2 near (map fst e') (map fst r')) by (clear - F; induction F as [|x y e' r' (_ & H1 & H2) F IH]; cbn; constructor; auto; split; auto).
  destruct (F2_perm_r _ _ _ _ _ _ F0 Q2) as (e0 & Q3 & F1).
  exists e, g, r, g', f0, (pdd_array e0). split; [exact HR|]. split; [apply Permutation_map; rewrite Q1; exact Q3|]. split; [|auto].
  assert (RG0 : Forall (fun r => Forall (fun x => 0 <= x <= D) (snd r)) e0) by (apply (perm_forall _ _ (e)); auto; rewrite Q1; auto).
  assert (WG0 : Forall (fun r => 0 <= fst r) e0).
  { apply (perm_forall _ _ (e)); [rewrite Q1; auto|]. apply Forall_forall. intros x Hx. pose proof (pl_weight _ _ PL) as W. rewrite Forall_forall in W.
    specialize (W (fst x :: snd x) ltac:(apply (in_map (fun r => fst r :: snd r) _ _ Hx))). cbn in W. lra. }
  unfold close_matrices. clear - F1 RG0 WG0 u0 HMM Hb D0. pose proof (pos_INR (length (ps_motif ps))) as M0. induction F1 as [|x y e0 r [N1 N2] F1 IH]; cbn [pdd_array map]; constructor.
  - inversion RG0 as [|? ? X1 X2]; subst. inversion WG0 as [|? ? Y1 Y2]; subst. cbn [nth tl length]. split; [f_equal; symmetry; eapply F2_len; exact N2|]. split.
    + eapply Rle_trans; [exact N1|]. apply Rmult_le_compat_r; auto. apply Rmult_le_compat_r; lra.
    + clear - N2 X1 u0 HMM Hb M0 D0. induction N2 as [|a c l l' H N2 IH]; constructor; inversion X1; subst; auto.
      eapply Rle_trans; [exact H|]. apply Rmult_le_compat; try lra; [apply Rmult_le_pos; lra|]. apply Rmult_le_compat_r; lra.
  - inversion RG0; inversion WG0; subst. apply IH; auto.
Qed.

Lemma chebyshev_range : forall k us vs d D, 0 <= D -> length us = k -> length vs = k -> Forall (fun x => 0 <= x <= D) us -> Forall (fun x => 0 <= x <= D) vs ->
  is_chebyshev k us vs d -> d <= D.
Proof.
  intros k us vs d D D0 Lu Lv Fu Fv [_ [->|(t & Ht & ->)]]; auto. rewrite Forall_forall in Fu, Fv.
  pose proof (Fu (nth t us 0) ltac:(apply nth_In; lia)). pose proof (Fv (nth t vs 0) ltac:(apply nth_In; lia)). apply Rabs_le. lra.
Qed.

(** The whole computation with rounded operations, from two periodic sets to the distance of their
    PDDs, against the exact distance of the exact PDDs. *)
Definition pipeline (ar : arith) (cast : R -> Z) (fuel : nat) (ps1 ps2 : pset R) (k : nat)
  (lex1 lex2 c1 c2 : bool) (tol1 tol2 : R) : outcome (R * list (list R)) :=
  a <- @PDD R (num_of ar) fuel ps1 k lex1 c1 tol1 ;;
  b <- @PDD R (num_of ar) fuel ps2 k lex2 c2 tol2 ;;
  EMD_r ar cast fuel (pdd_array (fst a)) (pdd_array (fst b)).

Theorem C76_sets_rounded : forall u eta ar cast b dims ps1 ps2 k D l1 l2 l1' l2' c1 c2 tol1 tol2 M w del,
  emd_arithmetic u eta ar cast -> arithmetic_for ar u eta b -> (dims <= 4)%nat ->
  pdd_case ar u eta b dims ps1 k D c1 tol1 -> pdd_case ar u eta b dims ps2 k D c2 tol2 ->
  INR (length (ps_motif ps1)) <= M -> INR (length (ps_motif ps2)) <= M -> w = (5 + 2 * M) * u -> del = (110 + 3 * M) * u * (D + b) ->
  emd_size u eta w del D (length (ps_motif ps1)) (length (ps_motif ps2)) (length (ps_motif ps1)) (length (ps_motif ps2)) ->
  exists exact1 g1 exact2 g2 v plan fuel0,
    (forall fuel, (fuel0 <= fuel)%nat -> PDD fuel ps1 k l1 c1 tol1 = Done (exact1, g1) /\ PDD fuel ps2 k l2 c2 tol2 = Done (exact2, g2) /\
      pipeline ar cast fuel ps1 ps2 k l1' l2' c1 c2 tol1 tol2 = Done (v, plan)) /\
    forall d, row_distance k (pdd_array exact1) (pdd_array exact2) d ->
      emd_within (length exact1) (length exact2) (fun i => mx (pdd_array exact1) i 0) (fun j => mx (pdd_array exact2) j 0) d
        (rounded_accuracy (length (ps_motif ps1)) (length (ps_motif ps2)) u w del D) v.
Proof.
  intros u eta ar cast b dims ps1 ps2 k D l1 l2 l1' l2' c1 c2 tol1 tol2 M w del EA AF H4 C1 C2 M1 M2 -> -> SZ.
  pose proof AF as (FL & Hu & Hb & _). pose proof (fl_u _ _ _ FL) as u0. pose proof (fl_eta _ _ _ FL) as eta0.
  destruct (pdd_close ar u eta b dims ps1 k D l1 l1' c1 tol1 M AF H4 C1 M1 (es_m1 _ _ _ _ _ _ _ _ _ SZ)) as (e1 & g1 & r1 & g1' & f1 & p0 & R1 & Q1 & K1 & PL1 & MU1 & LE1 & D0 & RG1).
  destruct (pdd_close ar u eta b dims ps2 k D l2 l2' c2 tol2 M AF H4 C2 M2 (es_m2 _ _ _ _ _ _ _ _ _ SZ)) as (e2 & g2 & r2 & g2' & f2 & q0 & R2 & Q2 & K2 & PL2 & MU2 & LE2 & _ & RG2).
  set (w := (5 + 2 * M) * u) in *. set (del := (110 + 3 * M) * u * (D + b)) in *.
  pose proof (Permutation_length Q1) as LQ1. pose proof (Permutation_length Q2) as LQ2. unfold pdd_array in LQ1, LQ2. rewrite map_length in LQ1, LQ2.
  assert (LK : forall p p0, pdd_like k p -> Permutation p p0 -> pdd_like k p0).
  { intros p p1 [A1 A2 A3 A4] H. constructor; [intros ->; apply Permutation_sym, Permutation_nil in H; auto|eapply perm_forall; eauto|eapply perm_forall; eauto|].
    destruct (perm_index p p1 H) as (Lp & f & Hf & Hi & Hn). rewrite Lp, <- A4. rewrite <- (Sum_bij (length p) f (fun i => mx p i 0) Hf Hi). apply Sum_ext. intros i Hi'. unfold mx. now rewrite Hn. }
  assert (MK : forall m e p0, multiples m (map fst e) -> Permutation (pdd_array e) p0 -> multiples m (map (fun r => nth 0 r 0) p0)).
  { intros m e p1 H HP. unfold multiples. apply (perm_forall _ _ (map (fun r => nth 0 r 0) (pdd_array e))); [apply Permutation_map; auto|].
    unfold pdd_array. rewrite map_map. exact H. }
  assert (RK : forall e p0, Forall (fun r : R * list R => Forall (fun x => 0 <= x <= D) (snd r)) e -> Permutation (pdd_array e) p0 -> Forall (fun r => Forall (fun x => 0 <= x <= D) (tl r)) p0).
  { intros e p1 H HP. apply (perm_forall _ _ (pdd_array e)); auto. unfold pdd_array. apply Forall_map. exact H. }
  assert (S0 : emd_size u eta w del D (length (ps_motif ps1)) (length (ps_motif ps2)) (length p0) (length q0)).
  { assert (N : INR (length p0 * length q0) <= INR (length (ps_motif ps1) * length (ps_motif ps2))) by (apply le_INR, Nat.mul_le_mono; lia). pose proof (pos_INR (length p0 * length q0)) as N0.
    destruct SZ as [S1 S2 S3 S4 S5 S6 S7 S8 S9]. constructor; auto.
    - eapply Rle_trans; [apply Rmult_le_compat_r; [lra|exact N]|exact S7].
    - eapply Rle_trans; [apply Rmult_le_compat_r; [lra|exact N]|exact S8].
    - eapply Rle_trans; [apply Rmult_le_compat_r; [|exact N]|exact S9]. unfold rounded_cost_error. assert (0 <= u * (D + 2 * del)) by (apply Rmult_le_pos; lra). lra. }
  pose proof (dm_dist k p0 q0 (LK _ _ PL1 Q1) (LK _ _ PL2 Q2)) as DD.
  assert (RD : forall d, row_distance k p0 q0 d -> below_cap (length p0) (length q0) (fun _ _ => D) d).
  { intros d Hd i j Hi Hj. pose proof (RK _ _ RG1 Q1) as X1. pose proof (RK _ _ RG2 Q2) as X2. rewrite Forall_forall in X1, X2.
    apply (chebyshev_range k (tl (nth i p0 [])) (tl (nth j q0 []))); auto; [apply (tl_len k _ p0 (LK _ _ PL1 Q1)), nth_In; auto|apply (tl_len k _ q0 (LK _ _ PL2 Q2)), nth_In; auto|apply X1, nth_In; auto|apply X2, nth_In; auto]. }
  destruct (C76_emd_rounded u eta ar cast k _ _ p0 q0 (pdd_array r1) (pdd_array r2) _ w del D EA (LK _ _ PL1 Q1) (LK _ _ PL2 Q2) (MK _ _ _ MU1 Q1) (MK _ _ _ MU2 Q2) K1 K2 DD (RD _ DD) S0)
    as (v & plan & F & HF).
  exists e1, g1, e2, g2, v, plan, (Nat.max F (Nat.max f1 f2)). split.
  - intros fuel Hf. destruct (R1 fuel ltac:(lia)) as [A1 A2]. destruct (R2 fuel ltac:(lia)) as [B1 B2]. split; auto. split; auto.
    unfold pipeline. rewrite A2. cbn [obind]. rewrite B2. cbn [obind fst]. apply HF. lia.
  - intros d Hd. assert (LA1 : length (pdd_array e1) = length e1) by (unfold pdd_array; apply map_length). assert (LA2 : length (pdd_array e2) = length e2) by (unfold pdd_array; apply map_length).
    rewrite <- LA1, <- LA2. apply (within_perm_both k _ p0 _ q0); auto. intros d0 Hd0.
    eapply emd_within_le; [|eapply within_ext; [| | |exact (proj2 (HF F (le_n _)))]; auto].
    + unfold rounded_accuracy. cbv zeta. set (kap := rounded_cost_error u del D). assert (Dk : 0 <= D + kap).
      { unfold kap, rounded_cost_error. pose proof (es_d _ _ _ _ _ _ _ _ _ SZ). assert (0 <= u * (D + 2 * del)) by (apply Rmult_le_pos; lra). lra. }
      assert (N : INR (length p0 * length q0) <= INR (length (ps_motif ps1) * length (ps_motif ps2))) by (apply le_INR, Nat.mul_le_mono; lia).
      assert (N1 : INR (length p0) <= INR (length (ps_motif ps1))) by (apply le_INR; lia). assert (N2 : INR (length q0) <= INR (length (ps_motif ps2))) by (apply le_INR; lia).
      assert (X : 5 * (INR (length p0) + INR (length q0) + 2) * (D + kap) <= 5 * (INR (length (ps_motif ps1)) + INR (length (ps_motif ps2)) + 2) * (D + kap)) by (apply Rmult_le_compat_r; lra).
      assert (Y : (10 * w + (3 * INR (length p0 * length q0) + 40) * u) * (D + kap + 1) <= (10 * w + (3 * INR (length (ps_motif ps1) * length (ps_motif ps2)) + 40) * u) * (D + kap + 1)).
      { apply Rmult_le_compat_r; [lra|]. apply Rplus_le_compat_l. apply Rmult_le_compat_r; lra. }
      lra.
    + intros i j Hi Hj. symmetry. apply (dm_unique k p0 q0 (LK _ _ PL1 Q1) (LK _ _ PL2 Q2)); auto.
Qed.

(** ** binary64 *)
Lemma u64_small : 0 < u64 <= 1 / 8000000000000000 /\ 0 < eta64 <= u64 * (1 / 1000000000000).
Proof.
  split; [split; [apply two_pos|unfold u64; simpl; lra]|]. split; [apply two_pos|]. apply Rle_trans with (u64 * powerRZ 2 (-40)).
  - unfold u64, eta64. rewrite <- two_add. apply two_le. lia.
  - apply Rmult_le_compat_l; [left; apply two_pos|]. simpl. lra.
Qed.

Lemma b64_emd_arithmetic : forall ar cast, binary64 u64 ar -> truncates cast -> emd_arithmetic u64 eta64 ar cast.
Proof.
  intros ar cast BI HT. destruct u64_small as [U E]. constructor; auto; [apply b64_float_like; auto|lra|nra|apply (b64_monotone_mul u64); auto].
Qed.

(** Up to 5000 points in each motif, in binary64, sums in any order and true divisions
    (nothing but AMD's average divides with fastmath): the error is at most
    5 (m1 + m2 + 3) (D + b + 2) units of the 8th decimal. *)
Theorem C76_sets_binary64 : forall ar cast b dims ps1 ps2 k D l1 l2 l1' l2' c1 c2 tol1 tol2,
  binary64 u64 ar -> truncates cast -> powerRZ 2 (-400) <= b -> D + b <= 1000000 -> (dims <= 4)%nat ->
  pdd_case ar u64 eta64 b dims ps1 k D c1 tol1 -> pdd_case ar u64 eta64 b dims ps2 k D c2 tol2 ->
  INR (length (ps_motif ps1)) <= 5000 -> INR (length (ps_motif ps2)) <= 5000 ->
  INR (length (ps_motif ps1)) * INR (length (ps_motif ps2)) * (D + 1) <= 10000000000 ->
  exists exact1 g1 exact2 g2 v plan fuel0,
    (forall fuel, (fuel0 <= fuel)%nat -> PDD fuel ps1 k l1 c1 tol1 = Done (exact1, g1) /\ PDD fuel ps2 k l2 c2 tol2 = Done (exact2, g2) /\
      pipeline ar cast fuel ps1 ps2 k l1' l2' c1 c2 tol1 tol2 = Done (v, plan)) /\
    forall d, row_distance k (pdd_array exact1) (pdd_array exact2) d ->
      emd_within (length exact1) (length exact2) (fun i => mx (pdd_array exact1) i 0) (fun j => mx (pdd_array exact2) j 0) d
        (5 * (INR (length (ps_motif ps1)) + INR (length (ps_motif ps2)) + 3) * (D + b + 2) / 100000000) v.
Proof.
  intros ar cast b dims ps1 ps2 k D l1 l2 l1' l2' c1 c2 tol1 tol2 BI HT Hb HDb H4 C1 C2 M1 M2 Hc. destruct u64_small as [U E].
  assert (AF := b64_for u64 ar b BI Hb). pose proof (two_pos (-400)) as b0. set (n1 := INR (length (ps_motif ps1))) in *. set (n2 := INR (length (ps_motif ps2))) in *.
  assert (N1 : 0 <= n1) by apply pos_INR. assert (N2 : 0 <= n2) by apply pos_INR.
  assert (D0 : 0 <= D).
  { destruct (pdd_close ar u64 eta64 b dims ps1 k D l1 l1' c1 tol1 5000 AF H4 C1 M1 ltac:(fold n1; lra)) as (? & ? & ? & ? & ? & ? & _ & _ & _ & _ & _ & _ & X & _). exact X. }
  set (w := (5 + 2 * 5000) * u64). set (del := (110 + 3 * 5000) * u64 * (D + b)).
  assert (W : 0 <= w <= 126 / 100000000000000) by (unfold w; lra).
  assert (DE : 0 <= del <= 19 / 10000000000000 * (D + b)).
  { unfold del. split; [apply Rmult_le_pos; lra|]. apply Rmult_le_compat_r; lra. }
  set (kap := rounded_cost_error u64 del D).
  assert (K : 0 <= kap <= 4 / 1000000000000 * (D + b) + 2 / 100000000).
  { unfold kap, rounded_cost_error. assert (X : 0 <= u64 * (D + 2 * del) <= 1 / 8000000000000000 * (D + 2 * del)) by (split; [apply Rmult_le_pos; lra|apply Rmult_le_compat_r; lra]). lra. }
  assert (N12 : 0 <= n1 * n2 <= 25000000) by nra.
  assert (NE : INR (length (ps_motif ps1) * length (ps_motif ps2)) = n1 * n2) by apply mult_INR.
  assert (WE : forall n, 0 <= n <= 5000 -> (100000000 * (w + 2 * u64) + eta64) * n < 1) by (intros n Hn; nra).
  destruct (C76_sets_rounded u64 eta64 ar cast b dims ps1 ps2 k D l1 l2 l1' l2' c1 c2 tol1 tol2 5000 w del (b64_emd_arithmetic ar cast BI HT) AF H4 C1 C2 M1 M2 eq_refl eq_refl)
    as (e1 & g1 & e2 & g2 & v & plan & f & HF & HV).
  { constructor; fold n1 n2; rewrite ?NE; try lra; try (apply WE; lra); [nra|nra|]. fold kap. eapply Rle_trans; [|exact Hc]. apply Rmult_le_compat_l; [lra|]. lra. }
  exists e1, g1, e2, g2, v, plan, f. split; [exact HF|]. intros d Hd. eapply emd_within_le; [|exact (HV d Hd)].
  unfold rounded_accuracy. cbv zeta. fold n1 n2 kap. rewrite NE.
  assert (X : 5 * (n1 + n2 + 2) * (D + kap) <= 5 * (n1 + n2 + 2) * (D + b + 2)) by (apply Rmult_le_compat_l; lra).
  assert (Y : (10 * w + (3 * (n1 * n2) + 40) * u64) * (D + kap + 1) <= 1 / 100000000 * (D + kap + 1)) by (apply Rmult_le_compat_r; [lra|]; nra).
  lra.
Qed.

(** ** Examples *)
(** Truncation will do. *)
Lemma Int_part_truncates : truncates Int_part.
Proof. intros r _. destruct (base_Int_part r). lra. Qed.

Definition square_set : pset R := {| ps_motif := [[0; 0]]; ps_cell := [[4; 0]; [0; 4]]; ps_asym := None; ps_mult := None |}.

Lemma shear_case : pdd_case b64 u64 eta64 3 2 shear_set 3 4 true (1 / 10000).
Proof.
  destruct shear_wf as (W & D & NS & IN). destruct u64_small as [U E]. unfold pdd_case. repeat (split; [assumption|]). split; [apply (shear_within u64), b64_binary64|].
  change (length (ps_motif shear_set)) with 2%nat. simpl (INR 2). split; [lra|]. split; [nra|]. split; [apply shear_distances|]. intros _. apply shear_decided.
Qed.

Lemma square_case : pdd_case b64 u64 eta64 3 2 square_set 3 4 false (1 / 10000).
Proof.
  destruct u64_small as [U E]. unfold pdd_case. split; [|split; [|split; [|split; [|split; [|split; [|split]]]]]].
  - apply pset_wf_no_asym. split; simpl; auto; try discriminate; repeat constructor.
  - exists [[1 / 4; 0]; [0; 1 / 4]]. split; [auto|]. split; [repeat constructor|]. intros [|[|i]] [|[|j]] Hi Hj; try lia; simpl; lra.
  - apply NNComplete.in_cell_spread; [intros [|[|i]] Hi; try lia; unfold rsum; simpl; rewrite Rabs_right by lra; lra|]. constructor; [|constructor]. exists [0; 0]. split; auto. split; [repeat constructor; lra|]. unfold comb_coord. simpl. f_equal; [lra|]. f_equal. lra.
  - constructor; [|constructor]. assert (X : representable b64 0) by (replace 0 with (IZR 0 * powerRZ 2 0) by (simpl; lra); apply (b64_representable u64); [apply b64_binary64|reflexivity]).
    split; [repeat constructor; auto|]. simpl. replace (0 * 0 + (0 * 0 + 0)) with 0 by lra. rewrite sqrt_0. lra.
  - simpl. lra.
  - simpl. nra.
  - intros p ds [<-|[]] N. set (js := [([0; 0]%Z, 0%nat); ([0; 1]%Z, 0%nat); ([1; 0]%Z, 0%nat); ([-1; 0]%Z, 0%nat)]).
    apply (nearest_upto 2 _ _ _ 4 ds 4 js N); [reflexivity| |].
    + unfold js. repeat constructor; cbn; intuition discriminate.
    + apply Forall_forall. intros a Ia. split; [destruct Ia as [<-|[<-|[<-|[<-|[]]]]]; split; cbn; auto|].
      rewrite <- (sqrt_square 4) by lra. unfold edist. apply sqrt_le_1_alt. destruct Ia as [<-|[<-|[<-|[<-|[]]]]]; cbn; unfold lattice_coord, comb_coord, rsum; cbn; lra.
  - discriminate.
Qed.

Example C76_case : exists exact1 g1 exact2 g2 v plan fuel0,
  (forall fuel, (fuel0 <= fuel)%nat -> PDD fuel shear_set 3 true true (1 / 10000) = Done (exact1, g1) /\ PDD fuel square_set 3 true false (1 / 10000) = Done (exact2, g2) /\
    pipeline b64 Int_part fuel shear_set square_set 3 true true true false (1 / 10000) (1 / 10000) = Done (v, plan)) /\
  forall d, row_distance 3 (pdd_array exact1) (pdd_array exact2) d ->
    emd_within (length exact1) (length exact2) (fun i => mx (pdd_array exact1) i 0) (fun j => mx (pdd_array exact2) j 0) d (3 / 1000000) v.
Proof.
  destruct (C76_sets_binary64 b64 Int_part 3 2 shear_set square_set 3 4 true true true true true false (1 / 10000) (1 / 10000))
    as (e1 & g1 & e2 & g2 & v & plan & f & HF & HV); auto using Int_part_truncates, shear_case, square_case; try lra.
  - apply b64_binary64.
  - apply Rle_trans with (powerRZ 2 0); [apply two_le; lia|simpl; lra].
  - simpl. lra.
  - simpl. lra.
  - simpl. lra.
  - exists e1, g1, e2, g2, v, plan, f. split; [exact HF|]. intros d Hd. eapply emd_within_le; [|exact (HV d Hd)].
    change (length (ps_motif shear_set)) with 2%nat. change (length (ps_motif square_set)) with 1%nat. simpl (INR _). lra.
Qed.

Print Assumptions C76_emd_rounded.
Print Assumptions C76_sets_rounded.
Print Assumptions C76_sets_binary64.
