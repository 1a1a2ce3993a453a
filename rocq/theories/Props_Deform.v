(** Property C82: PDDs, their Earth mover's distance and AMDs when the cell is deformed and the
    points move. *)
From Coq Require Import List ZArith Arith Bool Lia Reals Lra Permutation Sorted.
From Verif Require Import AsymProofs2.
From Verif Require Import Num Base Spec SpecGeom SpecCalc SpecCont SpecDeform Outcome NNModel VecR NNSpecProofs NNComplete NNInvariance Props_NN CalcModel CalcProofs
  CalcProofs2 CalcInv Line Props_Calc Props_Inv Props_Geo.
From Verif Require Import Sums SpecEmd EmdReal EmdTop Props_Emd Props_EmdPdd ContProofs DeformProofs.
From Verif Require Import EmdModel SpecEmd64 RoundModel SpecRound RoundBinary Props_Round RoundEmdModel RoundEmd RoundEmdTop RoundEmdArgs RoundEmdPdd Props_RoundEmd
  Props_Cont SpecRoundSites RoundSites3.
From Verif Require NNComplete RoundCalc SitesExpand.
Import ListNotations.
Open Scope R_scope.

(** Every point of the one set has a partner in the other one, and their nearest distances
    differ by the strain and twice the displacement. *)
Theorem C82_nearest : forall dims cell cell' motif motif' delta eps,
  pset_ok dims motif cell -> pset_ok dims motif' cell' -> 0 <= delta < 1 ->
  perturbed dims cell cell' delta eps motif motif' ->
  exists sigma, Permutation (map sigma (seq 0 (length motif))) (seq 0 (length motif')) /\
    forall i n ds ds', (i < length motif)%nat ->
      nearest_distances dims motif cell (nth i motif []) n ds ->
      nearest_distances dims motif' cell' (nth (sigma i) motif' []) n ds' ->
      forall j, (j < n)%nat -> Rabs (nth j ds' 0 - nth j ds 0) <= delta * nth j ds 0 + 2 * eps.
Proof.
  intros dims cell cell' motif motif' delta eps Hok Hok' Hd (HS & mid & HC & sigma & shift & Hm).
  exists sigma. assert (L : length mid = length motif) by apply HC. split.
  - rewrite <- L. apply Hm.
  - intros i n ds ds' Hi N N' j Hj. apply (perturbed_nearest dims cell cell' motif mid motif' delta eps sigma shift Hok Hok' HC HS Hd Hm i n ds ds' Hi N N' j Hj).
Qed.

Lemma perturbed_length : forall dims cell cell' delta eps motif motif', perturbed dims cell cell' delta eps motif motif' -> length motif' = length motif.
Proof.
  intros dims cell cell' delta eps motif motif' (_ & mid & (L & _) & sigma & shift & Hm). pose proof (moved_length _ _ _ _ _ _ _ Hm). lia.
Qed.

Lemma last_largest : forall dims motif cell p k ds t, nearest_distances dims motif cell p (S k) ds -> (t < k)%nat -> nth (S t) ds 0 <= nth k ds 0.
Proof.
  intros dims motif cell p k ds t (ids & (H1 & _ & _ & H4 & H5) & _) Ht. assert (L : length ds = S k) by (rewrite H4, map_length; auto).
  destruct (Nat.eq_dec (S t) k) as [->|]; [lra|]. apply sorted_nth_le; auto. lia.
Qed.

Lemma nearest_nonneg : forall dims motif cell p n ds j, nearest_distances dims motif cell p n ds -> 0 <= nth j ds 0.
Proof.
  intros dims motif cell p n ds j (ids & (_ & _ & _ & H4 & _) & _). destruct (Nat.lt_ge_cases j (length ds)) as [Hl|Hl]; [|rewrite nth_overflow by auto; lra].
  apply (nth_In _ 0) in Hl. rewrite H4 in Hl at 2. apply in_map_iff in Hl as (b & <- & _). apply sqrt_pos.
Qed.

(** A plan whose cost is small takes the one PDD to the other; the strain counts in proportion
    to the last entry of the AMD. *)
Theorem C82_pdd : forall dims ps ps' delta eps k fuel fuel' fa lex lex' col col' tol tol' pdd pdd' g g' a d,
  (dims <= 4)%nat -> set_spread dims ps -> set_spread dims ps' -> 0 <= delta < 1 ->
  perturbed dims (ps_cell ps) (ps_cell ps') delta eps (ps_motif ps) (ps_motif ps') -> 0 <= tol -> 0 <= tol' -> (1 <= k)%nat ->
  PDD fuel ps k lex col tol = Done (pdd, g) -> PDD fuel' ps' k lex' col' tol' = Done (pdd', g') -> AMD fa ps k = Done a ->
  row_distance k (pdd_array pdd) (pdd_array pdd') d ->
  exists Y, coupling (length pdd) (length pdd') (fun i => fst (nth i pdd (0, []))) (fun j => fst (nth j pdd' (0, []))) Y /\
    transport_cost (length pdd) (length pdd') d Y <= delta * nth (k - 1) a 0 + 2 * eps + slack col tol + slack col' tol'.
Proof.
  intros dims ps ps' delta eps k fuel fuel' fa lex lex' col col' tol tol' pdd pdd' g g' a d H4 (Hwf & Hin & Hst) (Hwf' & Hin' & Hst')
    Hdel (HS & mid & HC & sigma & shift & Hm) Ht Ht' Hk1 E E' A D.
  destruct (pdd_rows_of_points _ _ _ _ _ _ _ _ _ Hwf H4 Hin Hst Ht E) as (r & near & HR & HW).
  destruct (pdd_rows_of_points _ _ _ _ _ _ _ _ _ Hwf' H4 Hin' Hst' Ht' E') as (r' & near' & HR' & HW').
  pose proof (wf_ok _ _ Hwf) as Hok. pose proof (wf_ok _ _ Hwf') as Hok'.
  assert (Lm : length mid = length (ps_motif ps)) by apply HC.
  pose proof (moved_length _ _ _ _ _ _ _ Hm) as L. pose proof (moved_range _ _ _ _ _ _ _ Hm) as MR. unfold vec in *. rewrite Lm in L, MR.
  pose proof (amd_of_points dims ps k fa a Hwf H4 Hin Hst A near ltac:(intros i Hi; apply HR; auto) (k - 1)%nat ltac:(lia)) as AM.
  replace (S (k - 1)) with k in AM by lia.
  set (m := length (ps_motif ps)) in *.
  assert (Mp : (0 < m)%nat). { unfold m. destruct (ps_motif ps) eqn:Em; [exfalso; apply (ok_motif _ _ _ Hok); reflexivity|simpl; lia]. }
  assert (Q1 : forall i, (i < m)%nat -> (r i < length pdd)%nat) by (intros i Hi; apply HR; auto).
  assert (Q2 : forall i, (i < m)%nat -> (r' (sigma i) < length pdd')%nat) by (intros i Hi; apply HR'; apply MR; auto).
  exists (follow m r (fun i => r' (sigma i))). split.
  - destruct (follow_coupling m (length pdd) (length pdd') r (fun i => r' (sigma i)) Mp Q1 Q2) as (F1 & F2 & F3).
    split; [auto|]. split.
    + intros s Hs. rewrite F2, HW by auto. auto.
    + intros t Ht0. rewrite F3, HW' by auto. rewrite <- (map_map sigma r'). unfold vec in *. rewrite <- L. fold m.
      do 2 f_equal. apply count_perm. destruct Hm as [P _]. rewrite Lm in P. fold m in P. rewrite <- L in P. exact P.
  - eapply Rle_trans; [apply (follow_cost_mean m (length pdd) (length pdd') r (fun i => r' (sigma i)) Mp Q1 Q2 d
      (fun i => delta * nth k (near i) 0 + (2 * eps + slack col tol + slack col' tol')))|].
    + intros i Hi. assert (Hi' : (i < length mid)%nat) by (rewrite Lm; exact Hi).
      destruct (HR i Hi) as (A1 & A2 & A3). destruct (HR' (sigma i) (MR i Hi)) as (B1 & B2 & B3).
      assert (Z : 0 <= 2 * eps).
      { destruct Hm as [_ X]. destruct (X i Hi') as [_ X2]. pose proof (sqrt_pos (sq_dist (nth i mid []) (ppoint dims (ps_motif ps') (ps_cell ps') (shift i, sigma i)))) as X3.
        pose proof (Rle_trans _ _ _ X3 X2). lra. }
      assert (S1 : forall b t, 0 <= t -> 0 <= slack b t) by (intros [|] t Ht0; unfold slack; lra).
      pose proof (S1 col tol Ht). pose proof (S1 col' tol' Ht').
      assert (N0 : 0 <= nth k (near i) 0) by exact (nearest_nonneg _ _ _ _ _ _ k A2).
      assert (N1 : 0 <= delta * nth k (near i) 0) by (apply Rmult_le_pos; lra).
      destruct (D (r i) (r' (sigma i))) as [_ [->|(t & Hk & ->)]]; [unfold pdd_array; rewrite map_length; auto|unfold pdd_array; rewrite map_length; auto|lra|].
      rewrite !pdd_array_nth by auto. cbn [tl].
      pose proof (perturbed_nearest dims _ _ _ mid _ delta eps sigma shift Hok Hok' HC HS Hdel Hm i (S k) _ _ Hi A2 B2 (S t) ltac:(lia)) as C.
      pose proof (last_largest _ _ _ _ _ _ t A2 Hk) as LL.
      assert (delta * nth (S t) (near i) 0 <= delta * nth k (near i) 0) by (apply Rmult_le_compat_l; lra).
      specialize (A3 t Hk). specialize (B3 t Hk).
      apply RoundSum.Rabs_le_both in A3. apply RoundSum.Rabs_le_both in B3. apply RoundSum.Rabs_le_both in C. apply Rabs_le. lra.
    + assert (M : 0 < INR m) by (apply lt_0_INR; auto). rewrite Sum_plus, Sum_scal, Sum_const, AM. right. field. lra.
Qed.

(** The distance that is computed. *)
Theorem C82_emd : forall dims ps ps' delta eps k fuel fuel' fa lex lex' col col' tol tol' pdd pdd' g g' a d dmax fe v plan,
  (dims <= 4)%nat -> set_spread dims ps -> set_spread dims ps' -> (Z.of_nat (length (ps_motif ps)) <= 100000000)%Z -> 0 <= delta < 1 ->
  perturbed dims (ps_cell ps) (ps_cell ps') delta eps (ps_motif ps) (ps_motif ps') -> 0 <= tol -> 0 <= tol' -> (1 <= k)%nat ->
  PDD fuel ps k lex col tol = Done (pdd, g) -> PDD fuel' ps' k lex' col' tol' = Done (pdd', g') -> AMD fa ps k = Done a ->
  row_distance k (pdd_array pdd) (pdd_array pdd') d -> below_cap (length pdd) (length pdd') (fun _ _ => dmax) d ->
  EMD fe (pdd_array pdd) (pdd_array pdd') = Done (v, plan) ->
  v <= delta * nth (k - 1) a 0 + 2 * eps + slack col tol + slack col' tol' + accuracy (length pdd) (length pdd') dmax.
Proof.
  intros dims ps ps' delta eps k fuel fuel' fa lex lex' col col' tol tol' pdd pdd' g g' a d dmax fe v plan H4 S S' HM Hdel Hd Ht Ht' Hk E E' A D B EE.
  destruct (C82_pdd _ _ _ _ _ _ _ _ _ _ _ _ _ _ _ _ _ _ _ _ _ H4 S S' Hdel Hd Ht Ht' Hk E E' A D) as (Y & (C1 & C2 & C3) & HY).
  destruct S as (Hwf & _). destruct S' as (Hwf' & _).
  assert (HM' : (Z.of_nat (length (ps_motif ps')) <= 100000000)%Z).
  { pose proof (perturbed_length _ _ _ _ _ _ _ Hd) as L. unfold vec in *. lia. }
  pose proof (C32_pdd_weights _ _ _ _ _ _ _ _ _ Hwf HM E) as P. pose proof (C32_pdd_weights _ _ _ _ _ _ _ _ _ Hwf' HM' E') as P'.
  assert (LA : forall q, length (pdd_array q) = length q) by (intros; apply map_length).
  assert (B' : below_cap (length (pdd_array pdd)) (length (pdd_array pdd')) (fun _ _ => dmax) d) by (rewrite !LA; auto).
  destruct (C27_near_exact k _ _ d dmax fe v plan P P' D B' EE) as [V _]. rewrite !LA in V.
  specialize (V Y). eapply Rle_trans; [apply V|lra]. split; [auto|]. split.
  - intros i Hi. rewrite C2 by auto. unfold mx. rewrite pdd_array_nth by auto. auto.
  - intros i Hi. rewrite C3 by auto. unfold mx. rewrite pdd_array_nth by auto. auto.
Qed.

(** The same in binary64 arithmetic. *)
Theorem C82_emd_binary64 : forall ar cast b dims ps ps' delta eps k D fa a lex lex' col col' tol tol',
  binary64 u64 ar -> truncates cast -> powerRZ 2 (-400) <= b -> D + b <= 1000000 -> (dims <= 4)%nat ->
  pdd_case ar u64 eta64 b dims ps k D col tol -> pdd_case ar u64 eta64 b dims ps' k D col' tol' ->
  INR (length (ps_motif ps)) <= 5000 ->
  INR (length (ps_motif ps)) * INR (length (ps_motif ps)) * (D + 1) <= 10000000000 -> 0 <= delta < 1 ->
  perturbed dims (ps_cell ps) (ps_cell ps') delta eps (ps_motif ps) (ps_motif ps') -> 0 <= tol -> 0 <= tol' -> (1 <= k)%nat ->
  stands_for dims (ps_motif ps) (ps_cell ps) (positions_of ps) (counts_of ps) ->
  stands_for dims (ps_motif ps') (ps_cell ps') (positions_of ps') (counts_of ps') -> AMD fa ps k = Done a ->
  exists v plan fuel0, (forall fuel, (fuel0 <= fuel)%nat -> pipeline ar cast fuel ps ps' k lex lex' col col' tol tol' = Done (v, plan)) /\
    v <= delta * nth (k - 1) a 0 + 2 * eps + slack col tol + slack col' tol' + 5 * (2 * INR (length (ps_motif ps)) + 3) * (D + b + 2) / 100000000.
Proof.
  intros ar cast b dims ps ps' delta eps k D fa a lex lex' col col' tol tol' BI HT Hb HDb H4 C1 C2 M1 Hc Hdel Hd Ht Ht' Hk S S' A.
  assert (L : length (ps_motif ps') = length (ps_motif ps)) by exact (perturbed_length _ _ _ _ _ _ _ Hd).
  destruct (C76_sets_binary64 ar cast b dims ps ps' k D lex lex' lex lex' col col' tol tol' BI HT Hb HDb H4 C1 C2 M1)
    as (e1 & g1 & e2 & g2 & v & plan & f & HF & HV); [now rewrite L|now rewrite L|].
  exists v, plan, f. split; [intros fuel Hf; apply (HF fuel Hf)|].
  destruct (HF f (le_n _)) as (E1 & E2 & _).
  destruct C1 as (W1 & _ & I1 & _). destruct C2 as (W2 & _ & I2 & _).
  assert (HM : forall p : pset R, INR (length (ps_motif p)) <= 5000 -> (Z.of_nat (length (ps_motif p)) <= 100000000)%Z).
  { intros p Hp. rewrite INR_IZR_INZ in Hp. apply le_IZR in Hp. lia. }
  pose proof (C32_pdd_weights _ _ _ _ _ _ _ _ _ W1 (HM _ M1) E1) as P1.
  pose proof (C32_pdd_weights _ _ _ _ _ _ _ _ _ W2 ltac:(apply HM; now rewrite L) E2) as P2.
  pose proof (dm_dist k _ _ P1 P2) as DD.
  destruct (C82_pdd dims ps ps' delta eps k f f fa lex lex' col col' tol tol' e1 e2 g1 g2 a (mx (dm (pdd_array e1) (pdd_array e2))) H4) as (Y & (Q1 & Q2 & Q3) & HY);
    [split; auto|split; auto|auto|auto|auto|auto|auto|exact E1|exact E2|exact A|exact DD|].
  destruct (HV _ DD) as [V _]. specialize (V Y). rewrite L in V.
  eapply Rle_trans; [apply V|].
  - split; [auto|]. split.
    + intros i Hi. rewrite Q2 by auto. unfold mx. rewrite pdd_array_nth by auto. auto.
    + intros i Hi. rewrite Q3 by auto. unfold mx. rewrite pdd_array_nth by auto. auto.
  - lra.
Qed.

(** The AMDs: the strain counts in proportion to each entry. *)
Theorem C82_amd : forall dims ps ps' delta eps k fuel fuel' a a' j,
  (dims <= 4)%nat -> set_spread dims ps -> set_spread dims ps' -> 0 <= delta < 1 ->
  perturbed dims (ps_cell ps) (ps_cell ps') delta eps (ps_motif ps) (ps_motif ps') ->
  AMD fuel ps k = Done a -> AMD fuel' ps' k = Done a' -> (j < k)%nat ->
  Rabs (nth j a' 0 - nth j a 0) <= delta * nth j a 0 + 2 * eps.
Proof.
  intros dims ps ps' delta eps k fuel fuel' a a' j H4 (Hwf & Hin & Hst) (Hwf' & Hin' & Hst') Hdel (HS & mid & HC & sigma & shift & Hm) A A' Hj.
  pose proof (wf_ok _ _ Hwf) as Hok. pose proof (wf_ok _ _ Hwf') as Hok'.
  assert (X : forall p f b, set_spread dims p -> AMD f p k = Done b -> exists near : nat -> list R, forall i, (i < length (ps_motif p))%nat ->
    nearest_distances dims (ps_motif p) (ps_cell p) (nth i (ps_motif p) []) (S k) (near i)).
  { intros p f b (W & I & St) Eb. assert (T : exists pdd g, PDD f p k false false 0 = Done (pdd, g)).
    { destruct (AMD_Done _ _ _ _ _ W Eb) as (rows & En & _). rewrite (PDD_run dims p W), En. simpl. eauto. }
    destruct T as (pdd & g & E). destruct (pdd_rows_of_points _ _ _ _ _ _ _ _ _ W H4 I St (Rle_refl 0) E) as (r & near & HR & _).
    exists near. intros i Hi. apply HR. auto. }
  destruct (X ps fuel a (conj Hwf (conj Hin Hst)) A) as (near & HN). destruct (X ps' fuel' a' (conj Hwf' (conj Hin' Hst')) A') as (near' & HN').
  rewrite (amd_of_points dims ps k fuel a Hwf H4 Hin Hst A near HN j Hj), (amd_of_points dims ps' k fuel' a' Hwf' H4 Hin' Hst' A' near' HN' j Hj).
  assert (Lm : length mid = length (ps_motif ps)) by apply HC.
  assert (L : length (ps_motif ps') = length (ps_motif ps)) by (rewrite <- Lm; symmetry; exact (moved_length _ _ _ _ _ _ _ Hm)).
  assert (MR : forall i, (i < length (ps_motif ps))%nat -> (sigma i < length (ps_motif ps'))%nat) by (intros i Hi; apply (moved_range _ _ _ _ _ _ _ Hm); rewrite Lm; exact Hi).
  rewrite L in *.
  set (m := length (ps_motif ps)) in *.
  assert (Mp : 0 < INR m). { apply lt_0_INR. unfold m. destruct (ps_motif ps) eqn:Em; [exfalso; apply (ok_motif _ _ _ Hok); reflexivity|simpl; lia]. }
  assert (P : Permutation (map sigma (seq 0 m)) (seq 0 m)). { destruct Hm as [P _]. replace m with (length mid) at 1 by exact Lm. rewrite <- L. exact P. }
  rewrite <- (Sum_perm m (fun i => nth (S j) (near' i) 0) sigma P).
  assert (C : forall i, (i < m)%nat -> Rabs (nth (S j) (near' (sigma i)) 0 - nth (S j) (near i) 0) <= delta * nth (S j) (near i) 0 + 2 * eps).
  { intros i Hi. apply (perturbed_nearest dims _ _ _ mid _ delta eps sigma shift Hok Hok' HC HS Hdel Hm i (S k) _ _ Hi (HN i Hi)).
    - apply HN'. apply MR. auto.
    - lia. }
  unfold Rdiv. rewrite <- Rmult_minus_distr_r, <- Sum_minus, Rabs_mult, (Rabs_right (/ INR m)) by (left; apply Rinv_0_lt_compat; auto).
  apply Rmult_le_reg_r with (INR m); auto. rewrite Rmult_assoc, Rinv_l, Rmult_1_r by lra.
  eapply Rle_trans; [apply Sum_abs|]. eapply Rle_trans; [apply Sum_le; exact C|]. rewrite Sum_plus, Sum_scal, Sum_const. right. field. lra.
Qed.

(** The AMDs of two sets with the same fractional coordinates and asymmetric units, which need not
    have symmetries: a symmetry operation may be one of the first lattice only. *)
Lemma wmean_relative : forall delta ws (rows rows' : list (list R)) j, Forall (fun w => 0 < w) ws -> ws <> [] -> length ws = length rows -> length ws = length rows' ->
  (forall r r', In (r, r') (combine rows rows') -> Rabs (nth j r' 0 - nth j r 0) <= delta * nth j r 0) -> Rabs (wmean ws rows' j - wmean ws rows j) <= delta * wmean ws rows j.
Proof.
  intros delta ws rows rows' j HW NE L1 L2 H. unfold wmean. assert (P : 0 < rsum ws).
  { clear - HW NE. destruct ws as [|w ws]; [congruence|]. clear NE. revert w HW. induction ws as [|v ws IH]; intros w HW; inversion HW; subst; unfold rsum in *; cbn in *; [lra|]. specialize (IH v H2). lra. }
  assert (S1 : Rabs (rsum (map (fun p => fst p * nth j (snd p) 0) (combine ws rows')) - rsum (map (fun p => fst p * nth j (snd p) 0) (combine ws rows))) <= delta * rsum (map (fun p => fst p * nth j (snd p) 0) (combine ws rows))).
  { clear NE P. revert rows rows' L1 L2 H. induction ws as [|w ws IH]; intros [|r rows] [|r' rows'] L1 L2 H; try discriminate; [cbn; rewrite Rminus_0_r, Rabs_R0; lra|]. cbn [combine map]. unfold rsum in *. cbn [fold_right fst snd].
    inversion HW as [|? ? W0 HW']; subst. specialize (IH HW' rows rows' ltac:(cbn in L1; lia) ltac:(cbn in L2; lia) ltac:(intros; apply H; right; auto)). specialize (H r r' (or_introl eq_refl)).
    apply RoundSum.Rabs_le_both in IH. apply RoundSum.Rabs_le_both in H. apply Rabs_le. nra. }
  unfold Rdiv. rewrite <- Rmult_minus_distr_r, Rabs_mult, (Rabs_right (/ rsum ws)) by (left; apply Rinv_0_lt_compat; auto). rewrite <- Rmult_assoc. apply Rmult_le_compat_r; [left; apply Rinv_0_lt_compat; auto|exact S1].
Qed.
Theorem C82_amd_asym : forall dims ps ps' delta k fuel fuel' a a' j,
  (dims <= 4)%nat -> pset_wf dims ps -> pset_wf dims ps' -> spread dims (ps_cell ps) (ps_motif ps) -> spread dims (ps_cell ps') (ps_motif ps') -> 0 <= delta < 1 ->
  strained dims (ps_cell ps) (ps_cell ps') delta -> carried dims (ps_cell ps) (ps_cell ps') (ps_motif ps) (ps_motif ps') ->
  positions_of ps' = positions_of ps -> counts_of ps' = counts_of ps ->
  AMD fuel ps k = Done a -> AMD fuel' ps' k = Done a' -> (j < k)%nat -> Rabs (nth j a' 0 - nth j a 0) <= delta * nth j a 0.
Proof.
  intros dims ps ps' delta k fuel fuel' a a' j H4 Wf Wf' SP SP' Hdel HS HC EP EC A A' Hj.
  pose proof (wf_ok _ _ Wf) as Hok. pose proof (wf_ok _ _ Wf') as Hok'.
  assert (Lm : length (ps_motif ps') = length (ps_motif ps)) by apply HC.
  assert (MV : moved_by dims (ps_cell ps') 0 (ps_motif ps') (ps_motif ps') (fun i => i) (fun _ => repeat 0%Z dims)).
  { split; [rewrite map_id; reflexivity|]. intros i Hi. split; [apply repeat_length|]. right. rewrite ppoint_origin by (auto).
    assert (Z : forall l, sq_dist l l = 0) by (induction l as [|x l IH]; [reflexivity|]; cbn [sq_dist]; rewrite IH; ring). unfold edist. rewrite Z. apply sqrt_0. }
  assert (X : forall p f b, pset_wf dims p -> spread dims (ps_cell p) (ps_motif p) -> AMD f p k = Done b -> exists rows, b = amd_of p k rows /\
    Forall2 (fun q r => nearest_distances dims (ps_motif p) (ps_cell p) q (S k) r) (points_of p) rows).
  { intros p f b W I Eb. destruct (AMD_Done _ _ _ _ _ W Eb) as (rows & En & _ & Ev). exists rows. split; [exact Ev|].
    apply (C05_rows_are_nearest dims _ _ _ _ _ _ (wf_ok _ _ W) ltac:(lia) I (points_incl _ _ W) (points_nonempty _ _ W) En). }
  destruct (X ps fuel a Wf SP A) as (rows & -> & NR). destruct (X ps' fuel' a' Wf' SP' A') as (rows' & -> & NR').
  unfold amd_of. rewrite !(nth_map_seq (wmean _ _)) by auto. rewrite EC. destruct (counts_INR_pos _ _ Wf) as [CP CN].
  pose proof (RoundCalc.F2_len _ _ _ _ _ NR) as LR. pose proof (RoundCalc.F2_len _ _ _ _ _ NR') as LR'. rewrite (points_length _ _ Wf) in LR. rewrite (points_length _ _ Wf'), EC in LR'.
  apply wmean_relative; auto; try (rewrite !map_length; auto). intros r r' Hr.
  apply (In_nth _ _ ([], [])) in Hr as (i & Hi & Ei). rewrite combine_length, !map_length in Hi. rewrite combine_nth in Ei by (rewrite !map_length; lia). injection Ei as <- <-.
  rewrite !(SitesExpand.nth_map' _ _ (@tl R) _ i [] []) by lia.
  pose proof (RoundCalc.F2_nth _ _ _ _ _ [] [] NR i) as N1. pose proof (RoundCalc.F2_nth _ _ _ _ _ [] [] NR' i) as N2. cbv beta in N1, N2. rewrite (points_length _ _ Wf) in N1. rewrite (points_length _ _ Wf'), EC in N2.
  specialize (N1 ltac:(lia)). specialize (N2 ltac:(lia)). unfold points_of in N1, N2. rewrite EP in N2. pose proof (wf_len _ _ Wf) as WL.
  rewrite (SitesExpand.nth_map' _ _ _ _ _ 0%nat) in N1 by lia. rewrite (SitesExpand.nth_map' _ _ _ _ _ 0%nat) in N2 by lia.
  assert (Hp : (nth i (positions_of ps) 0 < length (ps_motif ps))%nat) by (pose proof (wf_range _ _ Wf) as WR; rewrite Forall_forall in WR; apply WR, nth_In; lia).
  pose proof (perturbed_nearest dims _ _ _ (ps_motif ps') _ delta 0 (fun i => i) _ Hok Hok' HC HS Hdel MV (nth i (positions_of ps) 0%nat) (S k) _ _ Hp N1 N2 (S j) ltac:(lia)) as D.
  assert (TL : forall (l : list R), nth (S j) l 0 = nth j (tl l) 0) by (intros [|z l]; [destruct j; reflexivity|reflexivity]). rewrite !TL in D. lra.
Qed.

(** Changes of the cell vectors as a strain. *)
Theorem C82_cell_change : forall dims cell cell' w,
  length cell = dims -> length cell' = dims -> Forall (fun r => length r = dims) cell -> Forall (fun r => length r = dims) cell' ->
  (1 <= dims)%nat -> inverse_within w dims cell -> strained dims cell cell' (w * cell_change dims cell cell').
Proof.
  intros dims cell cell' w Lc Lc' V V' Hd HW x Lx.
  assert (W0 : 0 <= w). { destruct HW as (dual & (D1 & _ & _) & FW). destruct dual as [|v dual]; [cbn in D1; lia|]. inversion FW as [|? ? W _]; subst. eapply Rle_trans; [apply sqrt_pos|exact W]. }
  assert (LN : forall c, length (combination dims c x) = dims) by (intros; unfold combination; rewrite map_length, seq_length; auto).
  assert (VN : forall c, vlength (combination dims c x) = norm (combination dims c x)) by (intros; unfold vlength, norm; rewrite rdot_dot; auto).
  pose proof (coordinate_bound dims cell Lc V w (combination dims cell x) x HW (LN _) Lx) as CB.
  specialize (CB ltac:(intros j Hj; unfold combination; rewrite nth_map_seq by auto; reflexivity)).
  pose proof (norm_nonneg (combination dims cell x)) as NN.
  assert (A0 : 0 <= norm (combination dims cell x) * w) by (apply Rmult_le_pos; auto).
  pose proof (combination_small dims cell cell' x Lc Lc' V V' Lx _ CB A0) as CS.
  rewrite !VN. replace (w * cell_change dims cell cell' * norm (combination dims cell x)) with (norm (combination dims cell x) * w * cell_change dims cell cell') by ring.
  rewrite <- dist_edist in CS. eapply Rle_trans; [|exact CS].
  unfold dist. set (p := combination dims cell' x) in *. set (q := combination dims cell x) in *.
  assert (Lp : length p = dims) by apply LN. assert (Lq : length q = dims) by apply LN.
  assert (T : forall u v : list R, length u = length v -> norm u - norm v <= norm (vsub u v)).
  { intros u v Luv. enough (norm u <= norm v + norm (vsub u v)) by lra. eapply Rle_trans; [|apply norm_triangle; rewrite vsub_length; lia]. right. f_equal.
    apply vec_ext; [rewrite vadd_length, vsub_length; lia|]. intros i Hi. rewrite vadd_nth, vsub_nth by (rewrite ?vsub_length; lia). lra. }
  pose proof (T p q ltac:(lia)) as T1. pose proof (T q p ltac:(lia)) as T2.
  replace (norm (vsub q p)) with (norm (vsub p q)) in T2.
  2:{ replace (vsub q p) with (vscale (-1) (vsub p q)); [rewrite norm_vscale, Rabs_left by lra; lra|].
      apply vec_ext; [rewrite vscale_length, !vsub_length; lia|]. intros i Hi. rewrite vscale_length, vsub_length in Hi. rewrite vscale_nth, !vsub_nth by (rewrite ?vsub_length; lia). lra. }
  apply Rabs_le. lra.
Qed.

(** ** Copies of a crystal in another position *)
Lemma lin_map_combination : forall dims cols cell x, length cols = dims -> length x = length cell ->
  combination dims (map (lin_map dims cols) cell) x = lin_map dims cols (combination dims cell x).
Proof.
  intros dims cols cell x Hcols Hx. unfold combination at 1, lin_map at 2. apply map_ext_in. intros j Hj. apply in_seq in Hj.
  unfold comb_coord. rewrite map_length, Hcols.
  transitivity (rsum (map (fun r => rsum (map (fun s => nth r x 0 * nth s (nth r cell []) 0 * nth j (nth s cols []) 0) (seq 0 dims))) (seq 0 (length cell)))).
  - apply rsum_ext. intros r Hr. apply in_seq in Hr.
    rewrite (nth_indep (map (lin_map dims cols) cell) [] (lin_map dims cols [])) by (rewrite map_length; lia). rewrite (map_nth (lin_map dims cols)).
    unfold lin_map. rewrite nth_lin by lia. unfold comb_coord. rewrite Hcols, <- rsum_scale. apply rsum_ext. intros. ring.
  - rewrite rsum_swap. apply rsum_ext. intros s Hs. apply in_seq in Hs. unfold combination. rewrite nth_lin by lia.
    unfold comb_coord. rewrite Rmult_comm, <- rsum_scale. apply rsum_ext. intros. ring.
Qed.

Lemma rotated_dual : forall dims cols cell w, length cols = dims -> dual_basis dims cols cols -> length cell = dims ->
  Forall (fun r => length r = dims) cell -> inverse_within w dims cell -> inverse_within w dims (map (lin_map dims cols) cell).
Proof.
  intros dims cols cell w Hc Ho Lc V (dual & (D1 & D2 & D3) & HW). assert (Vc : Forall (fun r => length r = dims) cols) by (destruct Ho; tauto).
  assert (Q : forall u v, length u = dims -> length v = dims -> rdot (lin_map dims cols u) (lin_map dims cols v) = rdot u v).
  { intros u v Lu Lv. rewrite !rdot_dot, !lin_map_latvecR by (auto; lia). apply dot_orthonormal; auto. }
  rewrite Forall_forall in V, D2, HW. exists (map (lin_map dims cols) dual). split; [split; [|split]|].
  - rewrite map_length. auto.
  - apply Forall_forall. intros v Hv. apply in_map_iff in Hv as (u & <- & _). unfold lin_map. rewrite map_length, seq_length. auto.
  - intros i j Hi Hj. rewrite (nth_indep (map (lin_map dims cols) cell) [] (lin_map dims cols [])) by (rewrite map_length; lia).
    rewrite (nth_indep (map (lin_map dims cols) dual) [] (lin_map dims cols [])) by (rewrite map_length; lia).
    rewrite !(map_nth (lin_map dims cols)), Q; [apply D3; auto|apply V, nth_In; lia|apply D2, nth_In; lia].
  - apply Forall_forall. intros v Hv. apply in_map_iff in Hv as (u & <- & Hu). rewrite Q by (apply D2; auto). apply HW. auto.
Qed.

(** A crystal stored again after a rotation or reflection [cols] and a shift by [t]: the vectors
    of its cell and its points are as they should be up to errors, any point may be replaced by a
    translate, and the order of the points may be another one. *)
Theorem C82_copy : forall dims cols t motif cell motif' cell' w a eps (frac : nat -> list R),
  pset_ok dims motif cell -> pset_ok dims motif' cell' -> length cols = dims -> dual_basis dims cols cols -> length t = dims ->
  inverse_within w dims cell ->
  (forall i, (i < length motif)%nat -> length (frac i) = dims /\ nth i motif [] = combination dims cell (frac i) /\
     forall r, (r < dims)%nat -> Rabs (nth r (frac i) 0) <= a) -> 0 <= a ->
  displaced dims cell' eps (map (rigid dims cols t) motif) motif' ->
  let change := cell_change dims (map (lin_map dims cols) cell) cell' in
  perturbed dims cell cell' (w * change) (eps + a * change) motif motif'.
Proof.
  intros dims cols t motif cell motif' cell' w a eps frac Hok Hok' Hcols Ho Ht HW HF Ha (sigma & shift & HP & HM) change.
  pose proof (ok_cell _ _ _ Hok) as Lc. pose proof (ok_cell _ _ _ Hok') as Lc'. pose proof (ok_cell_len _ _ _ Hok) as V. pose proof (ok_cell_len _ _ _ Hok') as V'.
  assert (Vc : Forall (fun r => length r = dims) cols) by (destruct Ho; tauto).
  assert (VQ : Forall (fun r => length r = dims) (map (lin_map dims cols) cell)).
  { apply Forall_forall. intros v Hv. apply in_map_iff in Hv as (u & <- & _). unfold lin_map. rewrite map_length, seq_length. auto. }
  assert (LQ : length (map (lin_map dims cols) cell) = dims) by (rewrite map_length; auto). split.
  - intros x Hx. pose proof (C82_cell_change dims (map (lin_map dims cols) cell) cell' w LQ Lc' VQ V' (ok_dims _ _ _ Hok)
      (rotated_dual dims cols cell w Hcols Ho Lc V HW) x Hx) as S. fold change in S.
    rewrite lin_map_combination in S by lia.
    assert (E : vlength (lin_map dims cols (combination dims cell x)) = vlength (combination dims cell x)).
    { assert (LN : length (combination dims cell x) = dims) by (unfold combination; rewrite map_length, seq_length; auto).
      revert LN. generalize (combination dims cell x). intros q LN. unfold vlength. f_equal. rewrite !rdot_dot, !lin_map_latvecR by (auto; lia). apply dot_orthonormal; auto. }
    rewrite E in S. exact S.
  - exists (map (fun i => map (fun j => comb_coord cell' (frac i) j + nth j t 0) (seq 0 dims)) (seq 0 (length motif))). split.
    + split; [rewrite map_length, seq_length; auto|]. exists t, frac. intros i Hi. destruct (HF i Hi) as (F1 & F2 & _). split; [auto|]. split; [auto|].
      rewrite (nth_indep _ [] ((fun i => map (fun j => comb_coord cell' (frac i) j + nth j t 0) (seq 0 dims)) 0%nat)) by (rewrite map_length, seq_length; auto).
      rewrite (map_nth (fun i => map (fun j => comb_coord cell' (frac i) j + nth j t 0) (seq 0 dims))), seq_nth by auto. reflexivity.
    + exists sigma, shift. rewrite map_length in HP. split; [rewrite map_length, seq_length; exact HP|].
      intros i Hi. rewrite map_length, seq_length in Hi. destruct (HM i ltac:(rewrite map_length; auto)) as [M1 M2]. split; [auto|].
      destruct (HF i Hi) as (F1 & F2 & F3).
      rewrite (nth_indep _ [] ((fun i => map (fun j => comb_coord cell' (frac i) j + nth j t 0) (seq 0 dims)) 0%nat)) by (rewrite map_length, seq_length; auto).
      rewrite (map_nth (fun i => map (fun j => comb_coord cell' (frac i) j + nth j t 0) (seq 0 dims))), seq_nth by auto. simpl (0 + i)%nat.
      rewrite (nth_indep (map (rigid dims cols t) motif) [] (rigid dims cols t [])), (map_nth (rigid dims cols t)) in M2 by (rewrite map_length; auto).
      assert (E : edist (map (fun j => comb_coord cell' (frac i) j + nth j t 0) (seq 0 dims)) (rigid dims cols t (nth i motif [])) <= a * change).
      { eapply Rle_trans; [|apply (combination_small dims (map (lin_map dims cols) cell) cell' (frac i) LQ Lc' VQ V' F1 a F3 Ha)]. right.
        rewrite lin_map_combination by lia. rewrite <- F2. unfold rigid, lin_map, combination, edist. f_equal. clear. generalize (seq 0 dims) as l. 
        induction l as [|j l IH]; [reflexivity|]. cbn [map sq_dist]. rewrite IH. ring. }
      eapply Rle_trans; [apply (edist_triangle _ (rigid dims cols t (nth i motif [])))|lra].
      * rewrite map_length, seq_length, rigid_length. auto.
      * rewrite rigid_length, ppoint_length. auto.
Qed.

(** ** Cases *)
(** The strain is attained: a row of points stretched by a tenth. *)
Definition stretched : pset R := {| ps_motif := line [11 / 10; 55 / 10]; ps_cell := [[11]]; ps_asym := None; ps_mult := None |}.

Lemma stretched_ok : set_spread 1 stretched.
Proof.
  assert (F : Forall (fun t => 0 <= t < 11) [11 / 10; 55 / 10]) by (apply Forall_cons; [lra|apply Forall_cons; [lra|apply Forall_nil]]).
  split; [apply pset_wf_no_asym, (line_ok _ _ F); discriminate|]. split; [apply NNComplete.in_cell_spread; [apply line_dominant|apply line_in_cell]; auto; lra|].
  apply plain_stands_for.
Qed.

Lemma stretched_amd : exists f0, forall fuel, (f0 <= fuel)%nat -> AMD fuel stretched 1 = Done [44 / 10].
Proof.
  assert (F : Forall (fun t => 0 <= t < 11) [11 / 10; 55 / 10]) by (apply Forall_cons; [lra|apply Forall_cons; [lra|apply Forall_nil]]).
  destruct (line_rows [11 / 10; 55 / 10] 11 ltac:(lra) F ltac:(discriminate) (line [11 / 10; 55 / 10]) 1 [[0; 44 / 10]; [0; 44 / 10]]) as (f0 & H).
  - apply incl_refl.
  - discriminate.
  - repeat constructor.
    + apply (line_near2 [11 / 10; 55 / 10] 11 ltac:(lra) 0 0 1); simpl; auto; try discriminate.
      * rabs.
      * intros z [|[|i]] Hi; try lia; destruct (shift_cases 11 ltac:(lra) z) as [->|[H|H]]; auto; right; rabs.
    + apply (line_near2 [11 / 10; 55 / 10] 11 ltac:(lra) 1 0 0); simpl; auto; try discriminate.
      * rabs.
      * intros z [|[|i]] Hi; try lia; destruct (shift_cases 11 ltac:(lra) z) as [->|[H|H]]; auto; right; rabs.
  - exists f0. intros fuel Hf. destruct stretched_ok as (W & _).
    rewrite (AMD_run 1 _ W). change (points_of stretched) with (line [11 / 10; 55 / 10]).
    change (ps_motif stretched) with (line [11 / 10; 55 / 10]). change (ps_cell stretched) with [[11]].
    rewrite (H fuel Hf). simpl. unfold amd_of, wmean. simpl. do 2 f_equal. field.
Qed.

Lemma stretched_perturbed : perturbed 1 (ps_cell (two_points 1 5)) (ps_cell stretched) (1 / 10) 0 (ps_motif (two_points 1 5)) (ps_motif stretched).
Proof.
  split.
  - replace (1 / 10) with (1 / 10 * cell_change 1 (ps_cell (two_points 1 5)) (ps_cell stretched)).
    + apply C82_cell_change; auto; [repeat constructor|repeat constructor|]. exists [[1 / 10]]. split.
      * split; [auto|]. split; [repeat constructor|]. intros [|i] [|j] Hi Hj; try lia; simpl; lra.
      * apply Forall_cons; [|apply Forall_nil]. simpl. rewrite Rplus_0_r, sqrt_square; lra.
    + unfold cell_change, rsum. cbn [seq map fold_right two_points stretched ps_cell nth]. rewrite edist1. rabs.
  - exists (ps_motif stretched). split.
    + split; [reflexivity|]. exists [0], (fun i => match i with 0%nat => [1 / 10] | _ => [1 / 2] end).
      intros [|[|i]] Hi; cbn [two_points ps_motif line map length] in Hi; try lia; (split; [reflexivity|]); split; unfold combination, comb_coord, rsum; cbn; f_equal; lra.
    + exists (fun i => i), (fun _ => [0%Z]). split; [reflexivity|].
      intros [|[|i]] Hi; simpl in Hi; try lia; (split; [auto|]); cbn [stretched ps_motif ps_cell]; rewrite ppoint1; simpl nth; rewrite edist1; rabs.
Qed.

Theorem C82_strain_attained : exists ps ps' delta fuel a a',
  0 < delta < 1 /\ set_spread 1 ps /\ set_spread 1 ps' /\
  perturbed 1 (ps_cell ps) (ps_cell ps') delta 0 (ps_motif ps) (ps_motif ps') /\
  AMD fuel ps 1 = Done a /\ AMD fuel ps' 1 = Done a' /\ 0 < nth 0 a 0 /\ Rabs (nth 0 a' 0 - nth 0 a 0) = delta * nth 0 a 0.
Proof.
  destruct (two_points_amd 1 5) as (f & H); try lra. destruct stretched_amd as (f' & H').
  exists (two_points 1 5), stretched, (1 / 10), (f + f')%nat, [5 - 1], [44 / 10].
  split; [lra|]. split; [apply two_points_ok; lra|]. split; [apply stretched_ok|]. split; [apply stretched_perturbed|].
  split; [apply H; lia|]. split; [apply H'; lia|]. simpl. split; [lra|rabs].
Qed.

(** A cell in the plane is sheared further and one of its two points moves; in binary64. *)
Definition skewed : pset R := {| ps_motif := [[0; 0]; [161 / 64; 1]]; ps_cell := [[4; 0]; [65 / 64; 4]]; ps_asym := None; ps_mult := None |}.

Lemma skewed_case : pdd_case b64 u64 eta64 3 2 skewed 3 (17 / 4) false 0.
Proof.
  destruct u64_small as [U E].
  assert (D : half_dominant 2 (ps_cell skewed)) by (intros [|[|i]] Hi; try lia; unfold rsum; simpl; rewrite Rabs_right by lra; lra).
  unfold pdd_case. split; [|split; [|split; [|split; [|split; [|split; [|split]]]]]].
  - apply pset_wf_no_asym. split; simpl; auto; try discriminate; repeat constructor.
  - exists [[1 / 4; - (65 / 1024)]; [0; 1 / 4]]. split; [auto|]. split; [repeat constructor|]. intros [|[|i]] [|[|j]] Hi Hj; try lia; simpl; lra.
  - apply NNComplete.in_cell_spread; [exact D|]. constructor; [|constructor; [|constructor]].
    + exists [0; 0]. split; auto. split; [apply Forall_cons; [lra|apply Forall_cons; [lra|apply Forall_nil]]|]. unfold comb_coord. simpl. f_equal; [lra|]. f_equal. lra.
    + exists [579 / 1024; 1 / 4]. split; auto. split; [apply Forall_cons; [lra|apply Forall_cons; [lra|apply Forall_nil]]|]. unfold comb_coord. simpl. f_equal; [lra|]. f_equal. lra.
  - assert (X : forall z g x, (Z.abs z < 2 ^ 53)%Z -> x = IZR z * powerRZ 2 g -> representable b64 x) by (intros z g x Hz ->; apply (b64_representable u64); auto using b64_binary64).
    constructor; [|constructor; [|constructor]]; (split; [repeat constructor|]).
    + apply (X 0%Z 0%Z); [reflexivity|]. simpl. lra.
    + apply (X 0%Z 0%Z); [reflexivity|]. simpl. lra.
    + simpl. replace (0 * 0 + (0 * 0 + 0)) with 0 by lra. rewrite sqrt_0. lra.
    + apply (X 161%Z (-6)%Z); [reflexivity|]. simpl. lra.
    + apply (X 1%Z 0%Z); [reflexivity|]. simpl. lra.
    + simpl. rewrite <- (sqrt_square 3) by lra. apply sqrt_le_1_alt. lra.
  - simpl. lra.
  - simpl. nra.
  - pose proof (fun js p ds N => nearest_upto 2 (ps_motif skewed) (ps_cell skewed) p 4 ds (17 / 4) js N) as G.
    intros p ds [<-|[<-|[]]] N.
    + apply (G [([0; 0]%Z, 0%nat); ([0; 0]%Z, 1%nat); ([1; 0]%Z, 0%nat); ([-1; 0]%Z, 0%nat)] _ ds N); [reflexivity| |].
      * repeat constructor; cbn; intuition discriminate.
      * apply Forall_forall. intros a Ia. split; [destruct Ia as [<-|[<-|[<-|[<-|[]]]]]; split; cbn; auto|].
        rewrite <- (sqrt_square (17 / 4)) by lra. unfold edist. apply sqrt_le_1_alt. destruct Ia as [<-|[<-|[<-|[<-|[]]]]]; cbn; unfold lattice_coord, comb_coord, rsum; cbn; lra.
    + apply (G [([0; 0]%Z, 1%nat); ([0; 0]%Z, 0%nat); ([1; 0]%Z, 1%nat); ([-1; 0]%Z, 1%nat)] _ ds N); [reflexivity| |].
      * repeat constructor; cbn; intuition discriminate.
      * apply Forall_forall. intros a Ia. split; [destruct Ia as [<-|[<-|[<-|[<-|[]]]]]; split; cbn; auto|].
        rewrite <- (sqrt_square (17 / 4)) by lra. unfold edist. apply sqrt_le_1_alt. destruct Ia as [<-|[<-|[<-|[<-|[]]]]]; cbn; unfold lattice_coord, comb_coord, rsum; cbn; lra.
  - discriminate.
Qed.

Lemma skewed_perturbed : perturbed 2 (ps_cell nudged) (ps_cell skewed) (3 / 640) (29 / 256) (ps_motif nudged) (ps_motif skewed).
Proof.
  split.
  - replace (3 / 640) with (3 / 10 * cell_change 2 (ps_cell nudged) (ps_cell skewed)).
    + apply C82_cell_change; auto; [repeat constructor|repeat constructor|]. exists [[1 / 4; - (1 / 16)]; [0; 1 / 4]]. split.
      * split; [auto|]. split; [repeat constructor|]. intros [|[|i]] [|[|j]] Hi Hj; try lia; simpl; lra.
      * apply Forall_cons; [|apply Forall_cons; [|apply Forall_nil]]; simpl; rewrite <- (sqrt_square (3 / 10)) by lra; apply sqrt_le_1_alt; lra.
    + unfold cell_change, rsum. cbn [seq map fold_right nudged skewed ps_cell nth]. unfold edist. cbn [sq_dist].
      replace ((4 - 4) * (4 - 4) + ((0 - 0) * (0 - 0) + 0)) with 0 by lra.
      replace ((65 / 64 - 1) * (65 / 64 - 1) + ((4 - 4) * (4 - 4) + 0)) with (1 / 64 * (1 / 64)) by lra. rewrite sqrt_0, sqrt_square by lra. lra.
  - exists [[0; 0]; [673 / 256; 1]]. split.
    + split; [reflexivity|]. exists [0; 0], (fun i => match i with 0%nat => [0; 0] | _ => [19 / 32; 1 / 4] end).
      intros [|[|i]] Hi; cbn [nudged ps_motif length] in Hi; try lia; (split; [reflexivity|]); split; unfold combination, comb_coord, rsum; cbn; (f_equal; [lra|]); f_equal; lra.
    + exists (fun i => i), (fun _ => [0; 0]%Z). split; [reflexivity|].
      intros [|[|i]] Hi; simpl in Hi; try lia; (split; [auto|]); rewrite <- (sqrt_square (29 / 256)) by lra; unfold edist; apply sqrt_le_1_alt;
        cbn; unfold lattice_coord, comb_coord, rsum; cbn; lra.
Qed.

Lemma nudged_wider : pdd_case b64 u64 eta64 3 2 nudged 3 (17 / 4) false 0.
Proof.
  destruct nudged_case as (A1 & A2 & A3 & A4 & A5 & A6 & A7 & A8). split; [exact A1|]. split; [exact A2|]. split; [exact A3|]. split; [exact A4|]. split; [exact A5|]. split; [exact A6|]. split; [|discriminate].
  intros p ds Hp N. specialize (A7 p ds Hp N). eapply Forall_impl; [|exact A7]. cbn. intros; lra.
Qed.

Example C82_binary64_case : exists fa a v plan fuel0, AMD fa nudged 3 = Done a /\
  (forall fuel, (fuel0 <= fuel)%nat -> pipeline b64 Int_part fuel nudged skewed 3 true true false false 0 0 = Done (v, plan)) /\
  v <= 3 / 640 * nth 2 a 0 + 29 / 128 + 1 / 250000.
Proof.
  assert (R : exists fa a, AMD fa nudged 3 = Done a).
  { destruct nudged_case as (W & NS & _).
    destruct (C09_terminates 2 (ps_motif nudged) (ps_cell nudged) (points_of nudged) 3 (wf_ok _ _ W) NS (points_incl _ _ W) (points_nonempty _ _ W)) as (rows & f0 & H).
    exists f0. destruct (H f0) as [H1 _]. rewrite (AMD_run 2 _ W), (H1 (le_n _)). cbn [obind]. eauto. }
  destruct R as (fa & a & R). exists fa, a.
  destruct (C82_emd_binary64 b64 Int_part 3 2 nudged skewed (3 / 640) (29 / 256) 3 (17 / 4) fa a true true false false 0 0)
    as (v & plan & f & HF & HV); auto using Int_part_truncates, skewed_case, nudged_wider, skewed_perturbed; try lra.
  - apply b64_binary64.
  - apply Rle_trans with (powerRZ 2 0); [apply two_le; lia|simpl; lra].
  - simpl. lra.
  - simpl. lra.
  - apply (plain_stands_for 2 [[0; 0]; [21 / 8; 1]] [[4; 0]; [1; 4]] None).
  - apply (plain_stands_for 2 [[0; 0]; [161 / 64; 1]] [[4; 0]; [65 / 64; 4]] None).
  - exists v, plan, f. split; [exact R|]. split; [exact HF|]. change (length (ps_motif nudged)) with 2%nat in HV. unfold slack in HV. simpl (INR _) in HV. change (3 - 1)%nat with 2%nat in HV. lra.
Qed.

(** A copy turned by a right angle, with another origin, an error in the cell and one in a point. *)
Example C82_copy_case : perturbed 2 (ps_cell nudged) [[0; 4]; [-4; 65 / 64]] (3 / 640) (1 / 32) (ps_motif nudged) [[1 / 80; 29 / 8]; [1; 1]].
Proof.
  pose proof (C82_copy 2 [[0; 1]; [-1; 0]] [1; 1] (ps_motif nudged) (ps_cell nudged) [[1 / 80; 29 / 8]; [1; 1]] [[0; 4]; [-4; 65 / 64]] (3 / 10) 1 (1 / 64)
    (fun i => match i with 0%nat => [0; 0] | _ => [19 / 32; 1 / 4] end)) as T.
  assert (E : cell_change 2 (map (lin_map 2 [[0; 1]; [-1; 0]]) (ps_cell nudged)) [[0; 4]; [-4; 65 / 64]] = 1 / 64).
  { unfold cell_change, rsum, edist, lin_map, comb_coord, rsum. cbn.
    match goal with |- sqrt ?x + (sqrt ?y + 0) = _ => replace x with 0 by lra; replace y with (1 / 64 * (1 / 64)) by lra end. rewrite sqrt_0, sqrt_square by lra. lra. }
  cbv zeta in T. rewrite E in T. replace (3 / 640) with (3 / 10 * (1 / 64)) by lra. replace (1 / 32) with (1 / 64 + 1 * (1 / 64)) by lra. apply T.
  - apply wf_ok. apply nudged_case.
  - constructor; simpl; auto; try discriminate; repeat constructor.
  - reflexivity.
  - split; [auto|]. split; [repeat constructor|]. intros [|[|i]] [|[|j]] Hi Hj; try lia; simpl; lra.
  - reflexivity.
  - exists [[1 / 4; - (1 / 16)]; [0; 1 / 4]]. split.
    + split; [auto|]. split; [repeat constructor|]. intros [|[|i]] [|[|j]] Hi Hj; try lia; simpl; lra.
    + apply Forall_cons; [|apply Forall_cons; [|apply Forall_nil]]; simpl; rewrite <- (sqrt_square (3 / 10)) by lra; apply sqrt_le_1_alt; lra.
  - intros [|[|i]] Hi; cbn [nudged ps_motif length] in Hi; try lia; (split; [reflexivity|]); split; try (unfold combination, comb_coord, rsum; cbn; (f_equal; [lra|]); f_equal; lra);
      intros [|[|r]] Hr; try lia; cbn; apply Rabs_le; lra.
  - lra.
  - exists (fun i => match i with 0%nat => 1%nat | _ => 0%nat end), (fun _ => [0; 0]%Z). split; [cbn; apply perm_swap|].
    intros [|[|i]] Hi; cbn in Hi; try lia; (split; [auto|]); rewrite <- (sqrt_square (1 / 64)) by lra; unfold edist; apply sqrt_le_1_alt;
      cbn; unfold rigid, lattice_coord, comb_coord, rsum; cbn; lra.
Qed.

Print Assumptions C82_nearest.
Print Assumptions C82_pdd.
Print Assumptions C82_emd.
Print Assumptions C82_emd_binary64.
Print Assumptions C82_amd.
Print Assumptions C82_amd_asym.
Print Assumptions C82_cell_change.
Print Assumptions C82_copy.
Print Assumptions C82_strain_attained.
