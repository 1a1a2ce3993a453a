(** Property C86: the distance of two crystals which are read with rounded operations. *)
From Coq Require Import List ZArith Arith Bool Lia Reals Lra Psatz Permutation Sorted FinFun.
From Verif Require Import Num Base Spec Outcome CollapseModel NNModel VecR Sums SpecGeom SpecCalc SpecEmd SpecEmd64 SpecSites SpecCont NNProofs NNSpecProofs NNComplete NNInvariance Props_NN CompareModel CalcModel CalcProofs CalcProofs2 Props_Calc
  EmdModel EmdReal EmdSym EmdTop Props_Emd Props_EmdPdd SitesModel SitesProofs SitesExpand Props_Sites SpecSymmetry SymmetryProofs Props_Symmetry Props_Geo Props_Finite
  RoundModel SpecRound RoundSum RoundProofs RoundCalc RoundCollapse RoundBinary Props_Round RoundSitesModel SpecRoundSites
  RoundEmdModel RoundEmd RoundEmdTop RoundEmdArgs RoundEmdPdd Props_RoundEmd Props_RoundSites ContProofs Props_Cont ReadRows.
Import ListNotations.
Open Scope R_scope.
Notation length := List.length.

Lemma emd_of_close : forall u eta ar cast ps1 ps1' ps2 ps2' k D l1 l2 l1' l2' c1 c2 tol1 tol2 w del,
  emd_arithmetic u eta ar cast ->
  close_pdds ar ps1 ps1' k D l1 l1' c1 tol1 w del -> close_pdds ar ps2 ps2' k D l2 l2' c2 tol2 w del ->
  emd_size u eta w del D (length (ps_motif ps1)) (length (ps_motif ps2)) (length (ps_motif ps1)) (length (ps_motif ps2)) ->
  exists exact1 g1 exact2 g2 v plan fuel0,
    (forall fuel, (fuel0 <= fuel)%nat -> PDD fuel ps1 k l1 c1 tol1 = Done (exact1, g1) /\ PDD fuel ps2 k l2 c2 tol2 = Done (exact2, g2) /\
      pipeline ar cast fuel ps1' ps2' k l1' l2' c1 c2 tol1 tol2 = Done (v, plan)) /\
    forall d, row_distance k (pdd_array exact1) (pdd_array exact2) d ->
      emd_within (length exact1) (length exact2) (fun i => mx (pdd_array exact1) i 0) (fun j => mx (pdd_array exact2) j 0) d
        (rounded_accuracy (length (ps_motif ps1)) (length (ps_motif ps2)) u w del D) v.
Proof.
  intros u eta ar cast ps1 ps1' ps2 ps2' k D l1 l2 l1' l2' c1 c2 tol1 tol2 w del EA K1_ K2_ SZ.
  pose proof (ea_float _ _ _ _ EA) as FL. pose proof (fl_u _ _ _ FL) as u0. pose proof (fl_eta _ _ _ FL) as eta0.
  destruct K1_ as (e1 & g1 & r1 & g1' & f1 & p0 & R1 & _ & Q1 & K1 & PL1 & MU1 & LE1 & D0 & RG1).
  destruct K2_ as (e2 & g2 & r2 & g2' & f2 & q0 & R2 & _ & Q2 & K2 & PL2 & MU2 & LE2 & _ & RG2).
  pose proof (Permutation_length Q1) as LQ1. pose proof (Permutation_length Q2) as LQ2. unfold pdd_array in LQ1, LQ2. rewrite map_length in LQ1, LQ2.
  assert (LK : forall p p0, pdd_like k p -> Permutation p p0 -> pdd_like k p0).
  { intros p p1 [A1 A2 A3 A4] H. constructor; [intros ->; apply Permutation_sym, Permutation_nil in H; auto|eapply perm_forall; eauto|eapply perm_forall; eauto|].
    destruct (perm_index p p1 H) as (Lp & f & Hf & Hi & Hn). rewrite Lp, <- A4. rewrite <- (Sum_bij (length p) f (fun i => mx p i 0) Hf Hi). apply Sum_ext. intros i Hi'. unfold mx. now rewrite Hn. }
  assert (MK : forall m e p0, multiples m (map fst e) -> Permutation (pdd_array e) p0 -> multiples m (map (fun r => nth 0 r 0) p0)).
  { intros m e p1 H HP. unfold multiples. apply (perm_forall _ _ (map (fun r => nth 0 r 0) (pdd_array e))); [apply Permutation_map; auto|].
    unfold pdd_array. rewrite map_map. exact H. }
  assert (RK : forall e p0, Forall (fun r : R * list R => Forall (fun x => 0 <= x <= D) (snd r)) e -> Permutation (pdd_array e) p0 -> Forall (fun r => Forall (fun x => 0 <= x <= D) (tl r)) p0).
  { intros e p1 H HP. apply (perm_forall _ _ (pdd_array e)); auto. unfold pdd_array. apply Forall_map. exact H. }
  assert (S0 : emd_size u eta w del D (length (ps_motif ps1)) (length (ps_motif ps2)) (length p0) (length q0)).
  { assert (N : INR (length p0 * length q0) <= INR (length (ps_motif ps1) * length (ps_motif ps2))) by (apply le_INR, Nat.mul_le_mono; lia). pose proof (pos_INR (length p0 * length q0)) as N0.
    destruct SZ as [S1 S2 S3 S4 S5 S6 S7 S8 S9]. constructor; auto.
    - eapply Rle_trans; [apply Rmult_le_compat_r; [lra|exact N]|exact S7].
    - eapply Rle_trans; [apply Rmult_le_compat_r; [lra|exact N]|exact S8].
    - eapply Rle_trans; [apply Rmult_le_compat_r; [|exact N]|exact S9]. unfold rounded_cost_error. assert (0 <= u * (D + 2 * del)) by (apply Rmult_le_pos; lra). lra. }
  pose proof (dm_dist k p0 q0 (LK _ _ PL1 Q1) (LK _ _ PL2 Q2)) as DD.
  assert (RDd : forall d, row_distance k p0 q0 d -> below_cap (length p0) (length q0) (fun _ _ => D) d).
  { intros d Hd i j Hi Hj. pose proof (RK _ _ RG1 Q1) as X1. pose proof (RK _ _ RG2 Q2) as X2. rewrite Forall_forall in X1, X2.
    apply (chebyshev_range k (tl (nth i p0 [])) (tl (nth j q0 []))); auto; [apply (tl_len k _ p0 (LK _ _ PL1 Q1)), nth_In; auto|apply (tl_len k _ q0 (LK _ _ PL2 Q2)), nth_In; auto|apply X1, nth_In; auto|apply X2, nth_In; auto]. }
  destruct (C76_emd_rounded u eta ar cast k _ _ p0 q0 (pdd_array r1) (pdd_array r2) _ w del D EA (LK _ _ PL1 Q1) (LK _ _ PL2 Q2) (MK _ _ _ MU1 Q1) (MK _ _ _ MU2 Q2) K1 K2 DD (RDd _ DD) S0)
    as (v & plan & F & HF).
  exists e1, g1, e2, g2, v, plan, (Nat.max F (Nat.max f1 f2)). split.
  - intros fuel Hf. destruct (R1 fuel ltac:(lia)) as [A1 A2]. destruct (R2 fuel ltac:(lia)) as [B1 B2]. split; auto. split; auto.
    unfold pipeline. rewrite A2. cbn [obind]. rewrite B2. cbn [obind fst]. apply HF. lia.
  - intros d Hd. assert (LA1 : length (pdd_array e1) = length e1) by (unfold pdd_array; apply map_length). assert (LA2 : length (pdd_array e2) = length e2) by (unfold pdd_array; apply map_length).
    rewrite <- LA1, <- LA2. apply (within_perm_both k _ p0 _ q0); auto. intros d0 Hd0.
    eapply emd_within_le; [|eapply within_ext; [| | |exact (proj2 (HF F (le_n _)))]; auto].
    + unfold rounded_accuracy. cbv zeta. set (kap := rounded_cost_error u del D). assert (Dk : 0 <= D + kap).
      { unfold kap, rounded_cost_error. pose proof (es_d _ _ _ _ _ _ _ _ _ SZ). assert (0 <= u * (D + 2 * del)) by (apply Rmult_le_pos; lra). lra. }
      assert (N : INR (length p0 * length q0) <= INR (length (ps_motif ps1) * length (ps_motif ps2))) by (apply le_INR, Nat.mul_le_mono; lia).
      assert (N1 : INR (length p0) <= INR (length (ps_motif ps1))) by (apply le_INR; lia). assert (N2 : INR (length q0) <= INR (length (ps_motif ps2))) by (apply le_INR; lia).
      assert (X : 5 * (INR (length p0) + INR (length q0) + 2) * (D + kap) <= 5 * (INR (length (ps_motif ps1)) + INR (length (ps_motif ps2)) + 2) * (D + kap)) by (apply Rmult_le_compat_r; lra).
      assert (Y : (10 * w + (3 * INR (length p0 * length q0) + 40) * u) * (D + kap + 1) <= (10 * w + (3 * INR (length (ps_motif ps1) * length (ps_motif ps2)) + 40) * u) * (D + kap + 1)).
      { apply Rmult_le_compat_r; [lra|]. apply Rplus_le_compat_l. apply Rmult_le_compat_r; lra. }
      lra.
    + intros i j Hi Hj. symmetry. apply (dm_unique k p0 q0 (LK _ _ PL1 Q1) (LK _ _ PL2 Q2)); auto.
Qed.

(** ** From files to distances *)
(** The contents of a file and the options of the reader. *)
Record contents := { ct_cell : list (list R); ct_asym : list (list R); ct_types : list nat; ct_ops : list operation; ct_tol : R; ct_uniquify : bool }.
Definition read_exactly (c : contents) : outcome (@crystal_set R * list warning) :=
  finish mod1 (ct_tol c) (ct_uniquify c) (ct_cell c) (ct_asym c) (ct_types c) (ct_ops c).
Definition read_rounded (ar : arith) (c : contents) : outcome (@crystal_set R * list warning) :=
  @finish R (num_of ar) (np_mod1 ar) (ct_tol c) (ct_uniquify c) (ct_cell c) (ct_asym c) (ct_types c) (ct_ops c).

(** io.py lines 687-704 (and the ends of the other converters), then compare.py: both crystals are
    read, their PDDs (calculate.py) and the distance of these (compare.py, EMD) are computed. *)
Definition compare_contents (ar : arith) (cast : R -> Z) (fuel : nat) (a b : contents) (k : nat)
  (lex1 lex2 c1 c2 : bool) (tol1 tol2 : R) : outcome (R * list (list R)) :=
  x <- read_rounded ar a ;;
  y <- read_rounded ar b ;;
  pipeline ar cast fuel (cs_set (fst x)) (cs_set (fst y)) k lex1 lex2 c1 c2 tol1 tol2.

(** The contents of a file for which rounding errors change no comparison of sites, with a cell
    that is not too flat, and the crystal [cs] they describe. *)
Record legible (ar : arith) (u eta s w D b : R) (dims k : nat) (collapse : bool) (tol : R) (c : contents) (cs : @crystal_set R) : Prop := {
  lg_readable : readable ar u eta s (ct_tol c) dims (ct_cell c) (ct_asym c) (ct_types c) (ct_ops c);
  lg_inverse : inverse_within w dims (ct_cell c);
  lg_dominant : half_dominant dims (ct_cell c);
  lg_flat : 24 * u * (1 + 13 * cell_size (ct_cell c) * w) <= 1 / 10000;
  lg_eta : eta <= (u * cell_size (ct_cell c)) * (u * cell_size (ct_cell c));
  lg_bound : read_bound s w D (ct_cell c) <= b;
  lg_crystal : exists warn, read_exactly c = Done (cs, warn);
  lg_distances : distances_within dims (ps_motif (cs_set cs)) (ct_cell c) (points_of (cs_set cs)) k D;
  lg_decided : collapse = true -> decided dims (ps_motif (cs_set cs)) (ct_cell c) (points_of (cs_set cs)) k tol (203 * u * (D + b))
}.

(** The PDD of a crystal which is read with rounded operations: the same groups of points, weights
    and distances close to the exact ones of the exact crystal. *)
Theorem C86_pdd_rounded : forall ar u eta s w D b dims k l l' collapse tol c cs M, representable_dots ar ->
  legible ar u eta s w D b dims k collapse tol c cs -> INR (length (ps_motif (cs_set cs))) <= M -> M <= 10000000 -> M * u <= 1 / 100 -> M * eta <= u ->
  exists cs' warn exact g rounded g' fuel0 p0, read_exactly c = Done (cs, warn) /\ read_rounded ar c = Done (cs', warn) /\
    (forall fuel, (fuel0 <= fuel)%nat -> PDD fuel (cs_set cs) k l collapse tol = Done (exact, g) /\ @PDD R (num_of ar) fuel (cs_set cs') k l' collapse tol = Done (rounded, g')) /\
    Permutation g g' /\ Permutation (pdd_array exact) p0 /\ close_matrices ((5 + 2 * M) * u) ((110 + 3 * M) * u * (D + b)) p0 (pdd_array rounded).
Proof.
  intros ar u eta s w D b dims k l l' collapse tol c cs M HR [RD HW HD HF HE HB (warn & EX) DW DC] M1 M2 M3 M4.
  destruct (read_pdd ar u eta s (ct_tol c) w D M b dims _ _ _ _ (ct_uniquify c) RD HW HD HR HF HE HB k l l' collapse tol cs warn EX M1 M2 M3 M4 DW DC) as (cs' & E' & _ & (e & g & r & g' & f & p0 & H1 & H2 & H3 & H4 & _)).
  exists cs', warn, e, g, r, g', f, p0. do 5 (split; [assumption|]). exact H4.
Qed.

(** Reading two crystals and computing the distance of their PDDs with rounded operations
    throughout: the result is close to the exact distance of the exact PDDs of the exact
    crystals. *)
Theorem C86_crystals_rounded : forall ar cast u eta s w D b dims k l1 l2 l1' l2' c1 c2 tol1 tol2 a1 a2 cs1 cs2 M wt del,
  emd_arithmetic u eta ar cast -> representable_dots ar ->
  legible ar u eta s w D b dims k c1 tol1 a1 cs1 -> legible ar u eta s w D b dims k c2 tol2 a2 cs2 ->
  INR (length (ps_motif (cs_set cs1))) <= M -> INR (length (ps_motif (cs_set cs2))) <= M -> M <= 10000000 -> M * u <= 1 / 100 -> M * eta <= u ->
  wt = (5 + 2 * M) * u -> del = (110 + 3 * M) * u * (D + b) ->
  let m1 := length (ps_motif (cs_set cs1)) in let m2 := length (ps_motif (cs_set cs2)) in
  emd_size u eta wt del D m1 m2 m1 m2 ->
  exists exact1 g1 exact2 g2 v plan fuel0,
    (forall fuel, (fuel0 <= fuel)%nat -> PDD fuel (cs_set cs1) k l1 c1 tol1 = Done (exact1, g1) /\ PDD fuel (cs_set cs2) k l2 c2 tol2 = Done (exact2, g2) /\
      compare_contents ar cast fuel a1 a2 k l1' l2' c1 c2 tol1 tol2 = Done (v, plan)) /\
    forall d, row_distance k (pdd_array exact1) (pdd_array exact2) d ->
      emd_within (length exact1) (length exact2) (fun i => mx (pdd_array exact1) i 0) (fun j => mx (pdd_array exact2) j 0) d
        (rounded_accuracy m1 m2 u wt del D) v.
Proof.
  intros ar cast u eta s w D b dims k l1 l2 l1' l2' c1 c2 tol1 tol2 a1 a2 cs1 cs2 M wt del EA HR [RD1 HW1 HD1 HF1 HE1 HB1 (w1 & X1) DW1 DC1] [RD2 HW2 HD2 HF2 HE2 HB2 (w2 & X2) DW2 DC2] M1 M2 M7 Mu Me -> -> m1 m2 SZ.
  destruct (read_pdd ar u eta s (ct_tol a1) w D M b dims _ _ _ _ (ct_uniquify a1) RD1 HW1 HD1 HR HF1 HE1 HB1 k l1 l1' c1 tol1 cs1 w1 X1 M1 M7 Mu Me DW1 DC1) as (cs1' & E1 & _ & CP1).
  destruct (read_pdd ar u eta s (ct_tol a2) w D M b dims _ _ _ _ (ct_uniquify a2) RD2 HW2 HD2 HR HF2 HE2 HB2 k l2 l2' c2 tol2 cs2 w2 X2 M2 M7 Mu Me DW2 DC2) as (cs2' & E2 & _ & CP2).
  destruct (emd_of_close u eta ar cast _ _ _ _ k D l1 l2 l1' l2' c1 c2 tol1 tol2 _ _ EA CP1 CP2 SZ) as (e1 & g1 & e2 & g2 & v & plan & f & HF & HV).
  exists e1, g1, e2, g2, v, plan, f. split; [|exact HV]. intros fuel Hf. destruct (HF fuel Hf) as (Z1 & Z2 & Z3). split; [exact Z1|]. split; [exact Z2|].
  unfold compare_contents, read_rounded. rewrite E1. cbn [obind]. rewrite E2. cbn [obind fst]. exact Z3.
Qed.

(** ** binary64 *)
Record legible64 (ar : arith) (s w D b : R) (dims k : nat) (collapse : bool) (tol : R) (c : contents) (cs : @crystal_set R) : Prop := {
  l64_tol : ct_tol c < 1 / 3;
  l64_cell : length (ct_cell c) = dims;
  l64_cell_len : Forall (fun r => length r = dims) (ct_cell c);
  l64_ops : ct_ops c <> [];
  l64_ops_ok : Forall (operation_ok dims) (ct_ops c);
  l64_asym : ct_asym c <> [];
  l64_asym_len : Forall (fun p => length p = dims) (ct_asym c);
  l64_types : length (ct_types c) = length (ct_asym c);
  l64_size : images_within s (ct_asym c) (ct_ops c);
  l64_sites : decided_sites (ct_tol c) (22 * u64 * (s + 1)) (ct_asym c) (ct_ops c);
  l64_inverse : inverse_within w dims (ct_cell c);
  l64_dominant : half_dominant dims (ct_cell c);
  l64_lengths : powerRZ 2 (-400) <= cell_size (ct_cell c) <= 1000;
  l64_bound : read_bound s w D (ct_cell c) <= b;
  l64_crystal : exists warn, read_exactly c = Done (cs, warn);
  l64_distances : distances_within dims (ps_motif (cs_set cs)) (ct_cell c) (points_of (cs_set cs)) k D;
  l64_decided : collapse = true -> decided dims (ps_motif (cs_set cs)) (ct_cell c) (points_of (cs_set cs)) k tol (203 * u64 * (D + b))
}.

Lemma legible64_legible : forall ar s w D b dims k collapse tol c cs, binary64 u64 ar -> 0 <= s -> w <= 1000 -> (1 <= dims <= 4)%nat ->
  legible64 ar s w D b dims k collapse tol c cs -> legible ar u64 eta64 s w D b dims k collapse tol c cs.
Proof.
  intros ar s w D b dims k collapse tol c cs BI Hs Hw Hd [A1 A2 A3 A4 A5 A6 A7 A8 A9 A10 A11 A12 A13 A14 A15 A16 A17]. set (L := cell_size (ct_cell c)) in *.
  pose proof (b64_for u64 ar L BI ltac:(lra)) as (FL & Hu & L0 & HeL & He2). pose proof (binary64_u u64 ar BI) as BU. pose proof u64_pos as U0.
  assert (US : u64 <= 1 / 9007199254740992) by (unfold u64; simpl; lra).
  assert (E1 : eta64 <= u64 / 10). { apply Rle_trans with (powerRZ 2 (-4) * u64); [unfold u64, eta64; rewrite <- two_add; apply two_le; lia|simpl; lra]. }
  assert (E2 : eta64 <= u64 * L / 10).
  { apply Rle_trans with (powerRZ 2 (-4) * (u64 * powerRZ 2 (-400))); [unfold u64, eta64; rewrite <- !two_add; apply two_le; lia|].
    assert (u64 * powerRZ 2 (-400) <= u64 * L) by (pose proof (two_pos (-400)); apply Rmult_le_compat; lra). pose proof (two_pos (-400)). assert (0 <= u64 * powerRZ 2 (-400)) by (apply Rmult_le_pos; lra). simpl. simpl in *. lra. }
  assert (RD : readable ar u64 eta64 s (ct_tol c) dims (ct_cell c) (ct_asym c) (ct_types c) (ct_ops c)) by (constructor; auto; lra).
  pose proof (w_pos ar u64 eta64 s (ct_tol c) w dims _ _ _ _ RD A11 A12) as W0.
  assert (LW : L * w <= 1000 * 1000) by (destruct A13 as [_ HL]; clear - HL L0 W0 Hw; clearbody L; apply Rmult_le_compat; [exact L0|exact W0|exact HL|exact Hw]). assert (LW0 : 0 <= L * w) by (apply Rmult_le_pos; lra).
  constructor; auto. fold L. apply Rle_trans with (24 * u64 * (1 + 13 * (1000 * 1000))); [|lra]. apply Rmult_le_compat; lra.
Qed.

(** In binary64, motifs of up to 5000 points: the error of the distance is at most
    5 (m1 + m2 + 3) (D + 1) units of the 8th decimal and 4 (D + b) units of the 12th. *)
Theorem C86_crystals_binary64 : forall ar cast s w D b dims k l1 l2 l1' l2' c1 c2 tol1 tol2 a1 a2 cs1 cs2,
  binary64 u64 ar -> representable_dots ar -> truncates cast -> 0 <= s -> w <= 1000 -> (1 <= dims <= 4)%nat -> D + b <= 100000000000 ->
  legible64 ar s w D b dims k c1 tol1 a1 cs1 -> legible64 ar s w D b dims k c2 tol2 a2 cs2 ->
  let m1 := INR (length (ps_motif (cs_set cs1))) in let m2 := INR (length (ps_motif (cs_set cs2))) in
  m1 <= 5000 -> m2 <= 5000 -> m1 * m2 * (D + 1) <= 10000000000 ->
  exists exact1 g1 exact2 g2 v plan fuel0,
    (forall fuel, (fuel0 <= fuel)%nat -> PDD fuel (cs_set cs1) k l1 c1 tol1 = Done (exact1, g1) /\ PDD fuel (cs_set cs2) k l2 c2 tol2 = Done (exact2, g2) /\
      compare_contents ar cast fuel a1 a2 k l1' l2' c1 c2 tol1 tol2 = Done (v, plan)) /\
    forall d, row_distance k (pdd_array exact1) (pdd_array exact2) d ->
      emd_within (length exact1) (length exact2) (fun i => mx (pdd_array exact1) i 0) (fun j => mx (pdd_array exact2) j 0) d
        (5 * (m1 + m2 + 3) * (D + 1) / 100000000 + 4 * (D + b) / 1000000000000) v.
Proof.
  intros ar cast s w D b dims k l1 l2 l1' l2' c1 c2 tol1 tol2 a1 a2 cs1 cs2 BI HR HT Hs Hw Hd Hb LG1 LG2 n1 n2 N1 N2 Hc. destruct u64_small as [U E].
  apply legible64_legible in LG1; auto. apply legible64_legible in LG2; auto.
  assert (P1 : 0 <= n1) by apply pos_INR. assert (P2 : 0 <= n2) by apply pos_INR.
  assert (D0 : 0 <= D /\ 0 <= b).
  { destruct LG1 as [RD HW HD HF HE HB (wn & X) DW DC].
    assert (W0 : 0 <= w) by (eapply w_pos; eauto). assert (L0 : 0 <= cell_size (ct_cell a1)) by (eapply size_pos; eauto).
    destruct (read_pdd ar u64 eta64 s (ct_tol a1) w D 5000 b dims _ _ _ _ (ct_uniquify a1) RD HW HD HR HF HE HB k l1 l1' c1 tol1 cs1 wn X N1 ltac:(lra) ltac:(lra) ltac:(nra) DW DC) as (cs' & _ & _ & (? & ? & ? & ? & ? & ? & _ & _ & _ & _ & _ & _ & _ & Z & _)).
    split; [exact Z|]. eapply Rle_trans; [|exact HB]. unfold read_bound. assert (0 <= cell_size (ct_cell a1) * w) by (apply Rmult_le_pos; auto). assert (0 <= (s + 3) * cell_size (ct_cell a1)) by (apply Rmult_le_pos; lra). apply Rmult_le_pos; lra. }
  destruct D0 as [D0 b0].
  set (wt := (5 + 2 * 5000) * u64). set (del := (110 + 3 * 5000) * u64 * (D + b)).
  assert (W : 0 <= wt <= 126 / 100000000000000) by (unfold wt; lra).
  assert (DE : 0 <= del <= 19 / 10000000000000 * (D + b)).
  { unfold del. split; [apply Rmult_le_pos; lra|]. apply Rmult_le_compat_r; lra. }
  set (kap := rounded_cost_error u64 del D).
  assert (K : 0 <= kap <= 4 / 1000000000000 * (D + b) + 2 / 100000000).
  { unfold kap, rounded_cost_error. assert (X : 0 <= u64 * (D + 2 * del) <= 1 / 8000000000000000 * (D + 2 * del)) by (split; [apply Rmult_le_pos; lra|apply Rmult_le_compat_r; lra]). lra. }
  assert (N12 : 0 <= n1 * n2 <= 25000000) by nra.
  assert (NE : INR (length (ps_motif (cs_set cs1)) * length (ps_motif (cs_set cs2))) = n1 * n2) by apply mult_INR.
  assert (WE : forall n, 0 <= n <= 5000 -> (100000000 * (wt + 2 * u64) + eta64) * n < 1) by (intros n Hn; nra).
  destruct (C86_crystals_rounded ar cast u64 eta64 s w D b dims k l1 l2 l1' l2' c1 c2 tol1 tol2 a1 a2 cs1 cs2 5000 wt del (b64_emd_arithmetic ar cast BI HT) HR LG1 LG2 N1 N2 ltac:(lra) ltac:(lra) ltac:(nra) eq_refl eq_refl)
    as (e1 & g1 & e2 & g2 & v & plan & f & HF & HV).
  { constructor; fold n1 n2; rewrite ?NE; try lra; try (apply WE; lra); [nra|nra|]. fold kap. eapply Rle_trans; [|exact Hc]. apply Rmult_le_compat_l; [lra|]. lra. }
  exists e1, g1, e2, g2, v, plan, f. split; [exact HF|]. intros d Hd'. eapply emd_within_le; [|exact (HV d Hd')].
  unfold rounded_accuracy. cbv zeta. fold n1 n2 kap. rewrite NE.
  assert (X : 5 * (n1 + n2 + 2) * (D + kap) <= 5 * (n1 + n2 + 2) * (D + 1)) by (apply Rmult_le_compat_l; lra).
  assert (Y : (10 * wt + (3 * (n1 * n2) + 40) * u64) * (D + kap + 1) <= 1 / 100000000 * (D + kap + 1)) by (apply Rmult_le_compat_r; [lra|]; nra).
  lra.
Qed.

(** ** Crystals which differ little *)
(** Symmetry operations which form a group, and sites whose images coincide or are apart. *)
Definition lawful (dims : nat) (c : contents) : Prop := crystal dims (ct_tol c) (ct_cell c) (ct_asym c) (ct_ops c).

Lemma read_spread : forall dims c cs warn, (dims <= 4)%nat -> 0 <= ct_tol c < 1 -> lawful dims c -> half_dominant dims (ct_cell c) -> read_exactly c = Done (cs, warn) ->
  set_spread dims (cs_set cs) /\ ps_cell (cs_set cs) = ct_cell c.
Proof.
  intros dims c cs warn H4 Ht HC HD E. pose proof HC as [D1 D2 D3 D4 D5 D6 D7 D8]. unfold read_exactly in E.
  destruct (C46_expansion dims _ _ _ _ _ _ cs warn Ht (sg_some _ _ _ D7) (sg_ok _ _ _ D7) D5 D6 D2 E) as (frac & origin & which & starts & mult & CV).
  destruct (whole_facts dims _ _ _ _ _ _ cs frac origin which starts mult Ht HC CV) as (_ & W & I & EW & _ & _).
  assert (EC : ps_cell (cs_set cs) = ct_cell c) by (rewrite EW; reflexivity). split; [|exact EC].
  split; [exact W|]. split; [rewrite EC; apply in_cell_spread; auto|].
  pose proof (cv_asym _ _ _ _ _ _ _ _ _ _ _ _ _ CV) as EA. pose proof (cv_mult _ _ _ _ _ _ _ _ _ _ _ _ _ CV) as EM. unfold positions_of, counts_of. rewrite EA, EM, EC.
  exact (crystal_surroundings dims _ _ _ _ _ _ cs frac origin which starts mult Ht (sg_ok _ _ _ D7) D6 D2 CV D7 D8).
Qed.

Lemma tol_range : forall ar s w D b dims k collapse tol c cs, binary64 u64 ar -> 0 <= s -> w <= 1000 -> (1 <= dims <= 4)%nat -> legible64 ar s w D b dims k collapse tol c cs -> 0 <= ct_tol c < 1.
Proof. intros ar s w D b dims k collapse tol c cs BI Hs Hw Hd LG. apply legible64_legible in LG; auto. eapply rd_tol0. eapply lg_readable. exact LG. Qed.

(** Crystals in one cell whose points differ by at most [eps], up to the order of the points and
    lattice translations, and whose symmetry may be described differently: read and compared in
    binary64, their distance is at most 2 eps, what merging rows adds and the errors of rounding. *)
Theorem C86_displaced : forall ar cast s w D b dims k l1 l2 c1 c2 tol1 tol2 a1 a2 cs1 cs2 eps,
  binary64 u64 ar -> representable_dots ar -> truncates cast -> 0 <= s -> w <= 1000 -> (1 <= dims <= 4)%nat -> D + b <= 100000000000 ->
  legible64 ar s w D b dims k c1 tol1 a1 cs1 -> legible64 ar s w D b dims k c2 tol2 a2 cs2 -> lawful dims a1 -> lawful dims a2 ->
  ct_cell a2 = ct_cell a1 -> displaced dims (ct_cell a1) eps (ps_motif (cs_set cs1)) (ps_motif (cs_set cs2)) -> 0 <= tol1 -> 0 <= tol2 ->
  let m := INR (length (ps_motif (cs_set cs1))) in m <= 5000 -> m * m * (D + 1) <= 10000000000 ->
  exists v plan fuel0, (forall fuel, (fuel0 <= fuel)%nat -> compare_contents ar cast fuel a1 a2 k l1 l2 c1 c2 tol1 tol2 = Done (v, plan)) /\
    v <= 2 * eps + slack c1 tol1 + slack c2 tol2 + 5 * (2 * m + 3) * (D + 1) / 100000000 + 4 * (D + b) / 1000000000000.
Proof.
  intros ar cast s w D b dims k l1 l2 c1 c2 tol1 tol2 a1 a2 cs1 cs2 eps BI HR HT Hs Hw Hd Hb LG1 LG2 W1 W2 EC DS T1 T2 m M1 Mc.
  destruct (read_spread dims a1 cs1 (match read_exactly a1 with Done (_, x) => x | _ => [] end)) as [S1 EC1]; [lia|exact (tol_range _ _ _ _ _ _ _ _ _ _ _ BI Hs Hw Hd LG1)|exact W1|exact (l64_dominant _ _ _ _ _ _ _ _ _ _ _ LG1)|destruct (l64_crystal _ _ _ _ _ _ _ _ _ _ _ LG1) as (x & ->); reflexivity|].
  destruct (read_spread dims a2 cs2 (match read_exactly a2 with Done (_, x) => x | _ => [] end)) as [S2 EC2]; [lia|exact (tol_range _ _ _ _ _ _ _ _ _ _ _ BI Hs Hw Hd LG2)|exact W2|exact (l64_dominant _ _ _ _ _ _ _ _ _ _ _ LG2)|destruct (l64_crystal _ _ _ _ _ _ _ _ _ _ _ LG2) as (x & ->); reflexivity|].
  assert (L : length (ps_motif (cs_set cs2)) = length (ps_motif (cs_set cs1))).
  { destruct DS as (sg & sh & DP & _). apply Permutation_length in DP. rewrite map_length, !seq_length in DP. symmetry. exact DP. }
  destruct (C86_crystals_binary64 ar cast s w D b dims k l1 l2 l1 l2 c1 c2 tol1 tol2 a1 a2 cs1 cs2 BI HR HT Hs Hw Hd Hb LG1 LG2 M1) as (e1 & g1 & e2 & g2 & v & plan & f & HF & HV); [rewrite L; exact M1|rewrite L; exact Mc|].
  exists v, plan, f. split; [intros fuel Hf; apply (HF fuel Hf)|].
  destruct (HF f (le_n _)) as (E1 & E2 & _).
  assert (HM : forall p : pset R, INR (length (ps_motif p)) <= 5000 -> (Z.of_nat (length (ps_motif p)) <= 100000000)%Z).
  { intros p Hp. rewrite INR_IZR_INZ in Hp. apply le_IZR in Hp. lia. }
  pose proof (C32_pdd_weights _ _ _ _ _ _ _ _ _ (proj1 S1) (HM _ M1) E1) as P1.
  pose proof (C32_pdd_weights _ _ _ _ _ _ _ _ _ (proj1 S2) ltac:(apply HM; now rewrite L) E2) as P2.
  pose proof (dm_dist k _ _ P1 P2) as DD.
  destruct (C79_pdd_continuous dims (cs_set cs1) (cs_set cs2) eps k f f l1 l2 c1 c2 tol1 tol2 e1 e2 g1 g2 (mx (dm (pdd_array e1) (pdd_array e2)))) as (Y & (Q1 & Q2 & Q3) & HY);
    [lia|congruence|exact S1|exact S2|rewrite EC1; exact DS|exact T1|exact T2|exact E1|exact E2|exact DD|].
  destruct (HV _ DD) as [V _]. specialize (V Y). rewrite L in V. fold m in V.
  eapply Rle_trans; [apply V|].
  - split; [auto|]. split.
    + intros i Hi. rewrite Q2 by auto. unfold mx. rewrite pdd_array_nth by auto. auto.
    + intros i Hi. rewrite Q3 by auto. unfold mx. rewrite pdd_array_nth by auto. auto.
  - replace (m + m + 3) with (2 * m + 3) by ring. lra.
Qed.

Lemma map_nodup : forall A B (f : A -> B) l, (forall x y, In x l -> In y l -> f x = f y -> x = y) -> NoDup l -> NoDup (map f l).
Proof.
  intros A B f l H N. induction N as [|a l Ha N IH]; cbn; constructor; [|apply IH; intros x y Hx Hy; apply H; right; auto].
  intros C. apply in_map_iff in C as (y & E & Hy). apply Ha. rewrite (H a y); auto; [left|right]; auto.
Qed.

(** Two descriptions of one crystal in one cell give the same points. *)
Lemma described_displaced : forall dims a1 a2 cs1 cs2 w1 w2, (1 <= dims <= 4)%nat -> 0 <= ct_tol a1 < 1 -> half_dominant dims (ct_cell a1) -> lawful dims a1 -> lawful dims a2 ->
  ct_cell a2 = ct_cell a1 -> ct_tol a2 = ct_tol a1 ->
  covered (ct_asym a1) (ct_ops a1) (ct_asym a2) (ct_ops a2) -> covered (ct_asym a2) (ct_ops a2) (ct_asym a1) (ct_ops a1) ->
  (ct_uniquify a1 = true \/ disjoint_orbits (ct_tol a1) (ct_asym a1) (ct_ops a1)) -> (ct_uniquify a2 = true \/ disjoint_orbits (ct_tol a2) (ct_asym a2) (ct_ops a2)) ->
  read_exactly a1 = Done (cs1, w1) -> read_exactly a2 = Done (cs2, w2) ->
  displaced dims (ct_cell a1) 0 (ps_motif (cs_set cs1)) (ps_motif (cs_set cs2)).
Proof.
  intros dims a1 a2 cs1 cs2 w1 w2 Hd TR HD W1 W2 EC ET V1 V2 U1 U2 X1 X2. unfold read_exactly in X1, X2. unfold lawful in W2. rewrite EC, ET in X2, W2. rewrite ET in U2.
  destruct (C67_description dims (ct_tol a1) _ _ (ct_cell a1) _ _ _ _ _ _ cs1 cs2 w1 w2 ltac:(lia) TR HD W1 W2 V1 V2 U1 U2 X1 X2) as (PM & _).
  destruct (perm_index _ _ PM) as (Lp & g & Hg & Hi & Hn).
  destruct (bij_inverse _ g Hg Hi) as (h & Hh & Hhi & E1 & E2).
  assert (ML : Forall (fun p => length p = dims) (ps_motif (cs_set cs1))).
  { destruct (read_spread dims a1 cs1 w1 ltac:(lia) TR W1 HD X1) as [(Wf & _) _]. apply (ok_motif_len _ _ _ (wf_ok _ _ Wf)). }
  exists h, (fun _ => repeat 0%Z dims). split.
  - rewrite Lp. apply NoDup_Permutation_bis; [|rewrite map_length; lia|].
    + apply map_nodup; [|apply seq_NoDup]. intros x y Hx Hy. apply in_seq in Hx, Hy. apply Hhi; lia.
    + intros x Hx. apply in_map_iff in Hx as (y & <- & Hy). apply in_seq in Hy. apply in_seq. specialize (Hh y). lia.
  - intros i Hi'. split; [apply repeat_length|].
    destruct (read_spread dims a2 cs2 w2 ltac:(lia)) as [(Wf & _) ECs]; [rewrite ET; exact TR|unfold lawful; rewrite EC, ET; exact W2|rewrite EC; exact HD|unfold read_exactly; rewrite EC, ET; exact X2|].
    pose proof (wf_ok _ _ Wf) as OK. rewrite ECs, EC in OK. specialize (Hh i Hi'). rewrite ppoint_origin by (auto; rewrite Lp; auto). rewrite (Hn (h i) Hh), (E2 i Hi'). rewrite edist_self. lra.
Qed.

(** One crystal described by two files, with other sites and symmetry operations. *)
Theorem C86_same_crystal : forall ar cast s w D b dims k l1 l2 c1 c2 tol1 tol2 a1 a2 cs1 cs2,
  binary64 u64 ar -> representable_dots ar -> truncates cast -> 0 <= s -> w <= 1000 -> (1 <= dims <= 4)%nat -> D + b <= 100000000000 ->
  legible64 ar s w D b dims k c1 tol1 a1 cs1 -> legible64 ar s w D b dims k c2 tol2 a2 cs2 -> lawful dims a1 -> lawful dims a2 ->
  ct_cell a2 = ct_cell a1 -> ct_tol a2 = ct_tol a1 ->
  covered (ct_asym a1) (ct_ops a1) (ct_asym a2) (ct_ops a2) -> covered (ct_asym a2) (ct_ops a2) (ct_asym a1) (ct_ops a1) ->
  (ct_uniquify a1 = true \/ disjoint_orbits (ct_tol a1) (ct_asym a1) (ct_ops a1)) -> (ct_uniquify a2 = true \/ disjoint_orbits (ct_tol a2) (ct_asym a2) (ct_ops a2)) ->
  0 <= tol1 -> 0 <= tol2 ->
  let m := INR (length (ps_motif (cs_set cs1))) in m <= 5000 -> m * m * (D + 1) <= 10000000000 ->
  exists v plan fuel0, (forall fuel, (fuel0 <= fuel)%nat -> compare_contents ar cast fuel a1 a2 k l1 l2 c1 c2 tol1 tol2 = Done (v, plan)) /\
    v <= slack c1 tol1 + slack c2 tol2 + 5 * (2 * m + 3) * (D + 1) / 100000000 + 4 * (D + b) / 1000000000000.
Proof.
  intros ar cast s w D b dims k l1 l2 c1 c2 tol1 tol2 a1 a2 cs1 cs2 BI HR HT Hs Hw Hd Hb LG1 LG2 W1 W2 EC ET V1 V2 U1 U2 T1 T2 m M1 Mc.
  assert (DS : displaced dims (ct_cell a1) 0 (ps_motif (cs_set cs1)) (ps_motif (cs_set cs2))).
  { destruct (l64_crystal _ _ _ _ _ _ _ _ _ _ _ LG1) as (w1 & X1). destruct (l64_crystal _ _ _ _ _ _ _ _ _ _ _ LG2) as (w2 & X2).
    exact (described_displaced dims a1 a2 cs1 cs2 w1 w2 Hd (tol_range _ _ _ _ _ _ _ _ _ _ _ BI Hs Hw Hd LG1) (l64_dominant _ _ _ _ _ _ _ _ _ _ _ LG1) W1 W2 EC ET V1 V2 U1 U2 X1 X2). }
  destruct (C86_displaced ar cast s w D b dims k l1 l2 c1 c2 tol1 tol2 a1 a2 cs1 cs2 0 BI HR HT Hs Hw Hd Hb LG1 LG2 W1 W2 EC DS T1 T2 M1 Mc) as (v & plan & f & HF & HV).
  exists v, plan, f. split; [exact HF|]. fold m in HV. lra.
Qed.

(** ** Examples *)
Lemma sheared_distances : forall motif, Forall (fun p => length p = 2%nat) motif -> distances_within 2 motif sheared motif 3 5.
Proof.
  intros motif HL p ds Hp N. apply (In_nth _ _ []) in Hp as (i & Hi & Ei). rewrite Forall_forall in HL. pose proof (HL p ltac:(rewrite <- Ei; apply nth_In; auto)) as Lp.
  apply (nearest_upto 2 motif sheared p 4 ds 5 [([0; 0]%Z, i); ([1; 0]%Z, i); ([-1; 0]%Z, i); ([0; 1]%Z, i)] N); [reflexivity| |].
  - repeat (apply NoDup_cons; [cbn; intuition discriminate|]). apply NoDup_nil.
  - apply Forall_forall. intros a Ia. split; [destruct Ia as [<-|[<-|[<-|[<-|[]]]]]; split; cbn; auto|].
    rewrite <- (sqrt_square 5) by lra. unfold edist. apply sqrt_le_1_alt. destruct p as [|x [|y [|z p]]]; try discriminate.
    destruct Ia as [<-|[<-|[<-|[<-|[]]]]]; unfold ppoint; cbn [fst snd]; rewrite Ei; cbn; unfold lattice_coord, comb_coord, rsum; cbn; ring_simplify; lra.
Qed.

Definition one_op : list operation := [([[1; 0]; [0; 1]], [0; 0])].
Definition with_ops (ops : list operation) : contents :=
  {| ct_cell := sheared; ct_asym := one_site; ct_types := [6%nat]; ct_ops := ops; ct_tol := 1 / 1000; ct_uniquify := true |}.

Definition two_sites : list (list R) := [[1 / 8; 1 / 3]; [7 / 8; 2 / 3]].
Definition without_symmetry : contents :=
  {| ct_cell := sheared; ct_asym := two_sites; ct_types := [6%nat; 6%nat]; ct_ops := one_op; ct_tol := 1 / 1000; ct_uniquify := true |}.

Lemma ops_facts : forall ops, ops = two_ops \/ ops = one_op -> ops <> [] /\ Forall (operation_ok 2) ops /\ incl ops two_ops.
Proof.
  intros ops [-> | ->]; (split; [discriminate|split; [repeat (constructor; [split; [reflexivity|split; [repeat constructor|reflexivity]]|]); constructor|]]); [apply incl_refl|intros x [<-|[]]; left; auto].
Qed.
Lemma sheared_legible : forall asym types ops collapse c cs, ops = two_ops \/ ops = one_op -> asym <> [] -> Forall (fun p => length p = 2%nat) asym -> length types = length asym ->
  c = {| ct_cell := sheared; ct_asym := asym; ct_types := types; ct_ops := ops; ct_tol := 1 / 1000; ct_uniquify := true |} ->
  images_within 1 asym ops -> decided_sites (1 / 1000) (22 * u64 * (1 + 1)) asym ops ->
  read_exactly c = Done (cs, []) -> (collapse = true -> length (points_of (cs_set cs)) = 1%nat) -> legible64 b64 1 1 5 120000 2 3 collapse (1 / 10000) c cs.
Proof.
  intros asym types ops collapse c cs HO NA LA LT -> IW DS E LP. pose proof sheared_size as SZ. assert (U : 0 < u64 <= 1 / 9007199254740992) by (split; [apply u64_pos|unfold u64; simpl; lra]).
  destruct (ops_facts ops HO) as (O1 & O2 & _).
  destruct (C67_wf 2 (1 / 1000) true sheared asym types ops cs []) as (Wf & _ & EC & _); auto; try lia; try lra; [repeat constructor|].
  constructor; cbn [ct_tol ct_cell ct_ops ct_asym ct_types]; auto; try lra; try (repeat constructor; fail).
  - exact sheared_inverse.
  - destruct shear_wf as (_ & D & _). exact D.
  - split; [|lra]. apply Rle_trans with (powerRZ 2 0); [apply two_le; lia|simpl; lra].
  - unfold read_bound. set (L := cell_size sheared) in *. assert (24 * (1 + 13 * L * 1) * (5 + (1 + 3) * L) <= 24 * (1 + 13 * 9) * (5 + 4 * 9)); [|lra]. apply Rmult_le_compat; lra.
  - eexists. exact E.
  - intros p ds Hp N. pose proof (wf_ok _ _ Wf) as OKs. apply (sheared_distances (ps_motif (cs_set cs)) (ok_motif_len _ _ _ OKs) p ds); auto. apply (points_incl _ _ Wf). exact Hp.
  - intros C. specialize (LP C). split; [lra|]. intros i j ds es Hij. unfold vec in *. lia.
Qed.
Lemma with_ops_legible : forall ops collapse cs, ops = two_ops \/ ops = one_op -> read_exactly (with_ops ops) = Done (cs, []) -> length (points_of (cs_set cs)) = 1%nat ->
  legible64 b64 1 1 5 120000 2 3 collapse (1 / 10000) (with_ops ops) cs.
Proof.
  intros ops collapse cs HO E LP. assert (U : 0 < u64 <= 1 / 9007199254740992) by (split; [apply u64_pos|unfold u64; simpl; lra]). destruct (ops_facts ops HO) as (_ & _ & O3).
  apply (sheared_legible one_site [6%nat] ops); auto; try discriminate; [repeat constructor| |].
  - intros p g j Hp Hg Hj. apply one_site_within; auto.
  - destruct (one_site_decided (22 * u64 * (1 + 1)) ltac:(lra)) as [Z1 Z2]. split; [exact Z1|]. intros p q g h Hp Hq Hg Hh. apply Z2; auto.
Qed.

Lemma one_op_motif : expand_asym_unit mod1 (1 / 1000) true one_site one_op = Done ([[1 / 8; 1 / 3]], [0%nat], []).
Proof.
  assert (E : expand_sites mod1 one_site one_op = [[[1 / 8; 1 / 3]]]) by (cbn; repeat f_equal; apply (mod1_value _ _ 0); cbn; lra).
  unfold expand_asym_unit. rewrite E. reflexivity.
Qed.

(** A crystal with two points per cell, given by one site and an inversion, and one with one point,
    read and compared in binary64: the distance is correct to 2 units of the 6th decimal. *)
Example C86_case : exists cs1 cs2 exact1 g1 exact2 g2 v plan fuel0,
  read_exactly (with_ops two_ops) = Done (cs1, []) /\ length (ps_motif (cs_set cs1)) = 2%nat /\ read_exactly (with_ops one_op) = Done (cs2, []) /\ length (ps_motif (cs_set cs2)) = 1%nat /\
  (forall fuel, (fuel0 <= fuel)%nat -> PDD fuel (cs_set cs1) 3 true true (1 / 10000) = Done (exact1, g1) /\ PDD fuel (cs_set cs2) 3 true false (1 / 10000) = Done (exact2, g2) /\
    compare_contents b64 Int_part fuel (with_ops two_ops) (with_ops one_op) 3 true true true false (1 / 10000) (1 / 10000) = Done (v, plan)) /\
  forall d, row_distance 3 (pdd_array exact1) (pdd_array exact2) d ->
    emd_within (length exact1) (length exact2) (fun i => mx (pdd_array exact1) i 0) (fun j => mx (pdd_array exact2) j 0) d (3 / 1000000) v.
Proof.
  assert (E1 : exists cs, read_exactly (with_ops two_ops) = Done (cs, []) /\ length (ps_motif (cs_set cs)) = 2%nat /\ length (points_of (cs_set cs)) = 1%nat).
  { unfold read_exactly, finish. cbn [with_ops ct_tol ct_cell ct_ops ct_asym ct_types ct_uniquify]. rewrite one_site_motif. cbn [obind]. eexists. split; [reflexivity|]. split; reflexivity. }
  assert (E2 : exists cs, read_exactly (with_ops one_op) = Done (cs, []) /\ length (ps_motif (cs_set cs)) = 1%nat /\ length (points_of (cs_set cs)) = 1%nat).
  { unfold read_exactly, finish. cbn [with_ops ct_tol ct_cell ct_ops ct_asym ct_types ct_uniquify]. rewrite one_op_motif. cbn [obind]. eexists. split; [reflexivity|]. split; reflexivity. }
  destruct E1 as (cs1 & E1 & L1 & P1). destruct E2 as (cs2 & E2 & L2 & P2).
  destruct (C86_crystals_binary64 b64 Int_part 1 1 5 120000 2 3 true true true true true false (1 / 10000) (1 / 10000) (with_ops two_ops) (with_ops one_op) cs1 cs2) as (e1 & g1 & e2 & g2 & v & plan & f & HF & HV);
    try lra; try lia; try exact b64_binary64; try exact b64_dots; try exact Int_part_truncates; try (apply with_ops_legible; auto; fail); try (unfold vec in *; rewrite ?L1, ?L2; simpl; lra).
  exists cs1, cs2, e1, g1, e2, g2, v, plan, f. do 5 (split; [assumption|]). intros d Hd. eapply emd_within_le; [|exact (HV d Hd)]. unfold vec in *. rewrite L1, L2. simpl. lra.
Qed.

(** The same crystal with its symmetry and without. *)
Lemma two_sites_within : images_within 1 two_sites one_op.
Proof.
  assert (A1 : Rabs 1 = 1) by (apply Rabs_right; lra). assert (A3 : Rabs (1 / 8) = 1 / 8) by (apply Rabs_right; lra). assert (A4 : Rabs (1 / 3) = 1 / 3) by (apply Rabs_right; lra).
  assert (A5 : Rabs (7 / 8) = 7 / 8) by (apply Rabs_right; lra). assert (A6 : Rabs (2 / 3) = 2 / 3) by (apply Rabs_right; lra).
  intros p g j Hp [<-|[]] Hj. destruct Hp as [<-|[<-|[]]]; destruct j as [|[|j]]; cbn in Hj; try lia; unfold rdot, rsum; cbn; rewrite ?A1, ?A3, ?A4, ?A5, ?A6, ?Rabs_R0; lra.
Qed.
Lemma two_sites_apart : forall n : Z, 1 / 4 <= Rabs (1 / 8 - 7 / 8 - IZR n) /\ 1 / 4 <= Rabs (7 / 8 - 1 / 8 - IZR n).
Proof.
  intros n. destruct (quarter_int (n + 1)) as [Q1 _]. destruct (quarter_int (n - 1)) as [_ Q2]. rewrite plus_IZR in Q1. rewrite minus_IZR in Q2.
  split; [replace (1 / 8 - 7 / 8 - IZR n) with (1 / 4 - (IZR n + 1)) by lra; exact Q1|replace (7 / 8 - 1 / 8 - IZR n) with (- (1 / 4) - (IZR n - 1)) by lra; exact Q2].
Qed.
Lemma two_sites_decided : forall m, m <= 1 / 1000 -> decided_sites (1 / 1000) m two_sites one_op.
Proof.
  intros m Hm. split; [lra|]. assert (D : forall x, x = 0 -> exists n, Rabs (x - IZR n) <= 1 / 1000 - m) by (intros x ->; exists 0%Z; rewrite Rminus_0_r, Rabs_R0; lra).
  intros p q g h Hp Hq [<-|[]] [<-|[]]. destruct Hp as [<-|[<-|[]]]; destruct Hq as [<-|[<-|[]]].
  - left. intros [|[|j]] Hj; cbn in Hj; try lia; apply D; unfold affine, rdot, rsum; cbn; lra.
  - right. exists 0%nat. split; [cbn; lia|]. intros n. destruct (two_sites_apart n) as [A _]. replace (nth 0 _ 0 - nth 0 _ 0) with (1 / 8 - 7 / 8) by (unfold affine, rdot, rsum; cbn; lra). lra.
  - right. exists 0%nat. split; [cbn; lia|]. intros n. destruct (two_sites_apart n) as [_ A]. replace (nth 0 _ 0 - nth 0 _ 0) with (7 / 8 - 1 / 8) by (unfold affine, rdot, rsum; cbn; lra). lra.
  - left. intros [|[|j]] Hj; cbn in Hj; try lia; apply D; unfold affine, rdot, rsum; cbn; lra.
Qed.
(** Sites which coincide or are apart by more than the tolerance. *)
Lemma decided_separated : forall asym ops, (forall p q g h, In p asym -> In q asym -> In g ops -> In h ops -> affine g p = affine h q \/ exists j, (j < length (affine g p))%nat /\ forall n, 1 / 4 <= Rabs (nth j (affine g p) 0 - nth j (affine h q) 0 - IZR n)) ->
  separated (1 / 1000) asym ops.
Proof.
  intros asym ops H p q g h Hp Hq Hg Hh C. destruct (H p q g h Hp Hq Hg Hh) as [-> |(j & Hj & A)]; [apply same_refl|]. destruct (C j Hj) as (n & Hn). specialize (A n). lra.
Qed.
Lemma sheared_group : forall ops, ops = two_ops \/ ops = one_op -> symmetry_group 2 sheared ops.
Proof.
  intros ops HO. destruct (ops_facts ops HO) as (O1 & O2 & O3). constructor; auto.
  - intros g i j Hg. destruct (O3 g Hg) as [<-|[<-|[]]]; destruct j as [|[|[|j]]]; destruct i as [|[|[|i]]]; cbn; try (exists 0%Z; reflexivity); try (exists 1%Z; reflexivity); exists (-1)%Z; reflexivity.
  - intros g h Hg Hh. assert (ID : In ([[1; 0]; [0; 1]], [0; 0]) ops) by (destruct HO as [-> | ->]; left; auto).
    destruct (O3 g Hg) as [<-|[<-|[]]]; destruct (O3 h Hh) as [<-|[<-|[]]]; eexists _, [0%Z; 0%Z]; [split; [exact ID|]|split; [exact Hh|]|split; [exact Hg|]|split; [exact ID|]]; (split; [reflexivity|]); intros [|x [|y [|z p]]] Hp; try discriminate;
      unfold affine, shifted, rdot, rsum; cbn; (f_equal; [ring|f_equal; ring]).
  - intros g Hg. exists g, [0%Z; 0%Z], [0%Z; 0%Z]. split; [exact Hg|]. split; [reflexivity|]. split; [reflexivity|]. intros [|x [|y [|z p]]] Hp; try discriminate.
    destruct (O3 g Hg) as [<-|[<-|[]]]; split; unfold affine, shifted, rdot, rsum; cbn; (f_equal; [ring|f_equal; ring]).
  - intros g p q Hg Hp Hq. destruct p as [|x [|y [|z p]]]; try discriminate. destruct q as [|x' [|y' [|z' q]]]; try discriminate.
    destruct (O3 g Hg) as [<-|[<-|[]]]; unfold edist; f_equal; unfold affine, cartesian, comb_coord, rdot, rsum; cbn; ring.
Qed.
Lemma lawful_both : lawful 2 (with_ops two_ops) /\ lawful 2 without_symmetry.
Proof.
  assert (NS : nonsingular 2 sheared) by (destruct sheared_inverse as (dual & DB & _); exists dual; auto).
  split; (constructor; cbn [with_ops without_symmetry ct_cell ct_asym ct_ops ct_tol]; auto; try discriminate; try (repeat constructor; fail); try (apply sheared_group; auto)); apply decided_separated.
  - intros p q g h [<-|[]] [<-|[]] Hg Hh. destruct Hg as [<-|[<-|[]]]; destruct Hh as [<-|[<-|[]]]; [left; reflexivity|right|right|left; reflexivity]; exists 0%nat; (split; [cbn; lia|]); intros n; destruct (quarter_int n) as [A B].
    + replace (nth 0 _ 0 - nth 0 _ 0) with (1 / 4) by (unfold affine, rdot, rsum; cbn; lra). exact A.
    + replace (nth 0 _ 0 - nth 0 _ 0) with (- (1 / 4)) by (unfold affine, rdot, rsum; cbn; lra). exact B.
  - intros p q g h Hp Hq [<-|[]] [<-|[]]. destruct Hp as [<-|[<-|[]]]; destruct Hq as [<-|[<-|[]]]; [left; reflexivity|right|right|left; reflexivity]; exists 0%nat; (split; [cbn; lia|]); intros n; destruct (two_sites_apart n) as [A B].
    + replace (nth 0 _ 0 - nth 0 _ 0) with (1 / 8 - 7 / 8) by (unfold affine, rdot, rsum; cbn; lra). exact A.
    + replace (nth 0 _ 0 - nth 0 _ 0) with (7 / 8 - 1 / 8) by (unfold affine, rdot, rsum; cbn; lra). exact B.
Qed.
Lemma same_points : covered one_site two_ops two_sites one_op /\ covered two_sites one_op one_site two_ops.
Proof.
  assert (SM : forall (p q : list R) (z : list Z), length p = 2%nat -> length q = 2%nat -> (forall j, (j < 2)%nat -> nth j p 0 - nth j q 0 = IZR (nth j z 0%Z)) -> same_mod1 p q).
  { intros p q z Lp Lq H. split; [congruence|]. intros j Hj. exists (nth j z 0%Z). apply H. lia. }
  split.
  - intros p g [<-|[]] Hg. destruct Hg as [<-|[<-|[]]]; [exists [1 / 8; 1 / 3]|exists [7 / 8; 2 / 3]]; exists ([[1; 0]; [0; 1]], [0; 0]); (split; [cbn; auto|]); (split; [left; auto|]).
    + apply same_refl.
    + apply (SM _ _ [-1; -1]%Z); [reflexivity|reflexivity|]. intros [|[|j]] Hj; try lia; unfold affine, rdot, rsum; cbn; lra.
  - intros p g Hp [<-|[]]. destruct Hp as [<-|[<-|[]]]; exists [1 / 8; 1 / 3]; [exists ([[1; 0]; [0; 1]], [0; 0])|exists ([[-1; 0]; [0; -1]], [0; 0])]; (split; [left; auto|]); (split; [cbn; auto|]).
    + apply same_refl.
    + apply (SM _ _ [1; 1]%Z); [reflexivity|reflexivity|]. intros [|[|j]] Hj; try lia; unfold affine, rdot, rsum; cbn; lra.
Qed.
Lemma two_sites_motif : expand_asym_unit mod1 (1 / 1000) true two_sites one_op = Done ([[1 / 8; 1 / 3]; [7 / 8; 2 / 3]], [0%nat; 1%nat], []).
Proof.
  assert (E : expand_sites mod1 two_sites one_op = [[[1 / 8; 1 / 3]]; [[7 / 8; 2 / 3]]]) by (cbn; repeat f_equal; apply (mod1_value _ _ 0); cbn; lra).
  assert (D : site_neq (1 / 1000) [1 / 8; 1 / 3] [7 / 8; 2 / 3] = true).
  { apply site_neq_true; [lra|repeat constructor; lra|repeat constructor; lra|reflexivity|]. intros C. destruct (C 0%nat ltac:(cbn; lia)) as (n & Hn). cbn in Hn. destruct (two_sites_apart n) as [A _]. lra. }
  unfold expand_asym_unit. rewrite E. unfold reduce_expanded_sites, unique_images, unique_sites. cbn - [site_neq]. rewrite !D. cbn - [site_neq]. rewrite ?D. cbn. reflexivity.
Qed.

(** Read and compared in binary64 the two descriptions are at most 3 units of the 6th decimal apart. *)
Example C86_same_case : exists v plan fuel0, (forall fuel, (fuel0 <= fuel)%nat ->
    compare_contents b64 Int_part fuel (with_ops two_ops) without_symmetry 3 true true false false 0 0 = Done (v, plan)) /\ v <= 3 / 1000000.
Proof.
  assert (U : 0 < u64 <= 1 / 9007199254740992) by (split; [apply u64_pos|unfold u64; simpl; lra]).
  assert (E1 : exists cs, read_exactly (with_ops two_ops) = Done (cs, []) /\ length (ps_motif (cs_set cs)) = 2%nat /\ length (points_of (cs_set cs)) = 1%nat).
  { unfold read_exactly, finish. cbn [with_ops ct_tol ct_cell ct_ops ct_asym ct_types ct_uniquify]. rewrite one_site_motif. cbn [obind]. eexists. split; [reflexivity|]. split; reflexivity. }
  assert (E2 : exists cs, read_exactly without_symmetry = Done (cs, [])).
  { unfold read_exactly, finish. cbn [without_symmetry ct_tol ct_cell ct_ops ct_asym ct_types ct_uniquify]. rewrite two_sites_motif. cbn [obind]. eexists. reflexivity. }
  destruct E1 as (cs1 & E1 & L1 & P1). destruct E2 as (cs2 & E2). destruct lawful_both as [W1 W2]. destruct same_points as [V1 V2].
  assert (LG1 : legible64 b64 1 1 5 120000 2 3 false 0 (with_ops two_ops) cs1).
  { destruct (with_ops_legible two_ops false cs1 (or_introl eq_refl) E1 P1). constructor; auto. discriminate. }
  assert (LG2 : legible64 b64 1 1 5 120000 2 3 false 0 without_symmetry cs2).
  { destruct (sheared_legible two_sites [6%nat; 6%nat] one_op false without_symmetry cs2); auto; try discriminate; try (repeat constructor; fail); [exact two_sites_within|apply two_sites_decided; lra|]. constructor; auto. discriminate. }
  destruct (C86_same_crystal b64 Int_part 1 1 5 120000 2 3 true true false false 0 0 (with_ops two_ops) without_symmetry cs1 cs2 b64_binary64 b64_dots Int_part_truncates ltac:(lra) ltac:(lra) ltac:(lia) ltac:(lra) LG1 LG2 W1 W2 eq_refl eq_refl V1 V2 (or_introl eq_refl) (or_introl eq_refl) ltac:(lra) ltac:(lra))
    as (v & plan & f & HF & HV); [unfold vec in *; rewrite L1; simpl; lra|unfold vec in *; rewrite L1; simpl; lra|].
  exists v, plan, f. split; [exact HF|]. unfold vec in *. rewrite L1 in HV. unfold slack in HV. simpl in HV. lra.
Qed.

Print Assumptions C86_pdd_rounded.
Print Assumptions C86_crystals_rounded.
Print Assumptions C86_crystals_binary64.
Print Assumptions C86_displaced.
Print Assumptions C86_same_crystal.
Print Assumptions C86_case.
Print Assumptions C86_same_case.
