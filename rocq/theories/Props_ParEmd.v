(** Property C87: the distance of two crystals given by lengths and angles of their cells, from
    these numbers on with rounded operations. *)
From Coq Require Import List ZArith Arith Bool Lia Reals Lra Psatz Permutation Sorted.
From Verif Require Import Num Base Spec Outcome CollapseModel NNModel VecR Sums SpecGeom SpecCalc SpecEmd SpecEmd64 SpecSites SpecCont SpecDeform SpecCell NNProofs NNSpecProofs NNComplete NNInvariance Props_NN CompareModel CalcModel CalcProofs CalcProofs2 Props_Calc
  EmdModel EmdReal EmdSym EmdTop Props_Emd Props_EmdPdd SitesModel SitesProofs SitesExpand Props_Sites SpecSymmetry SymmetryProofs Props_Symmetry Props_Geo Props_Finite Props_Asym
  RoundModel SpecRound RoundSum RoundProofs RoundGeom RoundTop RoundCalc RoundCollapse RoundBinary Props_Round RoundSitesModel SpecRoundSites RoundSites RoundSites2 RoundSites3
  RoundEmdModel RoundEmd RoundEmdTop RoundEmdArgs RoundEmdPdd Props_RoundEmd Props_RoundSites ContProofs Props_Cont DeformProofs Props_Deform SpecRoundCell UtilsModel Props_Utils DominantProofs RoundCellModel RoundCell RoundCell2 Props_RoundCell ReadRows Props_ReadEmd.
Import ListNotations.
Open Scope R_scope.
Notation length := List.length.

(** ** The rows of a crystal in a deformed cell *)
Lemma rows_strained : forall dims ps ps1 delta k rows rows1, pset_wf dims ps -> pset_wf dims ps1 -> 0 <= delta < 1 ->
  strained dims (ps_cell ps) (ps_cell ps1) delta -> carried dims (ps_cell ps) (ps_cell ps1) (ps_motif ps) (ps_motif ps1) ->
  positions_of ps1 = positions_of ps -> counts_of ps1 = counts_of ps ->
  Forall2 (fun p r => nearest_distances dims (ps_motif ps) (ps_cell ps) p (S k) r) (points_of ps) rows ->
  Forall2 (fun p r => nearest_distances dims (ps_motif ps1) (ps_cell ps1) p (S k) r) (points_of ps1) rows1 ->
  Forall2 (Forall2 (fun d d1 => 0 <= d /\ Rabs (d1 - d) <= delta * d)) rows rows1.
Proof.
  intros dims ps ps' delta k rows rows' Wf Wf' Hdel HS HC EP EC NR NR'.
  pose proof (wf_ok _ _ Wf) as Hok. pose proof (wf_ok _ _ Wf') as Hok'.
  assert (Lm : length (ps_motif ps') = length (ps_motif ps)) by apply HC.
  assert (MV : moved_by dims (ps_cell ps') 0 (ps_motif ps') (ps_motif ps') (fun i => i) (fun _ => repeat 0%Z dims)).
  { split; [rewrite map_id; reflexivity|]. intros i Hi. split; [apply repeat_length|]. right. rewrite ppoint_origin by (auto).
    assert (Z : forall l, sq_dist l l = 0) by (induction l as [|x l IH]; [reflexivity|]; cbn [sq_dist]; rewrite IH; ring). unfold edist. rewrite Z. apply sqrt_0. }
  pose proof (RoundCalc.F2_len _ _ _ _ _ NR) as LR. pose proof (RoundCalc.F2_len _ _ _ _ _ NR') as LR'. rewrite (points_length _ _ Wf) in LR. rewrite (points_length _ _ Wf'), EC in LR'.
  apply (F2_of_nth _ _ _ [] []); [lia|]. intros i Hi.
  pose proof (RoundCalc.F2_nth _ _ _ _ _ [] [] NR i) as N1. pose proof (RoundCalc.F2_nth _ _ _ _ _ [] [] NR' i) as N2. cbv beta in N1, N2. rewrite (points_length _ _ Wf) in N1. rewrite (points_length _ _ Wf'), EC in N2.
  specialize (N1 ltac:(lia)). specialize (N2 ltac:(lia)). unfold points_of in N1, N2. rewrite EP in N2. pose proof (wf_len _ _ Wf) as WL.
  rewrite (SitesExpand.nth_map' _ _ _ _ _ 0%nat) in N1 by lia. rewrite (SitesExpand.nth_map' _ _ _ _ _ 0%nat) in N2 by lia.
  assert (Hp : (nth i (positions_of ps) 0 < length (ps_motif ps))%nat) by (pose proof (wf_range _ _ Wf) as WR; rewrite Forall_forall in WR; apply WR, nth_In; lia).
  pose proof (perturbed_nearest dims _ _ _ (ps_motif ps') _ delta 0 (fun i => i) _ Hok Hok' HC HS Hdel MV (nth i (positions_of ps) 0%nat) (S k) _ _ Hp N1 N2) as D.
  assert (K1 : length (nth i rows []) = S k /\ Forall (fun d => 0 <= d) (nth i rows [])).
  { destruct N1 as (ids & (Ln & _ & _ & En & _) & _). rewrite En, map_length. split; auto. apply Forall_forall. intros d Hd'. apply in_map_iff in Hd' as (a & <- & _). apply sqrt_pos. }
  destruct K1 as [K1 P1]. assert (K2 : length (nth i rows' []) = S k) by (destruct N2 as (ids & (Ln & _ & _ & En & _) & _); rewrite En, map_length; auto).
  apply (F2_of_nth _ _ _ 0 0); [lia|]. intros j Hj. split; [rewrite Forall_forall in P1; apply P1, nth_In; lia|]. specialize (D j ltac:(lia)). lra.
Qed.

(** ** Contents of files with lengths and angles *)
Record entry := { en_a : R; en_b : R; en_c : R; en_alpha : R; en_beta : R; en_gamma : R;
  en_asym : list (list R); en_types : list nat; en_ops : list operation; en_tol : R; en_uniquify : bool }.
Definition with_cell (e : entry) (cell : list (list R)) : contents :=
  {| ct_cell := cell; ct_asym := en_asym e; ct_types := en_types e; ct_ops := en_ops e; ct_tol := en_tol e; ct_uniquify := en_uniquify e |}.

(** io.py lines 554 and 687-704 (and the same in the other converters): the cell is computed from
    its parameters, then the motif. *)
Definition read_entry (ar : arith) (rdeg rcos rsin : R -> R) (e : entry) : outcome (@crystal_set R * list warning) :=
  cell <- r_cellpar_to_cell ar rdeg rcos rsin [en_a e; en_b e; en_c e; en_alpha e; en_beta e; en_gamma e] ;;
  read_rounded ar (with_cell e cell).

Definition compare_entries (ar : arith) (rdeg rcos rsin : R -> R) (cast : R -> Z) (fuel : nat) (a b : entry) (k : nat)
  (lex1 lex2 c1 c2 : bool) (tol1 tol2 : R) : outcome (R * list (list R)) :=
  x <- read_entry ar rdeg rcos rsin a ;;
  y <- read_entry ar rdeg rcos rsin b ;;
  pipeline ar cast fuel (cs_set (fst x)) (cs_set (fst y)) k lex1 lex2 c1 c2 tol1 tol2.

(** What lengths between [l] and [L] in all add to the bound of the coordinates. *)
Definition entry_bound (s D L l : R) : R := 42 * (1 + 21 * (L / l)) * (D + (s + 3) * L).

(** [cell] is a cell with the parameters of the entry, in any orientation, and [cs] the crystal of
    the entry in this cell; rounding errors change no comparison of sites. *)
Record stated (ar : arith) (rdeg rcos rsin : R -> R) (s l D b : R) (k : nat) (collapse : bool) (tol : R) (e : entry) (cell : list (list R)) (cs : @crystal_set R) : Prop := {
  st_square : square_matrix 3 cell;
  st_parameters : has_parameters cell (en_a e) (en_b e) (en_c e) (en_alpha e) (en_beta e) (en_gamma e);
  st_dominant : half_dominant 3 cell;
  st_computed : forall cell', r_cellpar_to_cell ar rdeg rcos rsin [en_a e; en_b e; en_c e; en_alpha e; en_beta e; en_gamma e] = Done cell' -> half_dominant 3 cell';
  st_l : 1 / 500 <= l;
  st_lengths : l <= en_a e /\ l <= en_b e /\ l <= en_c e;
  st_sum : en_a e + en_b e + en_c e <= 900;
  st_tol : en_tol e < 1 / 3;
  st_ops : en_ops e <> [];
  st_ops_ok : Forall (operation_ok 3) (en_ops e);
  st_asym : en_asym e <> [];
  st_asym_len : Forall (fun p => length p = 3%nat) (en_asym e);
  st_types : length (en_types e) = length (en_asym e);
  st_size : images_within s (en_asym e) (en_ops e);
  st_sites : decided_sites (en_tol e) (22 * u64 * (s + 1)) (en_asym e) (en_ops e);
  st_bound : entry_bound s D (en_a e + en_b e + en_c e) l <= b;
  st_crystal : exists warn, read_exactly (with_cell e cell) = Done (cs, warn);
  st_distances : distances_within 3 (ps_motif (cs_set cs)) cell (points_of (cs_set cs)) k D;
  st_decided : collapse = true -> decided 3 (ps_motif (cs_set cs)) cell (points_of (cs_set cs)) k tol (203 * u64 * (D + b))
}.

Lemma entry_pdd : forall ar rdeg rcos rsin s l D b k lex lex' collapse tol e cell cs M, binary64 u64 ar -> representable_dots ar -> trig_like u64 rdeg rcos rsin -> 0 <= s ->
  stated ar rdeg rcos rsin s l D b k collapse tol e cell cs -> INR (length (ps_motif (cs_set cs))) <= M -> M <= 10000000 -> M * u64 <= 1 / 100 -> M * eta64 <= u64 ->
  exists cs' warn, read_exactly (with_cell e cell) = Done (cs, warn) /\ read_entry ar rdeg rcos rsin e = Done (cs', warn) /\ length (ps_motif (cs_set cs')) = length (ps_motif (cs_set cs)) /\ 0 <= b /\
    close_pdds ar (cs_set cs) (cs_set cs') k D lex lex' collapse tol ((5 + 2 * M) * u64) ((110 + 3 * M) * u64 * (D + b)).
Proof.
  intros ar rdeg rcos rsin s l D bb k lex lex' collapse ctol e cell cs M BI HR TG Hs [HS HP HD HD'0 Hl (Ha & Hb & Hc) HL Ht Ho Hops Hne Hasym Hty HI HDS HB (warn & F) DW DC] M1 M2 M3 M4.
  set (a := en_a e) in *. set (b := en_b e) in *. set (c := en_c e) in *. set (L := a + b + c) in *. set (tol := en_tol e) in *. set (u := u64) in *.
  pose proof (binary64_u u ar BI) as BU. pose proof u64_pos as U0. fold u in U0. assert (US : u <= 1 / 9007199254740992) by (unfold u, u64; simpl; lra).
  assert (B0 : powerRZ 2 (-400) <= 1 / 1000). { apply Rle_trans with (powerRZ 2 (-10)); [apply two_le; lia|simpl; lra]. }
  pose proof (b64_for u ar l BI ltac:(lra)) as (FL & Hu & _ & HeL & _).
  assert (El : eta64 <= u * l). { apply Rle_trans with (u64 * powerRZ 2 (-400)); [unfold u64, eta64; rewrite <- two_add; apply two_le; lia|]. pose proof (two_pos (-400)). apply Rmult_le_compat; fold u; lra. }
  assert (Mu : forall t, l <= t -> eta64 <= u * t) by (intros t T; eapply Rle_trans; [exact El|apply Rmult_le_compat_l; lra]).
  assert (E1 : eta64 <= u). { apply Rle_trans with u64; [unfold u64, eta64; apply two_le; lia|fold u; lra]. }
  destruct (C83_cell ar u eta64 rdeg rcos rsin cell a b c _ _ _ FL TG ltac:(fold u; lra) E1 (Mu b Hb) (Mu c Hc) HS HP HD ltac:(lra) ltac:(lra) ltac:(lra)) as (cell' & Q & HS' & _ & _ & ST).
  pose proof (HD'0 _ Q) as HD'.
  assert (Hdel : 0 <= 1600 * u <= 1 / 1000000) by lra.
  pose proof (fun i => strained_rows cell cell' (1600 * u) i HS HS' ltac:(lra) ST) as RW.
  destruct HP as [P1 P2 P3 _ _ _].
  assert (VL : forall i, (i < 3)%nat -> l <= vlen (nth i cell [])) by (intros [|[|[|i]]] Hi; try lia; rewrite ?P1, ?P2, ?P3; auto).
  set (l' := (1 - 2 * (1600 * u)) * l). assert (Hl' : 999 / 1000 * l <= l') by (unfold l'; nra).
  assert (VL' : forall i, (i < 3)%nat -> l' <= vlength (nth i cell' [])). { intros i Hi. eapply Rle_trans; [|apply (RW i Hi)]. unfold l'. apply Rmult_le_compat_l; [lra|auto]. }
  pose proof HS as [LS VS]. pose proof HS' as [LS' VS'].
  pose proof (dominant_inverse 3 cell' LS' VS' HD' l' ltac:(lra) VL') as IW.
  pose proof (dominant_inverse 3 cell LS VS HD l ltac:(lra) VL) as (dual & DB & _).
  set (w := 3 / (2 * l')) in *. assert (W : 0 <= w <= 16 / 10 / l).
  { unfold w. split; [apply Rmult_le_pos; [lra|left; apply Rinv_0_lt_compat; lra]|]. apply Rmult_le_reg_r with (2 * l'); [lra|]. unfold Rdiv at 1. rewrite Rmult_assoc, Rinv_l by lra. apply Rmult_le_reg_r with l; [lra|]. replace (16 / 10 / l * (2 * l') * l) with (32 / 10 * l') by (field; lra). lra. }
  assert (CS' : l' <= cell_size cell' <= (1 + 3 * (1600 * u)) * L).
  { pose proof (RW 0%nat ltac:(lia)) as R0. pose proof (RW 1%nat ltac:(lia)) as R1. pose proof (RW 2%nat ltac:(lia)) as R2. rewrite P1 in R0. rewrite P2 in R1. rewrite P3 in R2. pose proof (VL' 0%nat ltac:(lia)) as V0.
    assert (E : cell_size cell' = vlen (nth 0 cell' []) + vlen (nth 1 cell' []) + vlen (nth 2 cell' [])).
    { destruct cell' as [|r0 [|r1 [|r2 [|]]]]; try discriminate. unfold cell_size, rsum, vlen. cbn [map fold_right nth]. ring. }
    rewrite E. change (vlength (nth 0 cell' [])) with (vlen (nth 0 cell' [])) in V0. assert (0 <= (1 - 2 * (1600 * u)) * b) by (apply Rmult_le_pos; lra). assert (0 <= (1 - 2 * (1600 * u)) * c) by (apply Rmult_le_pos; lra). unfold L. lra. }
  assert (L0 : 0 < L) by (unfold L; lra).
  assert (CS2 : cell_size cell' <= 10001 / 10000 * L) by (eapply Rle_trans; [apply CS'|]; apply Rmult_le_compat_r; lra).
  assert (L9 : 16 / 10 / l <= 1000). { apply Rmult_le_reg_r with l; [lra|]. unfold Rdiv. rewrite Rmult_assoc, Rinv_l by lra. lra. }
  assert (T0 : 0 <= tol < 1).
  { split; [|lra]. destruct HDS as [D0 _]. assert (0 <= 22 * u * (s + 1)) by (repeat apply Rmult_le_pos; lra). fold tol u in D0. lra. }
  set (L' := cell_size cell') in *.
  assert (RG : powerRZ 2 (-400) <= L' <= 1000) by (clearbody L l'; split; lra). assert (W9 : w <= 1000) by (clearbody w; lra).
  assert (LW : L' * w <= 161 / 100 * (L / l)). { apply Rle_trans with ((10001 / 10000 * L) * (16 / 10 / l)); [apply Rmult_le_compat; lra|]. replace (10001 / 10000 * L * (16 / 10 / l)) with (160016 / 100000 * (L / l)) by (field; lra). apply Rmult_le_compat_r; [|lra]. apply Rmult_le_pos; [lra|left; apply Rinv_0_lt_compat; lra]. }
  assert (LW0 : 0 <= L' * w) by (apply Rmult_le_pos; lra).
  pose proof (b64_for u ar L' BI ltac:(lra)) as (_ & _ & L0' & HeL' & He2').
  assert (E10 : eta64 <= u / 10). { apply Rle_trans with (powerRZ 2 (-4) * u64); [unfold u64, eta64; rewrite <- two_add; apply two_le; lia|fold u; simpl; lra]. }
  assert (E20 : eta64 <= u * L' / 10).
  { apply Rle_trans with (powerRZ 2 (-4) * (u64 * powerRZ 2 (-400))); [unfold u64, eta64; rewrite <- !two_add; apply two_le; lia|].
    fold u. assert (u * powerRZ 2 (-400) <= u * L') by (pose proof (two_pos (-400)); apply Rmult_le_compat; lra). pose proof (two_pos (-400)). assert (0 <= u * powerRZ 2 (-400)) by (apply Rmult_le_pos; lra). simpl. simpl in *. lra. }
  assert (RD : readable ar u eta64 s tol 3 cell' (en_asym e) (en_types e) (en_ops e)) by (constructor; auto; try lia; lra).
  assert (L6 : L' * w <= 1000 * 1000) by (apply Rmult_le_compat; lra).
  assert (HV : 24 * u * (1 + 13 * L' * w) <= 1 / 10000). { apply Rle_trans with (24 * u * (1 + 13 * (1000 * 1000))); [|lra]. apply Rmult_le_compat; lra. }
  destruct (read_rows ar u eta64 s tol w 3 cell' (en_asym e) (en_types e) (en_ops e) (en_uniquify e) RD IW HD' HR k HV He2') as (cs1 & cs' & warn0 & rows1 & rows' & f1 & F1 & F' & LM & Wf1 & Wf' & _ & SP1 & EC' & HR1 & NR1 & RN).
  destruct (finish_cells tol (en_uniquify e) cell cell' (en_asym e) (en_types e) (en_ops e) cs1 warn0 3 LS LS' Hasym T0 Ho Hops Hne F1) as (cs0 & F0 & CA & EP & ECt).
  unfold read_exactly in F. cbn [with_cell ct_cell ct_asym ct_types ct_ops ct_tol ct_uniquify] in F. fold tol in F. rewrite F0 in F. injection F as -> ->.
  destruct (C67_wf 3 tol (en_uniquify e) cell (en_asym e) (en_types e) (en_ops e) cs warn ltac:(lia) T0 Ho Hops Hne Hasym LS VS F0) as (Wf & IC & Ec & _).
  destruct (C67_wf 3 tol (en_uniquify e) cell' (en_asym e) (en_types e) (en_ops e) cs1 warn ltac:(lia) T0 Ho Hops Hne Hasym LS' VS' F1) as (_ & _ & Ec1 & _).
  assert (SP : spread 3 (ps_cell (cs_set cs)) (ps_motif (cs_set cs))) by (rewrite Ec; apply in_cell_spread; auto).
  assert (NS : nonsingular 3 (ps_cell (cs_set cs))) by (rewrite Ec; exists dual; exact DB).
  destruct (C09_terminates 3 _ _ (points_of (cs_set cs)) k (wf_ok _ _ Wf) NS (points_incl _ _ Wf) (points_nonempty _ _ Wf)) as (rows & f0 & H0).
  assert (NR : Forall2 (fun p r => nearest_distances 3 (ps_motif (cs_set cs)) (ps_cell (cs_set cs)) p (S k) r) (points_of (cs_set cs)) rows).
  { destruct (H0 f0) as [X _]. eapply (C05_rows_are_nearest 3); [exact (wf_ok _ _ Wf)|lia|exact SP|exact (points_incl _ _ Wf)|exact (points_nonempty _ _ Wf)|apply X; lia]. }
  pose proof (rows_strained 3 (cs_set cs) (cs_set cs1) (1600 * u) k rows rows1 Wf Wf1 ltac:(lra) ltac:(rewrite Ec, Ec1; exact ST) ltac:(rewrite Ec, Ec1; exact CA) EP ECt NR NR1) as RS.
  assert (LM1 : length (ps_motif (cs_set cs1)) = length (ps_motif (cs_set cs))) by apply CA.
  assert (DW' : distances_within 3 (ps_motif (cs_set cs)) (ps_cell (cs_set cs)) (points_of (cs_set cs)) k D) by (rewrite Ec; exact DW).
  assert (DR : Forall (Forall (fun d => d <= D)) rows).
  { apply Forall_forall. intros r Hr. apply (In_nth _ _ []) in Hr as (i & Hi & <-). pose proof (RoundCalc.F2_len _ _ _ _ _ NR) as LNR.
    apply (DW' (nth i (points_of (cs_set cs)) [])); [apply nth_In; lia|]. apply (RoundCalc.F2_nth _ _ _ _ _ [] [] NR i). lia. }
  assert (D0 : 0 <= D).
  { pose proof (points_nonempty _ _ Wf) as NE. destruct NR as [|p r ps rs N1 NR]; [congruence|]. inversion RS as [|? r1 ? ? R1 _]; subst. inversion DR as [|? ? DR1 _]; subst.
    destruct N1 as (ids & (Ln & _ & _ & En & _) & _). destruct r as [|d r]; [rewrite En in *; destruct ids; discriminate|]. inversion DR1; subst. inversion R1; subst. lra. }
  set (K := L / l) in *. assert (K0 : 0 <= K) by (apply Rmult_le_pos; [lra|left; apply Rinv_0_lt_compat; lra]).
  assert (SL : 0 <= (s + 3) * L) by (apply Rmult_le_pos; lra).
  assert (SL' : (s + 3) * L' <= 10001 / 10000 * ((s + 3) * L)) by (replace (10001 / 10000 * ((s + 3) * L)) with ((s + 3) * (10001 / 10000 * L)) by ring; apply Rmult_le_compat_l; lra).
  assert (SL0' : 0 <= (s + 3) * L') by (apply Rmult_le_pos; lra).
  set (DS := D + (s + 3) * L) in *. assert (DSb : 42 * DS <= bb). { eapply Rle_trans; [|exact HB]. unfold entry_bound. fold K DS. assert (0 <= K * DS) by (apply Rmult_le_pos; unfold DS; lra). lra. }
  assert (bp : 0 <= bb) by (unfold DS in *; lra).
  assert (Lb : l <= bb). { assert (3 * L <= (s + 3) * L) by (apply Rmult_le_compat_r; lra). unfold DS, L in *. lra. }
  exists cs', warn. split; [exact F0|]. split; [unfold read_entry; fold a b c; rewrite Q; cbn [obind]; exact F'|]. split; [congruence|]. split; [exact bp|].
  apply (pdd_of_rows ar u eta64 D M bb 3 (cs_set cs) (cs_set cs') k rows rows' (Nat.max f0 f1)); auto; try congruence; try lra.
  - intros fuel Hf. split; [apply (H0 fuel); lia|apply (HR1 fuel); lia].
  - assert (NEAR : forall d d1 e0, 0 <= d -> d <= D -> Rabs (d1 - d) <= 1600 * u * d -> near_read u s w cell' d1 e0 -> Rabs (e0 - d) <= 100 * u * (d + bb)).
    { intros d d1 e0 G0 GD G1 G2. unfold near_read in G2. fold L' in G2. replace (e0 - d) with ((e0 - d1) + (d1 - d)) by ring. eapply Rle_trans; [apply Rabs_triang|].
      assert (UD : 1600 * u * d <= 1 / 1000000 * d) by (apply Rmult_le_compat_r; lra). apply Rabs_le_both in G1 as G1'.
      assert (X : 100 * (24 * u * (1 + 13 * L' * w)) * (d1 + (s + 3) * L') <= 100 * u * (24 * (1 + 21 * K) * (10001 / 10000 * DS))).
      { replace (100 * (24 * u * (1 + 13 * L' * w)) * (d1 + (s + 3) * L')) with (100 * u * (24 * (1 + 13 * L' * w) * (d1 + (s + 3) * L'))) by ring. apply Rmult_le_compat_l; [lra|].
        apply Rmult_le_compat; try lra. unfold DS. lra. }
      assert (Y : 42 * (1 + 21 * K) * DS <= bb) by exact HB. assert (KD : 0 <= K * DS) by (apply Rmult_le_pos; unfold DS; lra).
      assert (Z : 24 * (1 + 21 * K) * (10001 / 10000 * DS) + 16 * D <= bb) by (unfold DS in *; lra).
      assert (100 * u * (24 * (1 + 21 * K) * (10001 / 10000 * DS) + 16 * D) <= 100 * u * bb) by (apply Rmult_le_compat_l; lra).
      assert (1600 * u * d <= 1600 * u * D) by (apply Rmult_le_compat_l; lra). assert (0 <= 100 * u * d) by (apply Rmult_le_pos; lra). lra. }
    clear - RS RN DR NEAR. revert rows' RN. induction RS as [|r r1 rows rows1 R1 RS IH]; intros rows' RN; inversion RN as [|? r' ? ? R2 RN']; subst; constructor; inversion DR as [|? ? X1 X2]; subst; auto.
    clear - R1 R2 X1 NEAR. revert r' R2. induction R1 as [|d d1 r r1 [G0 G1] R1 IH]; intros r' R2; inversion R2 as [|? e0 ? ? G2 R2']; subst; constructor; inversion X1; subst; auto. eapply NEAR; eauto.
  - rewrite Ec. exact DC.
Qed.

(** The PDD of a crystal given by the parameters of its cell: the same groups of points, weights
    and distances close to the exact ones. *)
Theorem C87_pdd_binary64 : forall ar rdeg rcos rsin s l D b k lex lex' collapse tol e cell cs, binary64 u64 ar -> representable_dots ar -> trig_like u64 rdeg rcos rsin -> 0 <= s ->
  stated ar rdeg rcos rsin s l D b k collapse tol e cell cs -> let m := INR (length (ps_motif (cs_set cs))) in m <= 50000 ->
  exists cs' warn exact g rounded g' fuel0 p0, read_exactly (with_cell e cell) = Done (cs, warn) /\ read_entry ar rdeg rcos rsin e = Done (cs', warn) /\
    (forall fuel, (fuel0 <= fuel)%nat -> PDD fuel (cs_set cs) k lex collapse tol = Done (exact, g) /\ @PDD R (num_of ar) fuel (cs_set cs') k lex' collapse tol = Done (rounded, g')) /\
    Permutation g g' /\ Permutation (pdd_array exact) p0 /\ close_matrices ((5 + 2 * m) * u64) ((110 + 3 * m) * u64 * (D + b)) p0 (pdd_array rounded).
Proof.
  intros ar rdeg rcos rsin s l D b k lex lex' collapse tol e cell cs BI HR TG Hs ST m Hm. destruct u64_small as [U E]. assert (M0 : 0 <= m) by apply pos_INR.
  assert (ME : m * eta64 <= u64). { assert (EE : eta64 <= powerRZ 2 (-20) * u64) by (unfold u64, eta64; rewrite <- two_add; apply two_le; lia). assert (E20 : powerRZ 2 (-20) <= 1 / 1000000) by (simpl; lra).
    assert (E0 : eta64 <= 1 / 1000000 * u64) by (eapply Rle_trans; [exact EE|apply Rmult_le_compat_r; lra]). pose proof (two_pos (-1000)). assert (P : 0 <= eta64) by (apply Rlt_le, two_pos).
    apply Rle_trans with (50000 * eta64); [apply Rmult_le_compat_r; lra|lra]. }
  destruct (entry_pdd ar rdeg rcos rsin s l D b k lex lex' collapse tol e cell cs m BI HR TG Hs ST (Rle_refl _) ltac:(lra) ltac:(assert (m * u64 <= 50000 * u64) by (apply Rmult_le_compat_r; lra); lra) ME) as (cs' & warn & F & F' & _ & _ & (ex & g & ro & g' & f & p0 & H1 & H2 & H3 & H4 & _)).
  exists cs', warn, ex, g, ro, g', f, p0. auto 10.
Qed.

(** The distance of two crystals given by the parameters of their cells, asymmetric units and
    operations, in binary64 throughout: close to the exact distance of the exact PDDs, whichever
    cells with these parameters are used for these. *)
Theorem C87_entries_binary64 : forall ar rdeg rcos rsin cast s l D b k l1 l2 l1' l2' c1 c2 tol1 tol2 e1 e2 cell1 cell2 cs1 cs2,
  binary64 u64 ar -> representable_dots ar -> trig_like u64 rdeg rcos rsin -> truncates cast -> 0 <= s -> D + b <= 100000000000 ->
  stated ar rdeg rcos rsin s l D b k c1 tol1 e1 cell1 cs1 -> stated ar rdeg rcos rsin s l D b k c2 tol2 e2 cell2 cs2 ->
  let m1 := INR (length (ps_motif (cs_set cs1))) in let m2 := INR (length (ps_motif (cs_set cs2))) in
  m1 <= 5000 -> m2 <= 5000 -> m1 * m2 * (D + 1) <= 10000000000 ->
  exists exact1 g1 exact2 g2 v plan fuel0,
    (forall fuel, (fuel0 <= fuel)%nat -> PDD fuel (cs_set cs1) k l1 c1 tol1 = Done (exact1, g1) /\ PDD fuel (cs_set cs2) k l2 c2 tol2 = Done (exact2, g2) /\
      compare_entries ar rdeg rcos rsin cast fuel e1 e2 k l1' l2' c1 c2 tol1 tol2 = Done (v, plan)) /\
    forall d, row_distance k (pdd_array exact1) (pdd_array exact2) d ->
      emd_within (length exact1) (length exact2) (fun i => mx (pdd_array exact1) i 0) (fun j => mx (pdd_array exact2) j 0) d
        (5 * (m1 + m2 + 3) * (D + 1) / 100000000 + 4 * (D + b) / 1000000000000) v.
Proof.
  intros ar rdeg rcos rsin cast s l D b k l1 l2 l1' l2' c1 c2 tol1 tol2 a1 a2 cell1 cell2 cs1 cs2 BI HR TG HT Hs Hb LG1 LG2 n1 n2 N1 N2 Hc. destruct u64_small as [U E].
  assert (P1 : 0 <= n1) by apply pos_INR. assert (P2 : 0 <= n2) by apply pos_INR.
  destruct (entry_pdd ar rdeg rcos rsin s l D b k l1 l1' c1 tol1 a1 cell1 cs1 5000 BI HR TG Hs LG1 N1 ltac:(lra) ltac:(lra) ltac:(nra)) as (cs1' & w1 & F1 & F1' & _ & b0 & K1).
  destruct (entry_pdd ar rdeg rcos rsin s l D b k l2 l2' c2 tol2 a2 cell2 cs2 5000 BI HR TG Hs LG2 N2 ltac:(lra) ltac:(lra) ltac:(nra)) as (cs2' & w2 & F2 & F2' & _ & _ & K2).
  assert (D0 : 0 <= D) by (destruct K1 as (? & ? & ? & ? & ? & ? & _ & _ & _ & _ & _ & _ & _ & Z & _); exact Z).
  set (wt := (5 + 2 * 5000) * u64) in *. set (del := (110 + 3 * 5000) * u64 * (D + b)) in *.
  assert (W : 0 <= wt <= 126 / 100000000000000) by (unfold wt; lra).
  assert (DE : 0 <= del <= 19 / 10000000000000 * (D + b)).
  { unfold del. split; [apply Rmult_le_pos; lra|]. apply Rmult_le_compat_r; lra. }
  set (kap := rounded_cost_error u64 del D).
  assert (K : 0 <= kap <= 4 / 1000000000000 * (D + b) + 2 / 100000000).
  { unfold kap, rounded_cost_error. assert (X : 0 <= u64 * (D + 2 * del) <= 1 / 8000000000000000 * (D + 2 * del)) by (split; [apply Rmult_le_pos; lra|apply Rmult_le_compat_r; lra]). lra. }
  assert (N12 : 0 <= n1 * n2 <= 25000000) by nra.
  assert (NE : INR (length (ps_motif (cs_set cs1)) * length (ps_motif (cs_set cs2))) = n1 * n2) by apply mult_INR.
  assert (WE : forall n, 0 <= n <= 5000 -> (100000000 * (wt + 2 * u64) + eta64) * n < 1) by (intros n Hn; nra).
  destruct (emd_of_close u64 eta64 ar cast _ _ _ _ k D l1 l2 l1' l2' c1 c2 tol1 tol2 wt del (b64_emd_arithmetic ar cast BI HT) K1 K2)
    as (e1 & g1 & e2 & g2 & v & plan & f & HF & HV).
  { constructor; fold n1 n2; rewrite ?NE; try lra; try (apply WE; lra); [nra|nra|]. fold kap. eapply Rle_trans; [|exact Hc]. apply Rmult_le_compat_l; [lra|]. lra. }
  exists e1, g1, e2, g2, v, plan, f. split.
  { intros fuel Hf. destruct (HF fuel Hf) as (Z1 & Z2 & Z3). split; [exact Z1|]. split; [exact Z2|]. unfold compare_entries. rewrite F1'. cbn [obind]. rewrite F2'. cbn [obind fst]. exact Z3. }
  intros d Hd'. eapply emd_within_le; [|exact (HV d Hd')].
  unfold rounded_accuracy. cbv zeta. fold n1 n2 kap. rewrite NE.
  assert (X : 5 * (n1 + n2 + 2) * (D + kap) <= 5 * (n1 + n2 + 2) * (D + 1)) by (apply Rmult_le_compat_l; lra).
  assert (Y : (10 * wt + (3 * (n1 * n2) + 40) * u64) * (D + kap + 1) <= 1 / 100000000 * (D + kap + 1)) by (apply Rmult_le_compat_r; [lra|]; nra).
  lra.
Qed.

(** ** Crystals which differ little *)
Lemma entry_spread : forall ar rdeg rcos rsin s l D b k collapse tol e cell cs, binary64 u64 ar -> 0 <= s ->
  stated ar rdeg rcos rsin s l D b k collapse tol e cell cs -> lawful 3 (with_cell e cell) ->
  set_spread 3 (cs_set cs) /\ ps_cell (cs_set cs) = cell /\ 0 <= en_tol e < 1.
Proof.
  intros ar rdeg rcos rsin s l D b k collapse tol e cell cs BI Hs ST HL.
  assert (T : 0 <= en_tol e < 1).
  { pose proof (st_tol _ _ _ _ _ _ _ _ _ _ _ _ _ _ ST). destruct (st_sites _ _ _ _ _ _ _ _ _ _ _ _ _ _ ST) as [D0 _]. pose proof u64_pos. assert (0 <= 22 * u64 * (s + 1)) by (repeat apply Rmult_le_pos; lra). lra. }
  destruct (st_crystal _ _ _ _ _ _ _ _ _ _ _ _ _ _ ST) as (warn & X).
  destruct (read_spread 3 (with_cell e cell) cs warn ltac:(lia) T HL (st_dominant _ _ _ _ _ _ _ _ _ _ _ _ _ _ ST) X) as [S1 S2]. auto.
Qed.

Lemma entries_bound : forall ar rdeg rcos rsin cast s l D b k l1 l2 c1 c2 tol1 tol2 e1 e2 cell1 cell2 cs1 cs2 t,
  binary64 u64 ar -> representable_dots ar -> trig_like u64 rdeg rcos rsin -> truncates cast -> 0 <= s -> D + b <= 100000000000 ->
  stated ar rdeg rcos rsin s l D b k c1 tol1 e1 cell1 cs1 -> stated ar rdeg rcos rsin s l D b k c2 tol2 e2 cell2 cs2 -> lawful 3 (with_cell e1 cell1) -> lawful 3 (with_cell e2 cell2) ->
  length (ps_motif (cs_set cs2)) = length (ps_motif (cs_set cs1)) ->
  (forall f pdd1 g1 pdd2 g2 d, PDD f (cs_set cs1) k l1 c1 tol1 = Done (pdd1, g1) -> PDD f (cs_set cs2) k l2 c2 tol2 = Done (pdd2, g2) -> row_distance k (pdd_array pdd1) (pdd_array pdd2) d ->
    exists Y, coupling (length pdd1) (length pdd2) (fun i => fst (nth i pdd1 (0, []))) (fun j => fst (nth j pdd2 (0, []))) Y /\ transport_cost (length pdd1) (length pdd2) d Y <= t) ->
  let m := INR (length (ps_motif (cs_set cs1))) in m <= 5000 -> m * m * (D + 1) <= 10000000000 ->
  exists v plan fuel0, (forall fuel, (fuel0 <= fuel)%nat -> compare_entries ar rdeg rcos rsin cast fuel e1 e2 k l1 l2 c1 c2 tol1 tol2 = Done (v, plan)) /\
    v <= t + 5 * (2 * m + 3) * (D + 1) / 100000000 + 4 * (D + b) / 1000000000000.
Proof.
  intros ar rdeg rcos rsin cast s l D b k l1 l2 c1 c2 tol1 tol2 a1 a2 cell1 cell2 cs1 cs2 t BI HR TG HT Hs Hb LG1 LG2 W1 W2 L HC m M1 Mc.
  destruct (entry_spread _ _ _ _ _ _ _ _ _ _ _ _ _ _ BI Hs LG1 W1) as (S1 & EC1 & _). destruct (entry_spread _ _ _ _ _ _ _ _ _ _ _ _ _ _ BI Hs LG2 W2) as (S2 & EC2 & _).
  destruct (C87_entries_binary64 ar rdeg rcos rsin cast s l D b k l1 l2 l1 l2 c1 c2 tol1 tol2 a1 a2 cell1 cell2 cs1 cs2 BI HR TG HT Hs Hb LG1 LG2 M1) as (e1 & g1 & e2 & g2 & v & plan & f & HF & HV); [rewrite L; exact M1|rewrite L; exact Mc|].
  exists v, plan, f. split; [intros fuel Hf; apply (HF fuel Hf)|].
  destruct (HF f (le_n _)) as (E1 & E2 & _).
  assert (HM : forall p : pset R, INR (length (ps_motif p)) <= 5000 -> (Z.of_nat (length (ps_motif p)) <= 100000000)%Z).
  { intros p Hp. rewrite INR_IZR_INZ in Hp. apply le_IZR in Hp. lia. }
  pose proof (C32_pdd_weights _ _ _ _ _ _ _ _ _ (proj1 S1) (HM _ M1) E1) as P1.
  pose proof (C32_pdd_weights _ _ _ _ _ _ _ _ _ (proj1 S2) ltac:(apply HM; now rewrite L) E2) as P2.
  pose proof (dm_dist k _ _ P1 P2) as DD.
  destruct (HC f e1 g1 e2 g2 _ E1 E2 DD) as (Y & (Q1 & Q2 & Q3) & HY).
  destruct (HV _ DD) as [V _]. specialize (V Y). rewrite L in V. fold m in V.
  eapply Rle_trans; [apply V|].
  - split; [auto|]. split.
    + intros i Hi. rewrite Q2 by auto. unfold mx. rewrite pdd_array_nth by auto. auto.
    + intros i Hi. rewrite Q3 by auto. unfold mx. rewrite pdd_array_nth by auto. auto.
  - replace (m + m + 3) with (2 * m + 3) by ring. lra.
Qed.

(** Two entries, one of which describes a crystal with a deformed cell and displaced points: their
    distance grows in proportion to both. *)
Theorem C87_deformed : forall ar rdeg rcos rsin cast s l D b k l1 l2 c1 c2 tol1 tol2 e1 e2 cell1 cell2 cs1 cs2 delta eps fa a,
  binary64 u64 ar -> representable_dots ar -> trig_like u64 rdeg rcos rsin -> truncates cast -> 0 <= s -> D + b <= 100000000000 ->
  stated ar rdeg rcos rsin s l D b k c1 tol1 e1 cell1 cs1 -> stated ar rdeg rcos rsin s l D b k c2 tol2 e2 cell2 cs2 -> lawful 3 (with_cell e1 cell1) -> lawful 3 (with_cell e2 cell2) ->
  0 <= delta < 1 -> perturbed 3 cell1 cell2 delta eps (ps_motif (cs_set cs1)) (ps_motif (cs_set cs2)) -> 0 <= tol1 -> 0 <= tol2 -> (1 <= k)%nat -> AMD fa (cs_set cs1) k = Done a ->
  let m := INR (length (ps_motif (cs_set cs1))) in m <= 5000 -> m * m * (D + 1) <= 10000000000 ->
  exists v plan fuel0, (forall fuel, (fuel0 <= fuel)%nat -> compare_entries ar rdeg rcos rsin cast fuel e1 e2 k l1 l2 c1 c2 tol1 tol2 = Done (v, plan)) /\
    v <= (delta * nth (k - 1) a 0 + 2 * eps + slack c1 tol1 + slack c2 tol2) + 5 * (2 * m + 3) * (D + 1) / 100000000 + 4 * (D + b) / 1000000000000.
Proof.
  intros ar rdeg rcos rsin cast s l D b k l1 l2 c1 c2 tol1 tol2 a1 a2 cell1 cell2 cs1 cs2 delta eps fa a BI HR TG HT Hs Hb LG1 LG2 W1 W2 Hdel HP T1 T2 Hk A m M1 Mc.
  destruct (entry_spread _ _ _ _ _ _ _ _ _ _ _ _ _ _ BI Hs LG1 W1) as (S1 & EC1 & _). destruct (entry_spread _ _ _ _ _ _ _ _ _ _ _ _ _ _ BI Hs LG2 W2) as (S2 & EC2 & _).
  apply (entries_bound ar rdeg rcos rsin cast s l D b k l1 l2 c1 c2 tol1 tol2 a1 a2 cell1 cell2 cs1 cs2); auto.
  - exact (perturbed_length _ _ _ _ _ _ _ HP).
  - intros f p1 g1 p2 g2 d E1 E2 DD. apply (C82_pdd 3 (cs_set cs1) (cs_set cs2) delta eps k f f fa l1 l2 c1 c2 tol1 tol2 p1 p2 g1 g2 a d); auto; try lia. rewrite EC1, EC2. exact HP.
Qed.

(** The same crystal described twice, e.g. with and without its symmetry. *)
Theorem C87_same_crystal : forall ar rdeg rcos rsin cast s l D b k l1 l2 c1 c2 tol1 tol2 e1 e2 cell cs1 cs2,
  binary64 u64 ar -> representable_dots ar -> trig_like u64 rdeg rcos rsin -> truncates cast -> 0 <= s -> D + b <= 100000000000 ->
  stated ar rdeg rcos rsin s l D b k c1 tol1 e1 cell cs1 -> stated ar rdeg rcos rsin s l D b k c2 tol2 e2 cell cs2 -> lawful 3 (with_cell e1 cell) -> lawful 3 (with_cell e2 cell) ->
  en_tol e2 = en_tol e1 -> covered (en_asym e1) (en_ops e1) (en_asym e2) (en_ops e2) -> covered (en_asym e2) (en_ops e2) (en_asym e1) (en_ops e1) ->
  (en_uniquify e1 = true \/ disjoint_orbits (en_tol e1) (en_asym e1) (en_ops e1)) -> (en_uniquify e2 = true \/ disjoint_orbits (en_tol e2) (en_asym e2) (en_ops e2)) ->
  0 <= tol1 -> 0 <= tol2 ->
  let m := INR (length (ps_motif (cs_set cs1))) in m <= 5000 -> m * m * (D + 1) <= 10000000000 ->
  exists v plan fuel0, (forall fuel, (fuel0 <= fuel)%nat -> compare_entries ar rdeg rcos rsin cast fuel e1 e2 k l1 l2 c1 c2 tol1 tol2 = Done (v, plan)) /\
    v <= (slack c1 tol1 + slack c2 tol2) + 5 * (2 * m + 3) * (D + 1) / 100000000 + 4 * (D + b) / 1000000000000.
Proof.
  intros ar rdeg rcos rsin cast s l D b k l1 l2 c1 c2 tol1 tol2 a1 a2 cell cs1 cs2 BI HR TG HT Hs Hb LG1 LG2 W1 W2 ET V1 V2 U1 U2 T1 T2 m M1 Mc.
  destruct (entry_spread _ _ _ _ _ _ _ _ _ _ _ _ _ _ BI Hs LG1 W1) as (S1 & EC1 & TR). destruct (entry_spread _ _ _ _ _ _ _ _ _ _ _ _ _ _ BI Hs LG2 W2) as (S2 & EC2 & _).
  destruct (st_crystal _ _ _ _ _ _ _ _ _ _ _ _ _ _ LG1) as (w1 & X1). destruct (st_crystal _ _ _ _ _ _ _ _ _ _ _ _ _ _ LG2) as (w2 & X2).
  pose proof (described_displaced 3 (with_cell a1 cell) (with_cell a2 cell) cs1 cs2 w1 w2 ltac:(lia) TR (st_dominant _ _ _ _ _ _ _ _ _ _ _ _ _ _ LG1) W1 W2 eq_refl ET V1 V2 U1 U2 X1 X2) as DS. cbn [with_cell ct_cell] in DS.
  apply (entries_bound ar rdeg rcos rsin cast s l D b k l1 l2 c1 c2 tol1 tol2 a1 a2 cell cell cs1 cs2); auto.
  - destruct DS as (sg & sh & DP & _). apply Permutation_length in DP. rewrite map_length, !seq_length in DP. symmetry. exact DP.
  - intros f p1 g1 p2 g2 d E1 E2 DD.
    destruct (C79_pdd_continuous 3 (cs_set cs1) (cs_set cs2) 0 k f f l1 l2 c1 c2 tol1 tol2 p1 p2 g1 g2 d) as (Y & HY1 & HY2);
      [lia|congruence|exact S1|exact S2|rewrite EC1; exact DS|exact T1|exact T2|exact E1|exact E2|exact DD|]. exists Y. split; [exact HY1|lra].
Qed.

(** ** A monoclinic crystal with an inversion, given with its symmetry and without *)
Definition space_one : list operation := [([[1; 0; 0]; [0; 1; 0]; [0; 0; 1]], [0; 0; 0])].
Definition space_sites : list (list R) := [[1 / 8; 1 / 3; 1 / 4]; [7 / 8; 2 / 3; 3 / 4]].
Definition symmetric_entry : entry :=
  {| en_a := 4; en_b := 5; en_c := 6; en_alpha := 90; en_beta := 100; en_gamma := 90; en_asym := space_site; en_types := [6%nat]; en_ops := space_ops; en_tol := 1 / 1000; en_uniquify := true |}.
Definition plain_entry : entry :=
  {| en_a := 4; en_b := 5; en_c := 6; en_alpha := 90; en_beta := 100; en_gamma := 90; en_asym := space_sites; en_types := [6%nat; 6%nat]; en_ops := space_one; en_tol := 1 / 1000; en_uniquify := true |}.

Definition mono (p q : R) : list (list R) := [[4; 0; 0]; [0; 5; 0]; [6 * p; 0; 6 * q]].

Lemma mono_distances : forall p q motif, Forall (fun x => length x = 3%nat) motif -> distances_within 3 motif (mono p q) motif 2 4.
Proof.
  intros p q motif HL x ds Hx N. apply (In_nth _ _ []) in Hx as (i & Hi & Ei). rewrite Forall_forall in HL. pose proof (HL x ltac:(rewrite <- Ei; apply nth_In; auto)) as Lp.
  apply (nearest_upto 3 motif (mono p q) x 3 ds 4 [([0; 0; 0]%Z, i); ([1; 0; 0]%Z, i); ([-1; 0; 0]%Z, i)] N); [reflexivity| |].
  - repeat (apply NoDup_cons; [cbn; intuition discriminate|]). apply NoDup_nil.
  - apply Forall_forall. intros a Ia. split; [destruct Ia as [<-|[<-|[<-|[]]]]; split; cbn; auto|].
    rewrite <- (sqrt_square 4) by lra. unfold edist. apply sqrt_le_1_alt. destruct x as [|x [|y [|z [|t l]]]]; try discriminate.
    destruct Ia as [<-|[<-|[<-|[]]]]; unfold ppoint; cbn [fst snd]; rewrite Ei; cbn; unfold lattice_coord, comb_coord, rsum; cbn; ring_simplify; lra.
Qed.

Lemma space_facts : forall ops, ops = space_ops \/ ops = space_one -> ops <> [] /\ Forall (operation_ok 3) ops /\ incl ops space_ops.
Proof.
  intros ops [-> | ->]; (split; [discriminate|split; [repeat (constructor; [split; [reflexivity|split; [repeat constructor|reflexivity]]|]); constructor|]]); [apply incl_refl|intros x [<-|[]]; left; auto].
Qed.
Lemma space_sites_within : images_within 1 space_sites space_one.
Proof.
  assert (A1 : Rabs 1 = 1) by (apply Rabs_right; lra). assert (A3 : Rabs (1 / 8) = 1 / 8) by (apply Rabs_right; lra). assert (A4 : Rabs (1 / 3) = 1 / 3) by (apply Rabs_right; lra). assert (A7 : Rabs (1 / 4) = 1 / 4) by (apply Rabs_right; lra).
  assert (A5 : Rabs (7 / 8) = 7 / 8) by (apply Rabs_right; lra). assert (A6 : Rabs (2 / 3) = 2 / 3) by (apply Rabs_right; lra). assert (A8 : Rabs (3 / 4) = 3 / 4) by (apply Rabs_right; lra).
  intros p g j Hp [<-|[]] Hj. destruct Hp as [<-|[<-|[]]]; destruct j as [|[|[|j]]]; cbn in Hj; try lia; unfold rdot, rsum; cbn; rewrite ?A1, ?A3, ?A4, ?A5, ?A6, ?A7, ?A8, ?Rabs_R0; lra.
Qed.
Lemma space_sites_decided : forall m, m <= 1 / 1000 -> decided_sites (1 / 1000) m space_sites space_one.
Proof.
  intros m Hm. split; [lra|]. assert (D : forall x, x = 0 -> exists n, Rabs (x - IZR n) <= 1 / 1000 - m) by (intros x ->; exists 0%Z; rewrite Rminus_0_r, Rabs_R0; lra).
  intros p q g h Hp Hq [<-|[]] [<-|[]]. destruct Hp as [<-|[<-|[]]]; destruct Hq as [<-|[<-|[]]].
  - left. intros [|[|[|j]]] Hj; cbn in Hj; try lia; apply D; unfold affine, rdot, rsum; cbn; lra.
  - right. exists 0%nat. split; [cbn; lia|]. intros n. destruct (two_sites_apart n) as [A _]. replace (nth 0 _ 0 - nth 0 _ 0) with (1 / 8 - 7 / 8) by (unfold affine, rdot, rsum; cbn; lra). lra.
  - right. exists 0%nat. split; [cbn; lia|]. intros n. destruct (two_sites_apart n) as [_ A]. replace (nth 0 _ 0 - nth 0 _ 0) with (7 / 8 - 1 / 8) by (unfold affine, rdot, rsum; cbn; lra). lra.
  - left. intros [|[|[|j]]] Hj; cbn in Hj; try lia; apply D; unfold affine, rdot, rsum; cbn; lra.
Qed.
Lemma mono_group : forall p q ops, ops = space_ops \/ ops = space_one -> symmetry_group 3 (mono p q) ops.
Proof.
  intros p0 q0 ops HO. destruct (space_facts ops HO) as (O1 & O2 & O3). constructor; auto.
  - intros g i j Hg. destruct (O3 g Hg) as [<-|[<-|[]]]; destruct j as [|[|[|[|j]]]]; destruct i as [|[|[|[|i]]]]; cbn; try (exists 0%Z; reflexivity); try (exists 1%Z; reflexivity); exists (-1)%Z; reflexivity.
  - intros g h Hg Hh. assert (ID : In ([[1; 0; 0]; [0; 1; 0]; [0; 0; 1]], [0; 0; 0]) ops) by (destruct HO as [-> | ->]; left; auto).
    destruct (O3 g Hg) as [<-|[<-|[]]]; destruct (O3 h Hh) as [<-|[<-|[]]]; eexists _, [0%Z; 0%Z; 0%Z]; [split; [exact ID|]|split; [exact Hh|]|split; [exact Hg|]|split; [exact ID|]]; (split; [reflexivity|]); intros [|x [|y [|z [|t p]]]] Hp; try discriminate;
      unfold affine, shifted, rdot, rsum; cbn; (f_equal; [ring|f_equal; [ring|f_equal; ring]]).
  - intros g Hg. exists g, [0%Z; 0%Z; 0%Z], [0%Z; 0%Z; 0%Z]. split; [exact Hg|]. split; [reflexivity|]. split; [reflexivity|]. intros [|x [|y [|z [|t p]]]] Hp; try discriminate.
    destruct (O3 g Hg) as [<-|[<-|[]]]; split; unfold affine, shifted, rdot, rsum; cbn; (f_equal; [ring|f_equal; [ring|f_equal; ring]]).
  - intros g p q Hg Hp Hq. destruct p as [|x [|y [|z [|t p]]]]; try discriminate. destruct q as [|x' [|y' [|z' [|t q]]]]; try discriminate.
    destruct (O3 g Hg) as [<-|[<-|[]]]; unfold edist; f_equal; unfold affine, cartesian, comb_coord, rdot, rsum; cbn; ring.
Qed.
Lemma monoclinic_nonsingular : nonsingular 3 monoclinic.
Proof.
  destruct monoclinic_parameters as [[LS VS] HP]. pose proof (monoclinic_dominates 0 ltac:(lra)) as HD. destruct HP as [P1 P2 P3 _ _ _].
  assert (HD' : half_dominant 3 monoclinic) by (intros i Hi; eapply Rle_trans; [apply HD; auto|clear; set (z := rdot _ _); clearbody z; lra]).
  destruct (dominant_inverse 3 monoclinic LS VS HD' 4 ltac:(lra)) as (dual & DB & _); [intros [|[|[|i]]] Hi; try lia; change vlength with vlen; rewrite ?P1, ?P2, ?P3; lra|]. exists dual. exact DB.
Qed.
Lemma entries_lawful : lawful 3 (with_cell symmetric_entry monoclinic) /\ lawful 3 (with_cell plain_entry monoclinic).
Proof.
  pose proof monoclinic_nonsingular as NS. destruct monoclinic_parameters as [[LS VS] _].
  split; (constructor; cbn [with_cell symmetric_entry plain_entry ct_cell ct_asym ct_ops ct_tol en_asym en_ops en_tol]; auto; try discriminate; try (repeat constructor; fail); try (apply (mono_group (cos (100 * PI / 180)) (sin (100 * PI / 180))); auto)); apply decided_separated.
  - intros p q g h [<-|[]] [<-|[]] Hg Hh. destruct Hg as [<-|[<-|[]]]; destruct Hh as [<-|[<-|[]]]; [left; reflexivity|right|right|left; reflexivity]; exists 0%nat; (split; [cbn; lia|]); intros n; destruct (quarter_int n) as [A B].
    + replace (nth 0 _ 0 - nth 0 _ 0) with (1 / 4) by (unfold affine, rdot, rsum; cbn; lra). exact A.
    + replace (nth 0 _ 0 - nth 0 _ 0) with (- (1 / 4)) by (unfold affine, rdot, rsum; cbn; lra). exact B.
  - intros p q g h Hp Hq [<-|[]] [<-|[]]. destruct Hp as [<-|[<-|[]]]; destruct Hq as [<-|[<-|[]]]; [left; reflexivity|right|right|left; reflexivity]; exists 0%nat; (split; [cbn; lia|]); intros n; destruct (two_sites_apart n) as [A B].
    + replace (nth 0 _ 0 - nth 0 _ 0) with (1 / 8 - 7 / 8) by (unfold affine, rdot, rsum; cbn; lra). exact A.
    + replace (nth 0 _ 0 - nth 0 _ 0) with (7 / 8 - 1 / 8) by (unfold affine, rdot, rsum; cbn; lra). exact B.
Qed.
Lemma space_same : covered space_site space_ops space_sites space_one /\ covered space_sites space_one space_site space_ops.
Proof.
  assert (SM : forall (p q : list R) (z : list Z), length p = 3%nat -> length q = 3%nat -> (forall j, (j < 3)%nat -> nth j p 0 - nth j q 0 = IZR (nth j z 0%Z)) -> same_mod1 p q).
  { intros p q z Lp Lq H. split; [congruence|]. intros j Hj. exists (nth j z 0%Z). apply H. lia. }
  split.
  - intros p g [<-|[]] Hg. destruct Hg as [<-|[<-|[]]]; [exists [1 / 8; 1 / 3; 1 / 4]|exists [7 / 8; 2 / 3; 3 / 4]]; exists ([[1; 0; 0]; [0; 1; 0]; [0; 0; 1]], [0; 0; 0]); (split; [cbn; auto|]); (split; [left; auto|]).
    + apply same_refl.
    + apply (SM _ _ [-1; -1; -1]%Z); [reflexivity|reflexivity|]. intros [|[|[|j]]] Hj; try lia; unfold affine, rdot, rsum; cbn; lra.
  - intros p g Hp [<-|[]]. destruct Hp as [<-|[<-|[]]]; exists [1 / 8; 1 / 3; 1 / 4]; [exists ([[1; 0; 0]; [0; 1; 0]; [0; 0; 1]], [0; 0; 0])|exists ([[-1; 0; 0]; [0; -1; 0]; [0; 0; -1]], [0; 0; 0])]; (split; [left; auto|]); (split; [cbn; auto|]).
    + apply same_refl.
    + apply (SM _ _ [1; 1; 1]%Z); [reflexivity|reflexivity|]. intros [|[|[|j]]] Hj; try lia; unfold affine, rdot, rsum; cbn; lra.
Qed.
Lemma space_site_motif : expand_asym_unit mod1 (1 / 1000) true space_site space_ops = Done ([[1 / 8; 1 / 3; 1 / 4]; [7 / 8; 2 / 3; 3 / 4]], [0%nat; 0%nat], []).
Proof.
  assert (E : expand_sites mod1 space_site space_ops = [[[1 / 8; 1 / 3; 1 / 4]; [7 / 8; 2 / 3; 3 / 4]]]).
  { cbn. repeat f_equal; [apply (mod1_value _ _ 0)|apply (mod1_value _ _ 0)|apply (mod1_value _ _ 0)|apply (mod1_value _ _ (-1))|apply (mod1_value _ _ (-1))|apply (mod1_value _ _ (-1))]; cbn; lra. }
  assert (D : site_neq (1 / 1000) [1 / 8; 1 / 3; 1 / 4] [7 / 8; 2 / 3; 3 / 4] = true).
  { apply site_neq_true; [lra|repeat constructor; lra|repeat constructor; lra|reflexivity|]. intros C. destruct (C 0%nat ltac:(cbn; lia)) as (n & Hn). cbn in Hn. destruct (two_sites_apart n) as [A _]. lra. }
  unfold expand_asym_unit. rewrite E. unfold reduce_expanded_sites, unique_images, unique_sites. cbn - [site_neq]. rewrite !D. cbn - [site_neq]. rewrite ?D. cbn. reflexivity.
Qed.
Lemma space_sites_motif : expand_asym_unit mod1 (1 / 1000) true space_sites space_one = Done ([[1 / 8; 1 / 3; 1 / 4]; [7 / 8; 2 / 3; 3 / 4]], [0%nat; 1%nat], []).
Proof.
  assert (E : expand_sites mod1 space_sites space_one = [[[1 / 8; 1 / 3; 1 / 4]]; [[7 / 8; 2 / 3; 3 / 4]]]) by (cbn; repeat f_equal; apply (mod1_value _ _ 0); cbn; lra).
  assert (D : site_neq (1 / 1000) [1 / 8; 1 / 3; 1 / 4] [7 / 8; 2 / 3; 3 / 4] = true).
  { apply site_neq_true; [lra|repeat constructor; lra|repeat constructor; lra|reflexivity|]. intros C. destruct (C 0%nat ltac:(cbn; lia)) as (n & Hn). cbn in Hn. destruct (two_sites_apart n) as [A _]. lra. }
  unfold expand_asym_unit. rewrite E. unfold reduce_expanded_sites, unique_images, unique_sites. cbn - [site_neq]. rewrite !D. cbn - [site_neq]. rewrite ?D. cbn. reflexivity.
Qed.

Lemma mono_stated : forall e cs, e = symmetric_entry \/ e = plain_entry -> read_exactly (with_cell e monoclinic) = Done (cs, []) ->
  stated b64 deg64 cos64 sin64 1 4 4 220000 2 false 0 e monoclinic cs.
Proof.
  intros e cs HE E. assert (U : 0 < u64 <= 1 / 9007199254740992) by (split; [apply u64_pos|unfold u64; simpl; lra]). destruct monoclinic_parameters as [SM HP]. pose proof SM as [LS VS].
  assert (PE : en_a e = 4 /\ en_b e = 5 /\ en_c e = 6 /\ en_alpha e = 90 /\ en_beta e = 100 /\ en_gamma e = 90 /\ en_tol e = 1 / 1000) by (destruct HE as [-> | ->]; repeat split).
  destruct PE as (Pa & Pb & Pc & Pl & Pm & Pn & Pt).
  assert (HO : en_ops e = space_ops \/ en_ops e = space_one) by (destruct HE as [-> | ->]; auto). destruct (space_facts _ HO) as (O1 & O2 & _).
  assert (HA : en_asym e <> [] /\ Forall (fun p => length p = 3%nat) (en_asym e) /\ length (en_types e) = length (en_asym e)) by (destruct HE as [-> | ->]; (split; [discriminate|split; [repeat constructor|reflexivity]])). destruct HA as (A1 & A2 & A3).
  assert (HD : half_dominant 3 monoclinic) by (intros i Hi; eapply Rle_trans; [apply (monoclinic_dominates 0 ltac:(lra)); auto|clear; set (z := rdot _ _); clearbody z; lra]).
  destruct (C67_wf 3 (en_tol e) (en_uniquify e) monoclinic (en_asym e) (en_types e) (en_ops e) cs [] ltac:(lia) ltac:(lra) O1 O2 A1 A2 LS VS E) as (Wf & _ & EC & _).
  constructor; auto; rewrite ?Pa, ?Pb, ?Pc, ?Pl, ?Pm, ?Pn, ?Pt; auto; try lra; try discriminate.
  - intros cell' Q. assert (E1 : eta64 <= u64) by (unfold u64, eta64; apply two_le; lia).
    destruct (C83_cell b64 u64 eta64 deg64 cos64 sin64 monoclinic 4 5 6 90 100 90 (b64_float_like _ _ b64_binary64) trig64 ltac:(lra) E1 ltac:(lra) ltac:(lra) SM HP HD ltac:(lra) ltac:(lra) ltac:(lra)) as (c' & Q' & HS' & _ & _ & ST).
    rewrite Q in Q'. injection Q' as <-. pose proof HP as [P1 P2 P3 _ _ _].
    apply (C83_dominant monoclinic cell' (1600 * u64) 4 SM HS' ltac:(lra) ST ltac:(lra)).
    + intros [|[|[|i]]] Hi; try lia; rewrite ?P1, ?P2, ?P3; lra.
    + assert (ES : cell_size monoclinic = 15). { unfold vlen in P1, P2, P3. cbn [nth] in P1, P2, P3. unfold cell_size, rsum. unfold monoclinic at 1. cbn [map fold_right]. unfold monoclinic in P1, P2, P3. cbn [nth] in P1, P2, P3. rewrite P1, P2, P3. lra. }
      rewrite ES. apply monoclinic_dominates. lra.
  - destruct HE as [-> | ->]; [exact space_within|exact space_sites_within].
  - destruct HE as [-> | ->]; [apply space_decided; lra|apply space_sites_decided; lra].
  - unfold entry_bound. lra.
  - eexists. exact E.
  - intros p ds Hp N. apply (mono_distances (cos (100 * PI / 180)) (sin (100 * PI / 180)) (ps_motif (cs_set cs)) (ok_motif_len _ _ _ (wf_ok _ _ Wf)) p ds); auto. apply (points_incl _ _ Wf). exact Hp.
Qed.

(** From lengths, angles, sites and operations to the distance, all in binary64: the two
    descriptions of the crystal are at most 3 units of the 6th decimal apart. *)
Example C87_case : exists v plan fuel0, (forall fuel, (fuel0 <= fuel)%nat ->
    compare_entries b64 deg64 cos64 sin64 Int_part fuel symmetric_entry plain_entry 2 true true false false 0 0 = Done (v, plan)) /\ v <= 3 / 1000000.
Proof.
  assert (E1 : exists cs, read_exactly (with_cell symmetric_entry monoclinic) = Done (cs, []) /\ length (ps_motif (cs_set cs)) = 2%nat).
  { unfold read_exactly, finish. cbn [with_cell symmetric_entry en_tol en_asym en_types en_ops en_uniquify ct_tol ct_cell ct_ops ct_asym ct_types ct_uniquify]. rewrite space_site_motif. cbn [obind]. eexists. split; reflexivity. }
  assert (E2 : exists cs, read_exactly (with_cell plain_entry monoclinic) = Done (cs, [])).
  { unfold read_exactly, finish. cbn [with_cell plain_entry en_tol en_asym en_types en_ops en_uniquify ct_tol ct_cell ct_ops ct_asym ct_types ct_uniquify]. rewrite space_sites_motif. cbn [obind]. eexists. reflexivity. }
  destruct E1 as (cs1 & E1 & L1). destruct E2 as (cs2 & E2). destruct entries_lawful as [W1 W2]. destruct space_same as [V1 V2].
  destruct (C87_same_crystal b64 deg64 cos64 sin64 Int_part 1 4 4 220000 2 true true false false 0 0 symmetric_entry plain_entry monoclinic cs1 cs2 b64_binary64 b64_dots trig64 Int_part_truncates ltac:(lra) ltac:(lra)
    (mono_stated _ _ (or_introl eq_refl) E1) (mono_stated _ _ (or_intror eq_refl) E2) W1 W2 eq_refl V1 V2 (or_introl eq_refl) (or_introl eq_refl) ltac:(lra) ltac:(lra)) as (v & plan & f & HF & HV);
    [unfold vec in *; rewrite L1; simpl; lra|unfold vec in *; rewrite L1; simpl; lra|].
  exists v, plan, f. split; [exact HF|]. unfold vec in *. rewrite L1 in HV. unfold slack in HV. simpl in HV. lra.
Qed.

Print Assumptions C87_pdd_binary64.
Print Assumptions C87_entries_binary64.
Print Assumptions C87_deformed.
Print Assumptions C87_same_crystal.
Print Assumptions C87_case.
