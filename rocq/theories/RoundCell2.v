(** Lemmas for C83: the cell with given parameters and the one computed in rounded arithmetic. *)
From Coq Require Import List ZArith Arith Bool Lia Reals Lra Psatz.
From Verif Require Import Num Base SpecGeom SpecCell SpecDeform Outcome NNModel VecR NNSpecProofs UtilsModel Props_Utils RoundModel SpecRound RoundSum RoundBinary SpecRoundCell RoundCellModel
  SpecRoundSites RoundCell DeformProofs DominantProofs.
Import ListNotations.
Open Scope R_scope.

(** ** Almost orthogonal cells have angles far from 0 and 180 degrees *)
Lemma dominant_angles : forall a b c ca cb cg sg, 0 < a -> 0 < b -> 0 < c -> 0 <= sg -> sg * sg + cg * cg = 1 ->
  Rabs (a * b * cg) + Rabs (a * c * cb) <= a * a / 2 -> Rabs (a * b * cg) + Rabs (b * c * ca) <= b * b / 2 -> Rabs (a * c * cb) + Rabs (b * c * ca) <= c * c / 2 ->
  4 / 5 <= sg <= 1 /\ 16 / 25 <= 1 - cb * cb - (ca - cb * cg) / sg * ((ca - cb * cg) / sg).
Proof.
  intros a b c ca cb cg sg A B C S0 S HA HB HC. set (g := a * b * cg) in *. set (p := a * c * cb) in *. set (q := b * c * ca) in *.
  pose proof (Rabs_pos g) as G0. pose proof (Rabs_pos p) as P0. pose proof (Rabs_pos q) as Q0.
  assert (AB : 0 < a * b) by (apply Rmult_lt_0_compat; auto).
  assert (G2 : Rabs g * Rabs g = g * g) by (rewrite <- Rabs_mult; apply Rabs_right, Rle_ge, Rle_0_sqr).
  assert (CG : cg * cg <= 1 / 4).
  { assert (Rabs g * Rabs g <= (a * a / 2) * (b * b / 2)) by (apply Rmult_le_compat; lra). rewrite G2 in H. unfold g in H.
    apply Rmult_le_reg_l with ((a * b) * (a * b)); [apply Rmult_lt_0_compat; auto|]. lra. }
  assert (SG : 4 / 5 <= sg <= 1) by (split; nra). split; [exact SG|].
  set (D := a * a * (b * b) - g * g). assert (DV : D = (a * b) * (a * b) * (sg * sg)) by (unfold D, g; replace (sg * sg) with (1 - cg * cg) by lra; ring).
  assert (D0 : 0 <= D) by (rewrite DV; apply Rmult_le_pos; apply Rle_0_sqr).
  assert (X1 : Rabs (p * (b * b) - g * q) <= D / 2).
  { replace (p * (b * b) - g * q) with (p * (b * b) + - (g * q)) by ring. eapply Rle_trans; [apply Rabs_triang|]. rewrite Rabs_Ropp, !Rabs_mult, (Rabs_right b) by lra.
    assert (Rabs p * (b * b) <= (a * a / 2 - Rabs g) * (b * b)) by (apply Rmult_le_compat_r; nra). assert (Rabs g * Rabs q <= Rabs g * (b * b / 2 - Rabs g)) by (apply Rmult_le_compat_l; lra).
    assert (0 <= Rabs g * (b * b)) by (apply Rmult_le_pos; nra). assert (0 <= g * g) by apply Rle_0_sqr. unfold D. nra. }
  assert (X2 : Rabs (q * (a * a) - g * p) <= D / 2).
  { replace (q * (a * a) - g * p) with (q * (a * a) + - (g * p)) by ring. eapply Rle_trans; [apply Rabs_triang|]. rewrite Rabs_Ropp, !Rabs_mult, (Rabs_right a) by lra.
    assert (Rabs q * (a * a) <= (b * b / 2 - Rabs g) * (a * a)) by (apply Rmult_le_compat_r; nra). assert (Rabs g * Rabs p <= Rabs g * (a * a / 2 - Rabs g)) by (apply Rmult_le_compat_l; lra).
    assert (0 <= Rabs g * (a * a)) by (apply Rmult_le_pos; nra). assert (0 <= g * g) by apply Rle_0_sqr. unfold D. nra. }
  assert (Y : p * (p * (b * b) - g * q) + q * (q * (a * a) - g * p) <= c * c / 2 * (D / 2)).
  { assert (p * (p * (b * b) - g * q) <= Rabs p * (D / 2)) by (eapply Rle_trans; [apply Rle_abs|]; rewrite Rabs_mult; apply Rmult_le_compat_l; auto).
    assert (q * (q * (a * a) - g * p) <= Rabs q * (D / 2)) by (eapply Rle_trans; [apply Rle_abs|]; rewrite Rabs_mult; apply Rmult_le_compat_l; auto).
    assert ((Rabs p + Rabs q) * (D / 2) <= c * c / 2 * (D / 2)) by (apply Rmult_le_compat_r; lra). lra. }
  assert (Z : p * (p * (b * b) - g * q) + q * (q * (a * a) - g * p) = (a * b) * (a * b) * (c * c) * (cb * cb + ca * ca - 2 * (ca * cb * cg))) by (unfold p, q, g; ring).
  rewrite Z, DV in Y.
  assert (W : cb * cb + ca * ca - 2 * (ca * cb * cg) <= sg * sg / 4).
  { apply Rmult_le_reg_l with ((a * b) * (a * b) * (c * c)); [repeat apply Rmult_lt_0_compat; auto|]. lra. }
  assert (T : (ca - cb * cg) / sg * ((ca - cb * cg) / sg) + cb * cb <= 1 / 4).
  { apply Rmult_le_reg_r with (sg * sg); [nra|]. replace (((ca - cb * cg) / sg * ((ca - cb * cg) / sg) + cb * cb) * (sg * sg)) with ((ca - cb * cg) * (ca - cb * cg) + cb * cb * (sg * sg)) by (field; lra).
    replace (cb * cb * (sg * sg)) with (cb * cb * (1 - cg * cg)) by (rewrite <- S; ring). lra. }
  lra.
Qed.

(** ** Lengths depend on the scalar products of the cell vectors only *)
Lemma gram_lengths : forall dims cell cell0 x, length cell = dims -> Forall (fun r => length r = dims) cell -> length cell0 = dims -> Forall (fun r => length r = dims) cell0 -> length x = dims ->
  (forall i j, (i < dims)%nat -> (j < dims)%nat -> rdot (nth i cell []) (nth j cell []) = rdot (nth i cell0 []) (nth j cell0 [])) ->
  vlength (combination dims cell x) = vlength (combination dims cell0 x).
Proof.
  intros dims cell cell0 x L V L0 V0 Lx H. unfold vlength. f_equal. rewrite !rdot_dot, !combination_gram by auto. apply NNComplete.rsum_ext. intros i Hi. apply in_seq in Hi. apply NNComplete.rsum_ext. intros j Hj. apply in_seq in Hj.
  rewrite <- !rdot_dot, H by lia. reflexivity.
Qed.
Lemma gram_dominant : forall dims cell cell0, (forall i j, (i < dims)%nat -> (j < dims)%nat -> rdot (nth i cell []) (nth j cell []) = rdot (nth i cell0 []) (nth j cell0 [])) ->
  half_dominant dims cell -> half_dominant dims cell0.
Proof.
  intros dims cell cell0 H HD i Hi. specialize (HD i Hi). rewrite <- (H i i) by auto. eapply Rle_trans; [|exact HD]. right. apply NNComplete.rsum_ext. intros j Hj. apply in_seq in Hj. destruct (Nat.eqb j i); auto. rewrite H by lia. auto.
Qed.

(** The cell with the first vector along the first axis and the second one in the plane of the first two. *)
Definition standard_cell (a b c al be ga : R) : list (list R) :=
  let ca := cos (al * PI / 180) in let cb := cos (be * PI / 180) in let cg := cos (ga * PI / 180) in let sg := sin (ga * PI / 180) in
  let cy := (ca - cb * cg) / sg in
  [[a; 0; 0]; [b * cg; b * sg; 0]; [c * cb; c * cy; c * sqrt (1 - cb * cb - cy * cy)]].

Section Standard.
  Variables (cell : list (list R)) (a b c al be ga : R).
  Hypothesis HS : square_matrix 3 cell.
  Hypothesis HP : has_parameters cell a b c al be ga.
  Hypothesis HD : half_dominant 3 cell.
  Hypothesis A0 : 0 < a.
  Hypothesis B0 : 0 < b.
  Hypothesis C0 : 0 < c.
  Let ca := cos (al * PI / 180).
  Let cb := cos (be * PI / 180).
  Let cg := cos (ga * PI / 180).
  Let sg := sin (ga * PI / 180).
  Let cy := (ca - cb * cg) / sg.
  Let cz2 := 1 - cb * cb - cy * cy.

  Lemma cell_gram : rdot (nth 0 cell []) (nth 0 cell []) = a * a /\ rdot (nth 1 cell []) (nth 1 cell []) = b * b /\ rdot (nth 2 cell []) (nth 2 cell []) = c * c /\
    rdot (nth 0 cell []) (nth 1 cell []) = a * b * cg /\ rdot (nth 0 cell []) (nth 2 cell []) = a * c * cb /\ rdot (nth 1 cell []) (nth 2 cell []) = b * c * ca.
  Proof.
    destruct HP as [P1 P2 P3 [_ P4] [_ P5] [_ P6]]. rewrite P1, P2, P3 in *. rewrite <- P1 at 1 2. rewrite <- P2 at 1 2. rewrite <- P3 at 1 2. rewrite !vlen_sq.
    repeat split; auto.
  Qed.
  Lemma angles_ok : 4 / 5 <= sg <= 1 /\ 16 / 25 <= cz2.
  Proof.
    destruct cell_gram as (G1 & G2 & G3 & G4 & G5 & G6).
    assert (S : sg * sg + cg * cg = 1) by (pose proof (sin2_cos2 (ga * PI / 180)) as Q; unfold Rsqr in Q; exact Q).
    assert (S0 : 0 <= sg).
    { destruct HP as [_ _ _ _ _ [[R1 R2] _]]. unfold sg. apply sin_ge_0; pose proof PI_RGT_0; [|]; nra. }
    pose proof (HD 0%nat ltac:(lia)) as D1. pose proof (HD 1%nat ltac:(lia)) as D2. pose proof (HD 2%nat ltac:(lia)) as D3. unfold rsum in D1, D2, D3. cbn [seq map fold_right Nat.eqb] in D1, D2, D3.
    rewrite (rdot_comm (nth 1 cell []) (nth 0 cell [])) in D2. rewrite (rdot_comm (nth 2 cell []) (nth 0 cell [])), (rdot_comm (nth 2 cell []) (nth 1 cell [])) in D3.
    rewrite G1, G4, G5 in D1. rewrite G2, G4, G6 in D2. rewrite G3, G5, G6 in D3. apply (dominant_angles a b c ca cb cg sg); auto; lra.
  Qed.
  Lemma standard_gram : forall i j, (i < 3)%nat -> (j < 3)%nat -> rdot (nth i cell []) (nth j cell []) = rdot (nth i (standard_cell a b c al be ga) []) (nth j (standard_cell a b c al be ga) []).
  Proof.
    destruct cell_gram as (G1 & G2 & G3 & G4 & G5 & G6). destruct angles_ok as [S Z].
    assert (S1 : sg * sg + cg * cg = 1) by (pose proof (sin2_cos2 (ga * PI / 180)) as Q; unfold Rsqr in Q; exact Q).
    assert (Q : sqrt cz2 * sqrt cz2 = cz2) by (apply sqrt_sqrt; lra).
    assert (Y : cy * sg = ca - cb * cg) by (unfold cy; field; lra).
    unfold standard_cell. fold ca cb cg sg. fold cy. fold cz2.
    intros [|[|[|i]]] [|[|[|j]]] Hi Hj; try lia; cbn [nth rdot]; rewrite ?(rdot_comm (nth 1 cell []) (nth 0 cell [])), ?(rdot_comm (nth 2 cell []) (nth 0 cell [])), ?(rdot_comm (nth 2 cell []) (nth 1 cell [])), ?G1, ?G2, ?G3, ?G4, ?G5, ?G6; try lra.
    - replace (b * cg * (b * cg) + (b * sg * (b * sg) + (0 * 0 + 0))) with (b * b * (sg * sg + cg * cg)) by ring. rewrite S1. ring.
    - replace (b * cg * (c * cb) + (b * sg * (c * cy) + (0 * (c * sqrt cz2) + 0))) with (b * c * (cg * cb + cy * sg)) by ring. rewrite Y. ring.
    - replace (c * cb * (b * cg) + (c * cy * (b * sg) + (c * sqrt cz2 * 0 + 0))) with (b * c * (cg * cb + cy * sg)) by ring. rewrite Y. ring.
    - replace (c * cb * (c * cb) + (c * cy * (c * cy) + (c * sqrt cz2 * (c * sqrt cz2) + 0))) with (c * c * (cb * cb + cy * cy + sqrt cz2 * sqrt cz2)) by ring. rewrite Q. unfold cz2. ring.
  Qed.
  Lemma standard_rows : length (standard_cell a b c al be ga) = 3%nat /\ Forall (fun r => length r = 3%nat) (standard_cell a b c al be ga).
  Proof. split; [reflexivity|repeat constructor]. Qed.

  (** ** The rounded cell *)
  Variables (ar : arith) (u eta : R) (rdeg rcos rsin : R -> R).
  Hypothesis FL : float_like u eta ar.
  Hypothesis TG : trig_like u rdeg rcos rsin.
  Hypothesis U : u64 <= u <= 1 / 1000000.
  Hypothesis E1 : eta <= u.
  Hypothesis Eb : eta <= u * b.
  Hypothesis Ec : eta <= u * c.

  Lemma edist3 : forall x y z x' y' z' d1 d2 d3, Rabs (x' - x) <= d1 -> Rabs (y' - y) <= d2 -> Rabs (z' - z) <= d3 -> edist [x'; y'; z'] [x; y; z] <= d1 + d2 + d3.
  Proof.
    intros x y z x' y' z' d1 d2 d3 H1 H2 H3. unfold edist. cbn [sq_dist]. pose proof (Rabs_pos (x' - x)). pose proof (Rabs_pos (y' - y)). pose proof (Rabs_pos (z' - z)).
    apply Rle_trans with (sqrt ((d1 + d2 + d3) * (d1 + d2 + d3))); [apply sqrt_le_1_alt|right; apply sqrt_square; lra].
    assert (Q : forall t d, Rabs t <= d -> t * t <= d * d) by (intros t d Ht; apply Rabs_le_both in Ht; nra). pose proof (Q _ _ H1). pose proof (Q _ _ H2). pose proof (Q _ _ H3).
    assert (0 <= d1 * d2) by (apply Rmult_le_pos; lra). assert (0 <= d1 * d3) by (apply Rmult_le_pos; lra). assert (0 <= d2 * d3) by (apply Rmult_le_pos; lra). lra.
  Qed.

  Theorem rounded_cell : exists cell', r_cellpar_to_cell ar rdeg rcos rsin [a; b; c; al; be; ga] = Done cell' /\ square_matrix 3 cell' /\ lower_triangular 3 cell' /\
    nth 0 cell' [] = [a; 0; 0] /\ (forall i, (i < 3)%nat -> 0 < entry cell' i i) /\ forall r, (r < 3)%nat -> edist (nth r cell' []) (nth r (standard_cell a b c al be ga) []) <= 640 * u * vlength (nth r (standard_cell a b c al be ga) []).
  Proof.
    destruct angles_ok as [S Z]. pose proof u64_pos as U0. set (e := 12 * u). assert (He : 0 <= e <= 1 / 10000) by (unfold e; lra). assert (Hu : u <= e) by (unfold e; lra). assert (Heta : eta <= e / 10) by (unfold e; lra).
    destruct HP as [_ _ _ [Ral _] [Rbe _] [Rga _]].
    assert (U' : u64 <= u <= 1 / 100) by lra.
    pose proof (r_cos_err ar u eta rdeg rcos rsin FL TG U' al Ral) as Da. pose proof (r_cos_err ar u eta rdeg rcos rsin FL TG U' be Rbe) as Db. pose proof (r_cos_err ar u eta rdeg rcos rsin FL TG U' ga Rga) as Dg.
    pose proof (r_sin_err ar u eta rdeg rcos rsin FL TG U' ga Rga) as Ds. fold e in Da, Db, Dg, Ds. fold ca in Da. fold cb in Db. fold cg in Dg. fold sg in Ds.
    unfold r_cellpar_to_cell. set (ca' := r_cos_deg ar rdeg rcos al) in *. set (cb' := r_cos_deg ar rdeg rcos be) in *. set (cg' := r_cos_deg ar rdeg rcos ga) in *. set (sg' := r_sin_deg ar rdeg rsin ga) in *.
    assert (Ba : Rabs ca <= 1) by (apply Rabs_le; pose proof (COS_bound (al * PI / 180)); unfold ca; lra). assert (Bb : Rabs cb <= 1) by (apply Rabs_le; pose proof (COS_bound (be * PI / 180)); unfold cb; lra). assert (Bg : Rabs cg <= 1) by (apply Rabs_le; pose proof (COS_bound (ga * PI / 180)); unfold cg; lra).
    pose proof (RoundCell.cy_le ca cb cg sg Z) as Y1.
    pose proof (cy_err ar u eta e FL He Hu Heta ca cb cg sg ca' cb' cg' sg' Ba Bb Bg S Da Db Dg Ds Z) as Y.
    pose proof (cz_err ar u eta e FL He Hu Heta ca cb cg sg ca' cb' cg' sg' Ba Bb Bg S Da Db Dg Ds Z) as X.
    pose proof (cz2_pos ar u eta e FL He Hu Heta ca cb cg sg ca' cb' cg' sg' Ba Bb Bg S Da Db Dg Ds Z) as P.
    fold cy in Y, X. fold cz2 in X.
    set (cy' := r_div ar (r_sub ar ca' (r_mul ar cb' cg')) sg') in *. set (z' := r_sub ar (r_sub ar 1 (r_mul ar cb' cb')) (r_mul ar cy' cy')) in *.
    cbv zeta. replace (Rltb z' 0) with false by (symmetry; unfold Rltb; destruct (Rlt_dec z' 0); [lra|auto]).
    eexists. split; [reflexivity|]. split; [split; [reflexivity|repeat constructor]|]. split; [intros [|[|[|i]]] [|[|[|j]]] Hij; try lia; reflexivity|]. split; [reflexivity|].
    assert (VB : forall r, (r < 3)%nat -> vlength (nth r (standard_cell a b c al be ga) []) = nth r [a; b; c] 0).
    { destruct cell_gram as (G1 & G2 & G3 & _). intros r Hr. unfold vlength. rewrite <- standard_gram by auto. destruct r as [|[|[|r]]]; try lia; cbn [nth]; rewrite ?G1, ?G2, ?G3; apply sqrt_square; lra. }
    assert (EE : forall d x x' t, 0 < t -> eta <= u * t -> Rabs x <= 1 -> Rabs (x' - x) <= d * e -> 0 <= d <= 40 -> Rabs (r_mul ar t x' - t * x) <= (d + 12 / 10) * e * t).
    { intros d x x' t T0 Et Bx Dx Hd. apply (entry_err ar u eta e FL He Hu); auto; try lra. apply Rle_trans with (u * t); auto. unfold e. nra. }
    assert (Z0 : 4 / 5 <= sqrt cz2). { apply Rle_trans with (sqrt (4 / 5 * (4 / 5))); [right; symmetry; apply sqrt_square; lra|apply sqrt_le_1_alt; lra]. }
    assert (Zq : Rabs (sqrt cz2) <= 1). { rewrite Rabs_right by (apply Rle_ge, sqrt_pos). rewrite <- sqrt_1. apply sqrt_le_1_alt. unfold cz2. pose proof (Rle_0_sqr cb). pose proof (Rle_0_sqr cy). unfold Rsqr in *. lra. }
    assert (Sg1 : Rabs sg <= 1) by (apply Rabs_le; lra).
    assert (PS : forall d x x' t, 0 < t -> eta <= u * t -> Rabs x <= 1 -> 4 / 5 <= x -> Rabs (x' - x) <= d * e -> 0 <= d <= 40 -> 0 < r_mul ar t x').
    { intros d x x' t T0 Et Bx Px Dx Hd. pose proof (EE d x x' t T0 Et Bx Dx Hd) as Q. apply Rabs_le_both in Q. assert (4 / 5 * t <= t * x) by nra. assert (K : (d + 12 / 10) * e <= 42 * (1 / 10000)) by (apply Rmult_le_compat; lra). assert ((d + 12 / 10) * e * t <= 42 * (1 / 10000) * t) by (apply Rmult_le_compat_r; lra). lra. }
    split; [intros [|[|[|i]]] Hi; try lia; unfold entry; cbn [nth]; [exact A0|apply (PS 1 sg sg' b); auto; lra|apply (PS 37 (sqrt cz2) _ c); auto; lra]|].
    intros r Hr. rewrite VB by auto. unfold standard_cell. fold ca cb cg sg. fold cy. fold cz2. destruct r as [|[|[|r]]]; try lia; cbn [nth].
    - eapply Rle_trans; [apply (edist3 _ _ _ _ _ _ 0 0 0); rewrite Rminus_eq_0, Rabs_R0; lra|]. assert (0 <= u * a) by (apply Rmult_le_pos; lra). lra.
    - eapply Rle_trans; [apply (edist3 _ _ _ _ _ _ ((1 + 12 / 10) * e * b) ((1 + 12 / 10) * e * b) 0)|].
      + apply EE; auto; lra.
      + apply EE; auto; lra.
      + rewrite Rminus_eq_0, Rabs_R0; lra.
      + unfold e. assert (0 <= u * b) by (apply Rmult_le_pos; lra). lra.
    - eapply Rle_trans; [apply (edist3 _ _ _ _ _ _ ((1 + 12 / 10) * e * c) ((105 / 10 + 12 / 10) * e * c) ((37 + 12 / 10) * e * c))|].
      + apply EE; auto; lra.
      + apply EE; auto; lra.
      + apply EE; auto; lra.
      + unfold e. assert (0 <= u * c) by (apply Rmult_le_pos; lra). lra.
  Qed.
End Standard.
