(** Property C83: cells computed from lengths and angles with rounded operations. *)
From Coq Require Import List ZArith Arith Bool Lia Reals Lra Psatz Permutation Sorted.
From Verif Require Import AsymProofs2.
From Verif Require Import Num Base Spec Outcome NNModel VecR SpecGeom SpecCell SpecCalc SpecSites SpecCont SpecDeform NNProofs NNSpecProofs NNComplete NNInvariance Props_NN CompareModel CalcModel CalcProofs CalcProofs2 Props_Calc
  SitesModel SitesProofs SitesExpand Props_Sites SymmetryProofs Props_Symmetry Props_Asym Props_Geo ContProofs
  RoundModel SpecRound RoundSum RoundProofs RoundGeom RoundTop RoundCalc RoundBinary Props_Round RoundSitesModel SpecRoundSites RoundSites RoundSites2 RoundSites3 Props_RoundSites
  DeformProofs Props_Deform UtilsModel Props_Utils DominantProofs SpecRoundCell RoundCellModel RoundCell RoundCell2.
Import ListNotations.
Open Scope R_scope.
Notation length := List.length.

(** With exact operations this is the function of C52. *)
Lemma exact_cell : forall cellpar, r_cellpar_to_cell exact_arith (fun x => x * PI / 180) cos sin cellpar = cellpar_to_cell cellpar.
Proof. reflexivity. Qed.

(** The computed cell is right-handed, in the standard orientation, and changed by at most 1600 [u] in
    every length from any cell with the parameters. *)
Theorem C83_cell : forall ar u eta rdeg rcos rsin cell a b c al be ga, float_like u eta ar -> trig_like u rdeg rcos rsin -> u64 <= u <= 1 / 1000000 ->
  eta <= u -> eta <= u * b -> eta <= u * c -> square_matrix 3 cell -> has_parameters cell a b c al be ga -> half_dominant 3 cell -> 0 < a -> 0 < b -> 0 < c ->
  exists cell', r_cellpar_to_cell ar rdeg rcos rsin [a; b; c; al; be; ga] = Done cell' /\ square_matrix 3 cell' /\ lower_triangular 3 cell' /\ (forall i, (i < 3)%nat -> 0 < entry cell' i i) /\ strained 3 cell cell' (1600 * u).
Proof.
  intros ar u eta rdeg rcos rsin cell a b c al be ga FL TG U E1 Eb Ec HS HP HD A0 B0 C0.
  destruct (rounded_cell cell a b c al be ga HP HD A0 B0 C0 ar u eta rdeg rcos rsin FL TG U E1 Eb Ec) as (cell' & Q & S' & T & _ & PD & HR).
  exists cell'. split; [exact Q|]. split; [exact S'|]. split; [exact T|]. split; [exact PD|]. set (c0 := standard_cell a b c al be ga) in *.
  pose proof (standard_gram cell a b c al be ga HP HD A0 B0 C0) as G. fold c0 in G. destruct (standard_rows a b c al be ga) as [L0 V0]. fold c0 in L0, V0. destruct HS as [LS VS]. destruct S' as [L' V'].
  pose proof u64_pos as U0.
  pose proof (relative_strain 3 c0 L0 V0 (gram_dominant 3 cell c0 G HD) cell' (640 * u) L' V' ltac:(lra) HR) as ST.
  intros x Lx. rewrite (gram_lengths 3 cell c0 x) by auto. eapply Rle_trans; [apply ST; auto|]. apply Rmult_le_compat_r; [apply sqrt_pos|].
  assert (sqrt (2 * INR 3) <= 5 / 2). { apply Rle_trans with (sqrt (5 / 2 * (5 / 2))); [apply sqrt_le_1_alt; simpl; lra|right; apply sqrt_square; lra]. }
  apply Rle_trans with (5 / 2 * (640 * u)); [apply Rmult_le_compat_r; lra|lra].
Qed.

(** In two dimensions. *)
Theorem C83_cell_2D : forall ar u eta rdeg rcos rsin cell a b al, float_like u eta ar -> trig_like u rdeg rcos rsin -> u64 <= u <= 1 / 1000000 ->
  eta <= u -> eta <= u * b -> square_matrix 2 cell -> has_parameters_2D cell a b al -> half_dominant 2 cell -> 0 < a -> 0 < b ->
  exists cell', r_cellpar_to_cell_2D ar rdeg rcos rsin [a; b; al] = Done cell' /\ square_matrix 2 cell' /\ lower_triangular 2 cell' /\ (forall i, (i < 2)%nat -> 0 < entry cell' i i) /\ strained 2 cell cell' (110 * u).
Proof.
  intros ar u eta rdeg rcos rsin cell a b al FL TG U E1 Eb [LS VS] [P1 P2 [Ral P3]] HD A0 B0. pose proof u64_pos as U0.
  set (co := cos (al * PI / 180)) in *. set (si := sin (al * PI / 180)) in *.
  assert (SC : si * si + co * co = 1) by (pose proof (sin2_cos2 (al * PI / 180)) as Q; unfold Rsqr in Q; exact Q).
  set (c0 := [[a; 0]; [b * co; b * si]]).
  assert (G : forall i j, (i < 2)%nat -> (j < 2)%nat -> rdot (nth i cell []) (nth j cell []) = rdot (nth i c0 []) (nth j c0 [])).
  { assert (G1 : rdot (nth 0 cell []) (nth 0 cell []) = a * a) by (rewrite <- vlen_sq, P1; auto). assert (G2 : rdot (nth 1 cell []) (nth 1 cell []) = b * b) by (rewrite <- vlen_sq, P2; auto). rewrite P1, P2 in P3.
    intros [|[|i]] [|[|j]] Hi Hj; try lia; rewrite ?(rdot_comm (nth 1 cell []) (nth 0 cell [])), ?G1, ?G2, ?P3; cbn [c0 nth rdot]; try lra.
    replace (b * co * (b * co) + (b * si * (b * si) + 0)) with (b * b * (si * si + co * co)) by ring. rewrite SC. ring. }
  assert (L0 : length c0 = 2%nat) by reflexivity. assert (V0 : Forall (fun r => length r = 2%nat) c0) by repeat constructor.
  set (e := 12 * u). assert (He : 0 <= e <= 1 / 10000) by (unfold e; lra). assert (Hu : u <= e) by (unfold e; lra).
  assert (Dc : Rabs (rcos (rdeg al) - co) <= e).
  { replace (rcos (rdeg al) - co) with ((rcos (rdeg al) - cos (rdeg al)) + (cos (rdeg al) - co)) by ring. eapply Rle_trans; [apply Rabs_triang|]. pose proof (tg_cos _ _ _ _ TG (rdeg al)). pose proof (tg_deg _ _ _ _ TG al Ral). pose proof (cos_lip (rdeg al) (al * PI / 180)). unfold e, co. lra. }
  assert (Ds : Rabs (rsin (rdeg al) - si) <= e).
  { replace (rsin (rdeg al) - si) with ((rsin (rdeg al) - sin (rdeg al)) + (sin (rdeg al) - si)) by ring. eapply Rle_trans; [apply Rabs_triang|]. pose proof (tg_sin _ _ _ _ TG (rdeg al)). pose proof (tg_deg _ _ _ _ TG al Ral). pose proof (sin_lip (rdeg al) (al * PI / 180)). unfold e, si. lra. }
  assert (Bc : Rabs co <= 1) by (apply Rabs_le; unfold co; pose proof (COS_bound (al * PI / 180)); lra). assert (Bs : Rabs si <= 1) by (apply Rabs_le; unfold si; pose proof (SIN_bound (al * PI / 180)); lra).
  assert (Ee : eta <= e * b / 10) by (unfold e; assert (0 <= u * b) by (apply Rmult_le_pos; lra); lra).
  pose proof (entry_err ar u eta e FL He Hu b co (rcos (rdeg al)) 1 ltac:(lra) Ee Bc ltac:(lra) ltac:(lra)) as X1. pose proof (entry_err ar u eta e FL He Hu b si (rsin (rdeg al)) 1 ltac:(lra) Ee Bs ltac:(lra) ltac:(lra)) as X2.
  eexists. split; [reflexivity|]. split; [split; [reflexivity|repeat constructor]|]. split; [intros [|[|i]] [|[|j]] Hij; try lia; reflexivity|]. split.
  { intros [|[|i]] Hi; try lia; unfold entry; cbn [nth]; [exact A0|].
    assert (S0 : 0 <= si) by (unfold si; apply sin_ge_0; pose proof PI_RGT_0; nra).
    assert (CO : co * co <= 1 / 4).
    { pose proof (HD 0%nat ltac:(lia)) as D1. pose proof (HD 1%nat ltac:(lia)) as D2. unfold rsum in D1, D2. cbn [seq map fold_right Nat.eqb] in D1, D2. rewrite (rdot_comm (nth 1 cell []) (nth 0 cell [])) in D2. rewrite <- vlen_sq, P1 in D1. rewrite <- vlen_sq, P2 in D2. rewrite P1, P2 in P3. rewrite P3 in D1, D2. set (g := a * b * co) in *. pose proof (Rabs_pos g).
      assert (G2 : g * g <= (a * a / 2) * (b * b / 2)). { replace (g * g) with (Rabs g * Rabs g) by (rewrite <- Rabs_mult; apply Rabs_right, Rle_ge, Rle_0_sqr). apply Rmult_le_compat; lra. }
      assert (0 < a * b) by (apply Rmult_lt_0_compat; auto). unfold g in G2. apply Rmult_le_reg_l with ((a * b) * (a * b)); [apply Rmult_lt_0_compat; auto|]. lra. }
    assert (S4 : 4 / 5 <= si) by nra. apply Rabs_le_both in X2. assert (4 / 5 * b <= b * si) by nra. assert ((1 + 12 / 10) * e * b <= 3 * (1 / 10000) * b) by (apply Rmult_le_compat_r; lra). lra. }
  set (cell' := [[a; 0]; [r_mul ar b (rcos (rdeg al)); r_mul ar b (rsin (rdeg al))]]).
  assert (ST : strained 2 c0 cell' (sqrt (2 * INR 2) * (53 * u))).
  { apply relative_strain; auto; try (apply (gram_dominant 2 cell c0 G HD)); try (repeat constructor; fail); try lra.
    assert (UB : 0 <= u * b) by (apply Rmult_le_pos; lra). assert (UA : 0 <= u * a) by (apply Rmult_le_pos; lra).
    intros [|[|r]] Hr; try lia; unfold vlength; rewrite <- G by lia.
    - change (sqrt (rdot (nth 0 cell []) (nth 0 cell []))) with (vlen (nth 0 cell [])). rewrite P1. cbn [cell' c0 nth]. unfold edist. cbn [sq_dist]. replace ((a - a) * (a - a) + ((0 - 0) * (0 - 0) + 0)) with 0 by ring. rewrite sqrt_0. lra.
    - change (sqrt (rdot (nth 1 cell []) (nth 1 cell []))) with (vlen (nth 1 cell [])). rewrite P2. cbn [cell' c0 nth]. unfold edist. cbn [sq_dist].
      set (x := r_mul ar b (rcos (rdeg al)) - b * co) in *. set (y := r_mul ar b (rsin (rdeg al)) - b * si) in *. pose proof (Rabs_pos x). pose proof (Rabs_pos y).
      apply Rle_trans with (sqrt ((Rabs x + Rabs y) * (Rabs x + Rabs y))); [apply sqrt_le_1_alt|rewrite sqrt_square by lra; unfold e in X1, X2; lra].
      assert (S : forall t, t * t = Rabs t * Rabs t) by (intros t; rewrite <- Rabs_mult; symmetry; apply Rabs_right, Rle_ge, Rle_0_sqr). rewrite (S x), (S y). assert (0 <= Rabs x * Rabs y) by (apply Rmult_le_pos; auto). lra. }
  intros x Lx. rewrite (gram_lengths 2 cell c0 x) by auto. eapply Rle_trans; [apply ST; auto|]. apply Rmult_le_compat_r; [apply sqrt_pos|]. replace (2 * INR 2) with (2 * 2) by (simpl; lra). rewrite sqrt_square by lra. lra.
Qed.

Definition gram3 (cell : list (list R)) (x y z : R) : R :=
  x * x * rdot (nth 0 cell []) (nth 0 cell []) + y * y * rdot (nth 1 cell []) (nth 1 cell []) + z * z * rdot (nth 2 cell []) (nth 2 cell []) +
  2 * (x * y * rdot (nth 0 cell []) (nth 1 cell []) + x * z * rdot (nth 0 cell []) (nth 2 cell []) + y * z * rdot (nth 1 cell []) (nth 2 cell [])).
Lemma gram3_length : forall cell x y z, square_matrix 3 cell -> 0 <= gram3 cell x y z /\ vlength (combination 3 cell [x; y; z]) = sqrt (gram3 cell x y z).
Proof.
  intros cell x y z [L V]. assert (E : rdot (combination 3 cell [x; y; z]) (combination 3 cell [x; y; z]) = gram3 cell x y z).
  { rewrite rdot_dot, combination_gram by auto. unfold rsum. cbn [seq map fold_right nth]. rewrite <- !rdot_dot. unfold gram3. rewrite (rdot_comm (nth 1 cell []) (nth 0 cell [])), (rdot_comm (nth 2 cell []) (nth 0 cell [])), (rdot_comm (nth 2 cell []) (nth 1 cell [])). ring. }
  split; [rewrite <- E, rdot_dot; apply dot_nonneg|]. unfold vlength. rewrite E. auto.
Qed.
Lemma strained_gram3 : forall cell cell' delta x y z, square_matrix 3 cell -> square_matrix 3 cell' -> 0 <= delta <= 1 / 10 -> strained 3 cell cell' delta ->
  Rabs (gram3 cell' x y z - gram3 cell x y z) <= 21 / 10 * delta * gram3 cell x y z /\ (1 - 2 * delta) * gram3 cell x y z <= gram3 cell' x y z.
Proof.
  intros cell cell' delta x y z HS HS' Hd ST. specialize (ST [x; y; z] eq_refl). destruct (gram3_length cell x y z HS) as [P E]. destruct (gram3_length cell' x y z HS') as [P' E']. rewrite E, E' in ST.
  pose proof (sqrt_sqrt _ P) as EQ. pose proof (sqrt_sqrt _ P') as EQ'. set (s := sqrt (gram3 cell x y z)) in *. set (s' := sqrt (gram3 cell' x y z)) in *.
  assert (S0 : 0 <= s) by apply sqrt_pos. assert (S0' : 0 <= s') by apply sqrt_pos. clearbody s s'. rewrite <- EQ, <- EQ'. apply Rabs_le_both in ST. destruct ST as [ST1 ST2].
  assert (D1 : s' * s' <= (s + delta * s) * (s + delta * s)) by (apply Rmult_le_compat; lra). assert (DS : 0 <= s - delta * s) by nra. assert (D2 : (s - delta * s) * (s - delta * s) <= s' * s') by (apply Rmult_le_compat; lra).
  assert (Q : 0 <= s * s) by (apply Rle_0_sqr). assert (Q1 : 0 <= delta * (s * s)) by (apply Rmult_le_pos; lra). assert (Q2 : delta * (delta * (s * s)) <= 1 / 10 * (delta * (s * s))) by (apply Rmult_le_compat_r; lra). assert (Q3 : 0 <= delta * (delta * (s * s))) by (apply Rmult_le_pos; lra).
  split; [apply Rabs_le; split; lra|lra].
Qed.
Lemma strained_products : forall delta p q g p' q' g', 0 < p -> 0 < q ->
  (forall x y, Rabs ((x * x * (p' * p') + y * y * (q' * q') + 2 * (x * y * g')) - (x * x * (p * p) + y * y * (q * q) + 2 * (x * y * g))) <= 21 / 10 * delta * (x * x * (p * p) + y * y * (q * q) + 2 * (x * y * g))) ->
  Rabs (g' - g) <= 21 / 10 * delta * (p * q).
Proof.
  intros delta p q g p' q' g' P Q H. pose proof (Rabs_le_both _ _ (H q p)) as [A1 A2]. pose proof (Rabs_le_both _ _ (H q (- p))) as [B1 B2].
  assert (PQ : 0 < p * q) by (apply Rmult_lt_0_compat; auto).
  apply Rabs_le. split; apply Rmult_le_reg_l with (4 * (p * q)); try lra; ring_simplify; ring_simplify in A1; ring_simplify in A2; ring_simplify in B1; ring_simplify in B2; lra.
Qed.

Theorem C83_dominant : forall cell cell' delta l, square_matrix 3 cell -> square_matrix 3 cell' -> 0 <= delta <= 1 / 10 -> strained 3 cell cell' delta ->
  0 < l -> (forall i, (i < 3)%nat -> l <= vlen (nth i cell [])) -> dominates (1 / 2 - 21 / 10 * delta * (cell_size cell / l)) 3 cell -> half_dominant 3 cell'.
Proof.
  intros cell cell' delta l HS HS' Hd ST L0 HL HD.
  assert (VS : forall i, rdot (nth i cell []) (nth i cell []) = vlen (nth i cell []) * vlen (nth i cell [])) by (intros; symmetry; apply vlen_sq).
  assert (VS' : forall i, rdot (nth i cell' []) (nth i cell' []) = vlen (nth i cell' []) * vlen (nth i cell' [])) by (intros; symmetry; apply vlen_sq).
  assert (CS : cell_size cell = vlen (nth 0 cell []) + vlen (nth 1 cell []) + vlen (nth 2 cell [])).
  { destruct HS as [Lc _]. destruct cell as [|r0 [|r1 [|r2 [|]]]]; try discriminate. unfold cell_size, rsum, vlen. cbn [map fold_right nth]. ring. }
  pose proof (HL 0%nat ltac:(lia)) as H0. pose proof (HL 1%nat ltac:(lia)) as H1. pose proof (HL 2%nat ltac:(lia)) as H2.
  set (p0 := vlen (nth 0 cell [])) in *. set (p1 := vlen (nth 1 cell [])) in *. set (p2 := vlen (nth 2 cell [])) in *.
  pose proof (fun x y z => strained_gram3 cell cell' delta x y z HS HS' Hd ST) as G. unfold gram3 in G. rewrite !VS, !VS' in G. fold p0 p1 p2 in G.
  assert (D01 : Rabs (rdot (nth 0 cell' []) (nth 1 cell' []) - rdot (nth 0 cell []) (nth 1 cell [])) <= 21 / 10 * delta * (p0 * p1)).
  { eapply strained_products; try lra. intros x y. pose proof (proj1 (G x y 0)) as Q. ring_simplify (0 * 0) (x * 0) (y * 0) in Q. rewrite !Rmult_0_l, !Rplus_0_r in Q. exact Q. }
  assert (D02 : Rabs (rdot (nth 0 cell' []) (nth 2 cell' []) - rdot (nth 0 cell []) (nth 2 cell [])) <= 21 / 10 * delta * (p0 * p2)).
  { eapply strained_products; try lra. intros x y. pose proof (proj1 (G x 0 y)) as Q. rewrite !Rmult_0_r, !Rmult_0_l, !Rplus_0_r, !Rplus_0_l in Q. exact Q. }
  assert (D12 : Rabs (rdot (nth 1 cell' []) (nth 2 cell' []) - rdot (nth 1 cell []) (nth 2 cell [])) <= 21 / 10 * delta * (p1 * p2)).
  { eapply strained_products; try lra. intros x y. pose proof (proj1 (G 0 x y)) as Q. rewrite !Rmult_0_l, !Rplus_0_l in Q. exact Q. }
  assert (S0 : (1 - 2 * delta) * (p0 * p0) <= rdot (nth 0 cell' []) (nth 0 cell' [])) by (rewrite VS'; pose proof (proj2 (G 1 0 0)); lra).
  assert (S1 : (1 - 2 * delta) * (p1 * p1) <= rdot (nth 1 cell' []) (nth 1 cell' [])) by (rewrite VS'; pose proof (proj2 (G 0 1 0)); lra).
  assert (S2 : (1 - 2 * delta) * (p2 * p2) <= rdot (nth 2 cell' []) (nth 2 cell' [])) by (rewrite VS'; pose proof (proj2 (G 0 0 1)); lra).
  assert (TR : forall x y d, Rabs (x - y) <= d -> Rabs x <= Rabs y + d). { intros x y d H. replace x with (y + (x - y)) at 1 by ring. eapply Rle_trans; [apply Rabs_triang|lra]. }
  apply TR in D01. apply TR in D02. apply TR in D12.
  assert (X : forall p, l <= p -> delta * ((p0 + p1 + p2) * p) <= delta * (cell_size cell / l) * (p * p)).
  { intros p Hp. rewrite CS. replace (delta * ((p0 + p1 + p2) / l) * (p * p)) with (delta * ((p0 + p1 + p2) * p) * (p / l)) by (field; lra). rewrite <- (Rmult_1_r (delta * ((p0 + p1 + p2) * p))) at 1. apply Rmult_le_compat_l; [repeat apply Rmult_le_pos; lra|]. apply Rmult_le_reg_r with l; auto. unfold Rdiv. rewrite Rmult_assoc, Rinv_l; lra. }
  pose proof (X p0 H0) as X0. pose proof (X p1 H1) as X1. pose proof (X p2 H2) as X2.
  assert (M : forall p q, l <= p -> l <= q -> 0 <= delta * (p * q)) by (intros p q Hp Hq; repeat apply Rmult_le_pos; lra).
  pose proof (M p0 p0 H0 H0). pose proof (M p1 p1 H1 H1). pose proof (M p2 p2 H2 H2).
  pose proof (HD 0%nat ltac:(lia)) as E0. pose proof (HD 1%nat ltac:(lia)) as E1. pose proof (HD 2%nat ltac:(lia)) as E2. unfold rsum in E0, E1, E2. cbn [seq map fold_right Nat.eqb] in E0, E1, E2. rewrite VS in E0, E1, E2. fold p0 in E0. fold p1 in E1. fold p2 in E2.
  rewrite (rdot_comm (nth 1 cell []) (nth 0 cell [])) in E1. rewrite (rdot_comm (nth 2 cell []) (nth 0 cell [])), (rdot_comm (nth 2 cell []) (nth 1 cell [])) in E2.
  set (K := cell_size cell / l) in *. clearbody K p0 p1 p2. clear G X M TR VS VS' HD ST HS HS' HL.
  intros [|[|[|i]]] Hi; try lia; unfold rsum; cbn [seq map fold_right Nat.eqb]; rewrite ?(rdot_comm (nth 1 cell' []) (nth 0 cell' [])), ?(rdot_comm (nth 2 cell' []) (nth 0 cell' [])), ?(rdot_comm (nth 2 cell' []) (nth 1 cell' [])); lra.
Qed.

Lemma strained_rows : forall cell cell' delta i, square_matrix 3 cell -> square_matrix 3 cell' -> 0 <= delta <= 1 / 10 -> strained 3 cell cell' delta -> (i < 3)%nat ->
  (1 - 2 * delta) * vlen (nth i cell []) <= vlen (nth i cell' []) <= (1 + 3 * delta) * vlen (nth i cell []).
Proof.
  intros cell cell' delta i HS HS' Hd ST Hi. pose proof (fun x y z => strained_gram3 cell cell' delta x y z HS HS' Hd ST) as G. unfold gram3 in G.
  assert (H : Rabs (rdot (nth i cell' []) (nth i cell' []) - rdot (nth i cell []) (nth i cell [])) <= 21 / 10 * delta * rdot (nth i cell []) (nth i cell []) /\ (1 - 2 * delta) * rdot (nth i cell []) (nth i cell []) <= rdot (nth i cell' []) (nth i cell' [])).
  { destruct i as [|[|[|i]]]; try lia; [pose proof (G 1 0 0) as Q|pose proof (G 0 1 0) as Q|pose proof (G 0 0 1) as Q]; repeat rewrite ?Rmult_0_r, ?Rmult_0_l, ?Rplus_0_r, ?Rplus_0_l, ?Rmult_1_l in Q; exact Q. }
  rewrite <- !vlen_sq in H. assert (P : forall v, 0 <= vlen v) by (intros; apply sqrt_pos). pose proof (P (nth i cell [])) as P1. pose proof (P (nth i cell' [])) as P2. set (x := vlen (nth i cell [])) in *. set (y := vlen (nth i cell' [])) in *. clearbody x y.
  destruct H as [H1 H2]. apply Rabs_le_both in H1. destruct H1 as [_ H1]. assert (X : 0 <= x * x) by apply Rle_0_sqr. assert (D : 0 <= delta * (x * x)) by (apply Rmult_le_pos; lra).
  assert (SQ : forall s t, 0 <= t -> s * s <= t * t -> s <= t) by (intros s t Ht Hst; destruct (Rle_or_lt s t); auto; assert (t * t < s * s) by nra; lra).
  split; apply SQ; auto; try (apply Rmult_le_pos; lra).
  - assert (delta * (delta * (x * x)) <= 1 / 10 * (delta * (x * x))) by (apply Rmult_le_compat_r; lra). lra.
  - assert (0 <= delta * (delta * (x * x))) by (apply Rmult_le_pos; lra). lra.
Qed.

Lemma finish_cells : forall tol uniquify (cell cell' : list (list R)) asym types ops cs warn dims, length cell = dims -> length cell' = dims -> Forall (fun p => length p = dims) asym -> 0 <= tol < 1 -> ops <> [] -> Forall (operation_ok dims) ops -> asym <> [] ->
  finish mod1 tol uniquify cell' asym types ops = Done (cs, warn) ->
  exists cs0, finish mod1 tol uniquify cell asym types ops = Done (cs0, warn) /\ carried dims cell cell' (ps_motif (cs_set cs0)) (ps_motif (cs_set cs)) /\
    positions_of (cs_set cs) = positions_of (cs_set cs0) /\ counts_of (cs_set cs) = counts_of (cs_set cs0).
Proof.
  intros tol uniquify cell cell' asym types ops cs warn dims Hc Hc' Hasym Ht Ho Hops Ha Q.
  destruct (C46_expansion dims tol uniquify cell' asym types ops cs warn Ht Ho Hops Ha Hasym Hc' Q) as (frac & origin & which & starts & mult & CV).
  unfold finish in *. destruct (expand_asym_unit mod1 tol uniquify asym ops) as [[[f o] w]| | |] eqn:X; try discriminate. cbn [obind] in *.
  destruct (np_unique_counts o) as [vs ms]. destruct (take types o) as [ts| | |]; try discriminate. cbn [obind] in *. injection Q as <- <-.
  eexists. split; [reflexivity|]. cbn [cs_set ps_motif]. split; [|split; reflexivity].
  split; [rewrite !map_length; reflexivity|]. exists (repeat 0 dims), (fun i => nth i f []).
  assert (LF : Forall (fun p => length p = dims) f).
  { destruct (expand_form tol asym ops uniquify f o w Ha X) as (K & EF & EO & HK). assert (HK' : (forall j, (j < length asym)%nat -> K j = fresh tol asym ops j) \/ (forall j, (j < length asym)%nat -> keeps tol asym ops K j)) by tauto.
    pose proof (kept_expansion dims tol asym ops (proj2 Ht) Hops Hasym K (form_filter tol asym ops K HK')) as EX. rewrite <- EF, <- EO in EX. pose proof (ex_unit _ _ _ _ _ _ _ EX) as G. eapply Forall_impl; [|exact G]. intros p [Hp _]. exact Hp. }
  rewrite map_length. intros i Hi. assert (LI : length (nth i f []) = dims) by (rewrite Forall_forall in LF; apply LF, nth_In; auto). split; [exact LI|].
  rewrite !(SitesExpand.nth_map' _ _ _ _ _ [] []) by auto. rewrite !to_cartesian_ok by (refine (eq_trans LI (eq_sym _)); assumption). unfold cartesian, combination. replace (length cell) with dims by (symmetry; exact Hc). replace (length cell') with dims by (symmetry; exact Hc'). split; [apply map_ext_in; intros; reflexivity|].
  apply map_ext_in. intros j Hj. apply in_seq in Hj. rewrite nth_repeat. rewrite Rplus_0_r. reflexivity.
Qed.

(** A crystal given by lengths and angles, its asymmetric unit and operations: from the numbers in the
    file to the AMD, with the cell computed in binary64. *)
Theorem C83_amd_computed : forall u ar rdeg rcos rsin cell cell' a b c al be ga l s tol asym types ops uniquify k, binary64 u ar -> representable_dots ar -> trig_like u rdeg rcos rsin ->
  square_matrix 3 cell -> has_parameters cell a b c al be ga -> half_dominant 3 cell -> 1 / 500 <= l -> l <= a -> l <= b -> l <= c -> let L := a + b + c in L <= 900 ->
  r_cellpar_to_cell ar rdeg rcos rsin [a; b; c; al; be; ga] = Done cell' -> half_dominant 3 cell' ->
  0 <= s -> tol < 1 / 3 -> ops <> [] -> Forall (operation_ok 3) ops -> asym <> [] -> Forall (fun p => length p = 3%nat) asym -> length types = length asym ->
  images_within s asym ops -> decided_sites tol (22 * u * (s + 1)) asym ops ->
  let v := 24 * u * (1 + 21 * (L / l)) in
  exists cs cs' warn exact rounded fuel0,
    finish mod1 tol uniquify cell asym types ops = Done (cs, warn) /\
    @finish R (num_of ar) (np_mod1 ar) tol uniquify cell' asym types ops = Done (cs', warn) /\ length exact = k /\
    let m := INR (length (ps_motif (cs_set cs))) in
    (m <= 50000 -> forall fuel, (fuel0 <= fuel)%nat ->
      AMD fuel (cs_set cs) k = Done exact /\ @AMD R (num_of ar) fuel (cs_set cs') k = Done rounded /\
      Forall2 (fun a c => Rabs (c - a) <= 1600 * u * a + 31 * u * (s + 1) * L + (110 + 3 * m) * v * (2 * a + 31 * u * (s + 1) * L + 3 * L)) exact rounded).
Proof.
  intros u ar rdeg rcos rsin cell cell' a b c al be ga l s tol asym types ops uniquify k BI HR TG HS HP HD Hl Ha Hb Hc L HL HQ HD' Hs Ht Ho Hops Hne Hasym Hty HI HDS v.
  pose proof (binary64_u u ar BI) as BU. pose proof u64_pos as U0. assert (US : u64 <= 1 / 9007199254740992) by (unfold u64; simpl; lra).
  assert (B0 : powerRZ 2 (-400) <= 1 / 1000). { apply Rle_trans with (powerRZ 2 (-10)); [apply two_le; lia|simpl; lra]. }
  pose proof (b64_for u ar l BI ltac:(lra)) as (FL & Hu & _ & HeL & _).
  assert (El : eta64 <= u * l). { apply Rle_trans with (u64 * powerRZ 2 (-400)); [unfold u64, eta64; rewrite <- two_add; apply two_le; lia|]. pose proof (two_pos (-400)). apply Rmult_le_compat; lra. }
  assert (Mu : forall t, l <= t -> eta64 <= u * t) by (intros t T; eapply Rle_trans; [exact El|apply Rmult_le_compat_l; lra]).
  assert (E1 : eta64 <= u). { apply Rle_trans with u64; [unfold u64, eta64; apply two_le; lia|lra]. }
  destruct (C83_cell ar u eta64 rdeg rcos rsin cell a b c al be ga FL TG ltac:(lra) E1 (Mu b Hb) (Mu c Hc) HS HP HD ltac:(lra) ltac:(lra) ltac:(lra)) as (c' & Q' & HS' & _ & _ & ST). rewrite HQ in Q'. injection Q' as <-.
  assert (Hdel : 0 <= 1600 * u <= 1 / 1000000) by lra.
  pose proof (fun i => strained_rows cell cell' (1600 * u) i HS HS' ltac:(lra) ST) as RW.
  destruct HP as [P1 P2 P3 _ _ _].
  assert (VL : forall i, (i < 3)%nat -> l <= vlen (nth i cell [])) by (intros [|[|[|i]]] Hi; try lia; congruence || (rewrite ?P1, ?P2, ?P3; auto)).
  set (l' := (1 - 2 * (1600 * u)) * l). assert (Hl' : 999 / 1000 * l <= l') by (unfold l'; nra).
  assert (VL' : forall i, (i < 3)%nat -> l' <= vlength (nth i cell' [])). { intros i Hi. eapply Rle_trans; [|apply (RW i Hi)]. unfold l'. apply Rmult_le_compat_l; [lra|auto]. }
  pose proof HS as [LS VS]. pose proof HS' as [LS' VS'].
  pose proof (dominant_inverse 3 cell' LS' VS' HD' l' ltac:(lra) VL') as IW.
  pose proof (dominant_inverse 3 cell LS VS HD l ltac:(lra) VL) as (dual & DB & _).
  set (w := 3 / (2 * l')) in *. assert (W : 0 <= w <= 16 / 10 / l).
  { unfold w. split; [apply Rmult_le_pos; [lra|left; apply Rinv_0_lt_compat; lra]|]. apply Rmult_le_reg_r with (2 * l'); [lra|]. unfold Rdiv at 1. rewrite Rmult_assoc, Rinv_l by lra. apply Rmult_le_reg_r with l; [lra|]. replace (16 / 10 / l * (2 * l') * l) with (32 / 10 * l') by (field; lra). lra. }
  assert (CS' : l' <= cell_size cell' <= (1 + 3 * (1600 * u)) * L).
  { pose proof (RW 0%nat ltac:(lia)) as R0. pose proof (RW 1%nat ltac:(lia)) as R1. pose proof (RW 2%nat ltac:(lia)) as R2. rewrite P1 in R0. rewrite P2 in R1. rewrite P3 in R2. pose proof (VL' 0%nat ltac:(lia)) as V0.
    assert (E : cell_size cell' = vlen (nth 0 cell' []) + vlen (nth 1 cell' []) + vlen (nth 2 cell' [])).
    { destruct cell' as [|r0 [|r1 [|r2 [|]]]]; try discriminate. unfold cell_size, rsum, vlen. cbn [map fold_right nth]. ring. }
    rewrite E. change (vlength (nth 0 cell' [])) with (vlen (nth 0 cell' [])) in V0. assert (0 <= (1 - 2 * (1600 * u)) * b) by (apply Rmult_le_pos; lra). assert (0 <= (1 - 2 * (1600 * u)) * c) by (apply Rmult_le_pos; lra). unfold L. lra. }
  assert (L0 : 0 < L) by (unfold L; lra).
  assert (CS2 : cell_size cell' <= 10001 / 10000 * L) by (eapply Rle_trans; [apply CS'|]; apply Rmult_le_compat_r; lra).
  assert (L9 : 16 / 10 / l <= 1000). { apply Rmult_le_reg_r with l; [lra|]. unfold Rdiv. rewrite Rmult_assoc, Rinv_l by lra. lra. }
  assert (T0 : 0 <= tol < 1).
  { split; [|lra]. destruct HDS as [D _]. assert (0 <= 22 * u * (s + 1)) by (repeat apply Rmult_le_pos; lra). lra. }
  assert (RG : powerRZ 2 (-400) <= cell_size cell' <= 1000) by (clearbody L l'; split; lra). assert (W9 : w <= 1000) by (clearbody w; lra).
  destruct (C80_amd_binary64 u ar s tol w 3 cell' asym types ops uniquify k BI HR Hs Ht ltac:(lia) LS' VS' Ho Hops Hne Hasym Hty HI HDS RG W9 IW HD') as (cs1 & cs' & warn & ex1 & rounded & f1 & F1 & F' & Le & H).
  destruct (finish_cells tol uniquify cell cell' asym types ops cs1 warn 3 LS LS' Hasym T0 Ho Hops Hne F1) as (cs & F & CA & EP & EC).
  destruct (C67_wf 3 tol uniquify cell asym types ops cs warn ltac:(lia) T0 Ho Hops Hne Hasym LS VS F) as (Wf & IC & Ec & NS). destruct (NS (ex_intro _ dual DB) k) as (exact & f0 & A).
  destruct (C67_wf 3 tol uniquify cell' asym types ops cs1 warn ltac:(lia) T0 Ho Hops Hne Hasym LS' VS' F1) as (Wf1 & IC1 & Ec1 & _).
  assert (LE : length exact = k) by (destruct (AMD_Done _ _ _ _ _ Wf (A f0 (le_n _))) as (rows & _ & _ & ->); unfold CalcProofs2.amd_of; rewrite map_length, seq_length; auto).
  exists cs, cs', warn, exact, rounded, (Nat.max f0 f1). do 3 (split; [assumption|]). intros m Hm fuel Hf.
  assert (Lm : length (ps_motif (cs_set cs1)) = length (ps_motif (cs_set cs))) by apply CA.
  rewrite Lm in H. fold m in H. destruct (H Hm fuel ltac:(lia)) as (A1 & A' & B). split; [apply A; lia|]. split; [exact A'|].
  assert (D : forall j, (j < k)%nat -> Rabs (nth j ex1 0 - nth j exact 0) <= 1600 * u * nth j exact 0).
  { intros j Hj. eapply (C82_amd_asym 3 (cs_set cs) (cs_set cs1)); eauto; try lra; try lia; rewrite ?Ec, ?Ec1; auto.
    - apply in_cell_spread; auto.
    - apply in_cell_spread; auto. }
  assert (LR : length rounded = k) by (rewrite <- Le; symmetry; apply (RoundCalc.F2_len _ _ _ _ _ B)).
  apply (F2_of_nth _ _ _ 0 0); [congruence|]. intros j Hj. rewrite LE in Hj. pose proof (RoundCalc.F2_nth _ _ _ _ _ 0 0 B j ltac:(rewrite Le; exact Hj)) as Bj. cbn beta in Bj. specialize (D j Hj).
  set (x := nth j exact 0) in *. set (y := nth j ex1 0) in *. set (z := nth j rounded 0) in *.
  assert (X0 : 0 <= x). { pose proof (Rabs_pos (y - x)). destruct (Rle_or_lt 0 x); auto. assert (1600 * u * x < 0) by nra. lra. }
  assert (Y : y <= 1001 / 1000 * x). { apply Rabs_le_both in D. assert (1600 * u * x <= 1 / 1000000 * x) by (apply Rmult_le_compat_r; lra). lra. }
  replace (z - x) with ((z - y) + (y - x)) by ring. eapply Rle_trans; [apply Rabs_triang|]. rewrite Rplus_comm. rewrite (Rplus_assoc (1600 * u * x)). apply Rplus_le_compat; [exact D|]. eapply Rle_trans; [exact Bj|].
  set (L' := cell_size cell') in *. assert (US1 : 0 <= u * (s + 1)) by (apply Rmult_le_pos; lra).
  assert (A3 : 30 * u * (s + 1) * L' <= 31 * u * (s + 1) * L). { apply Rle_trans with (30 * u * (s + 1) * (10001 / 10000 * L)); [apply Rmult_le_compat_l; lra|]. assert (0 <= u * (s + 1) * L) by (apply Rmult_le_pos; lra). lra. }
  apply Rplus_le_compat; [exact A3|]. assert (M0 : 0 <= m) by apply pos_INR.
  assert (LW : L' * w <= 161 / 100 * (L / l)). { apply Rle_trans with ((10001 / 10000 * L) * (16 / 10 / l)); [apply Rmult_le_compat; lra|]. replace (10001 / 10000 * L * (16 / 10 / l)) with (160016 / 100000 * (L / l)) by (field; lra). apply Rmult_le_compat_r; [|lra]. apply Rmult_le_pos; [lra|left; apply Rinv_0_lt_compat; lra]. }
  assert (LW0 : 0 <= L' * w) by (apply Rmult_le_pos; lra).
  assert (V : 0 <= 24 * u * (1 + 13 * L' * w) <= v). { split; [apply Rmult_le_pos; lra|]. unfold v. apply Rmult_le_compat_l; lra. }
  apply Rmult_le_compat; [apply Rmult_le_pos; lra| |apply Rmult_le_compat_l; lra|lra].
  assert (0 <= 30 * u * (s + 1) * L') by (repeat apply Rmult_le_pos; lra). apply Rabs_le_both in D. nra.
Qed.

(** Cells that are not at the limit of almost orthogonal ones. *)
Theorem C83_amd_binary64 : forall u ar rdeg rcos rsin cell a b c al be ga l s tol asym types ops uniquify k, binary64 u ar -> representable_dots ar -> trig_like u rdeg rcos rsin ->
  square_matrix 3 cell -> has_parameters cell a b c al be ga -> 1 / 500 <= l -> l <= a -> l <= b -> l <= c -> let L := a + b + c in L <= 900 ->
  dominates (1 / 2 - 3360 * u * (L / l)) 3 cell ->
  0 <= s -> tol < 1 / 3 -> ops <> [] -> Forall (operation_ok 3) ops -> asym <> [] -> Forall (fun p => length p = 3%nat) asym -> length types = length asym ->
  images_within s asym ops -> decided_sites tol (22 * u * (s + 1)) asym ops ->
  let v := 24 * u * (1 + 21 * (L / l)) in
  exists cell' cs cs' warn exact rounded fuel0,
    r_cellpar_to_cell ar rdeg rcos rsin [a; b; c; al; be; ga] = Done cell' /\
    finish mod1 tol uniquify cell asym types ops = Done (cs, warn) /\
    @finish R (num_of ar) (np_mod1 ar) tol uniquify cell' asym types ops = Done (cs', warn) /\ length exact = k /\
    let m := INR (length (ps_motif (cs_set cs))) in
    (m <= 50000 -> forall fuel, (fuel0 <= fuel)%nat ->
      AMD fuel (cs_set cs) k = Done exact /\ @AMD R (num_of ar) fuel (cs_set cs') k = Done rounded /\
      Forall2 (fun a c => Rabs (c - a) <= 1600 * u * a + 31 * u * (s + 1) * L + (110 + 3 * m) * v * (2 * a + 31 * u * (s + 1) * L + 3 * L)) exact rounded).
Proof.
  intros u ar rdeg rcos rsin cell a b c al be ga l s tol asym types ops uniquify k BI HR TG HS HP Hl Ha Hb Hc L HL HD Hs Ht Ho Hops Hne Hasym Hty HI HDS v.
  pose proof (binary64_u u ar BI) as BU. pose proof u64_pos as U0. assert (US : u64 <= 1 / 9007199254740992) by (unfold u64; simpl; lra).
  assert (L0 : 0 <= L / l) by (apply Rmult_le_pos; [unfold L; lra|left; apply Rinv_0_lt_compat; lra]).
  assert (HD2 : half_dominant 3 cell).
  { intros i Hi. eapply Rle_trans; [apply HD; auto|]. assert (0 <= rdot (nth i cell []) (nth i cell [])) by (rewrite rdot_dot; apply dot_nonneg). clear HI HDS. set (K := L / l) in *. clearbody K. assert (0 <= 3360 * u * K * rdot (nth i cell []) (nth i cell [])) by (apply Rmult_le_pos; [apply Rmult_le_pos; lra|assumption]). lra. }
  assert (B0 : powerRZ 2 (-400) <= 1 / 1000). { apply Rle_trans with (powerRZ 2 (-10)); [apply two_le; lia|simpl; lra]. }
  pose proof (b64_for u ar l BI ltac:(lra)) as (FL & _).
  assert (El : eta64 <= u * l). { apply Rle_trans with (u64 * powerRZ 2 (-400)); [unfold u64, eta64; rewrite <- two_add; apply two_le; lia|]. pose proof (two_pos (-400)). apply Rmult_le_compat; lra. }
  assert (Mu : forall t, l <= t -> eta64 <= u * t) by (intros t T; eapply Rle_trans; [exact El|apply Rmult_le_compat_l; lra]).
  assert (E1 : eta64 <= u). { apply Rle_trans with u64; [unfold u64, eta64; apply two_le; lia|lra]. }
  destruct (C83_cell ar u eta64 rdeg rcos rsin cell a b c al be ga FL TG ltac:(lra) E1 (Mu b Hb) (Mu c Hc) HS HP HD2 ltac:(lra) ltac:(lra) ltac:(lra)) as (cell' & Q & HS' & _ & _ & ST).
  assert (HD' : half_dominant 3 cell').
  { pose proof HP as [P1 P2 P3 _ _ _]. apply (C83_dominant cell cell' (1600 * u) l); auto; try lra.
    - intros [|[|[|i]]] Hi; try lia; rewrite ?P1, ?P2, ?P3; auto.
    - assert (E : cell_size cell = L). { destruct HS as [Lc _]. destruct cell as [|r0 [|r1 [|r2 [|]]]]; try discriminate. unfold cell_size, rsum. cbn [map fold_right]. cbn [nth] in P1, P2, P3. unfold vlen in P1, P2, P3. rewrite P1, P2, P3. unfold L. ring. }
      rewrite E. replace (21 / 10 * (1600 * u) * (L / l)) with (3360 * u * (L / l)) by lra. exact HD. }
  destruct (C83_amd_computed u ar rdeg rcos rsin cell cell' a b c al be ga l s tol asym types ops uniquify k BI HR TG HS HP HD2 Hl Ha Hb Hc HL Q HD' Hs Ht Ho Hops Hne Hasym Hty HI HDS) as (cs & cs' & warn & ex & ro & f & H).
  exists cell', cs, cs', warn, ex, ro, f. split; [exact Q|exact H].
Qed.

(** ** Examples *)
(** Angles times a rounded constant, and correctly rounded cosines and sines. *)
Definition deg64 (x : R) : R := round64 (x * round64 (PI / 180)).
Definition cos64 (x : R) : R := round64 (cos x).
Definition sin64 (x : R) : R := round64 (sin x).
Lemma trig64 : trig_like u64 deg64 cos64 sin64.
Proof.
  pose proof u64_pos as U0. assert (US : u64 <= 1 / 9007199254740992) by (unfold u64; simpl; lra). assert (E1 : eta64 <= u64 / 1000). { apply Rle_trans with (powerRZ 2 (-10) * u64); [unfold u64, eta64; rewrite <- two_add; apply two_le; lia|simpl; lra]. } assert (E0 : 0 <= eta64) by (left; apply two_pos).
  pose proof PI_small as PS. constructor.
  - intros x Hx. unfold deg64. pose proof (round64_err (PI / 180)) as A. set (c := round64 (PI / 180)) in *. pose proof (round64_err (x * c)) as B. rewrite (Rabs_right (PI / 180)) in A by lra.
    assert (A0 : u64 * (PI / 180) <= u64 * (17 / 900)) by (apply Rmult_le_compat_l; lra). assert (A1 : Rabs (c - PI / 180) <= u64 / 50) by lra. apply Rabs_le_both in A1. assert (C : 0 <= c <= 1 / 50) by lra.
    assert (XC : 0 <= x * c <= 18 / 5) by (split; [apply Rmult_le_pos; lra|apply Rle_trans with (180 * (1 / 50)); [apply Rmult_le_compat; lra|lra]]). rewrite (Rabs_right (x * c)) in B by lra.
    replace (round64 (x * c) - x * PI / 180) with ((round64 (x * c) - x * c) + x * (c - PI / 180)) by field. eapply Rle_trans; [apply Rabs_triang|]. rewrite (Rabs_mult x), (Rabs_right x) by lra.
    assert (x * Rabs (c - PI / 180) <= 180 * (u64 / 50)) by (apply Rmult_le_compat; [lra|apply Rabs_pos|lra|apply Rabs_le; lra]). assert (u64 * (x * c) <= u64 * (18 / 5)) by (apply Rmult_le_compat_l; lra). lra.
  - intros x. unfold cos64. eapply Rle_trans; [apply round64_err|]. assert (Rabs (cos x) <= 1) by (apply Rabs_le; pose proof (COS_bound x); lra). assert (u64 * Rabs (cos x) <= u64 * 1) by (apply Rmult_le_compat_l; lra). lra.
  - intros x. unfold sin64. eapply Rle_trans; [apply round64_err|]. assert (Rabs (sin x) <= 1) by (apply Rabs_le; pose proof (SIN_bound x); lra). assert (u64 * Rabs (sin x) <= u64 * 1) by (apply Rmult_le_compat_l; lra). lra.
Qed.

(** A monoclinic cell with sides 4, 5 and 6, and an angle of 100 degrees; a site and its image under the inversion. *)
Definition monoclinic : list (list R) := [[4; 0; 0]; [0; 5; 0]; [6 * cos (100 * PI / 180); 0; 6 * sin (100 * PI / 180)]].
Definition space_ops : list operation := [([[1; 0; 0]; [0; 1; 0]; [0; 0; 1]], [0; 0; 0]); ([[-1; 0; 0]; [0; -1; 0]; [0; 0; -1]], [0; 0; 0])].
Definition space_site : list (list R) := [[1 / 8; 1 / 3; 1 / 4]].

Lemma root_of : forall x y, 0 <= y -> x = y * y -> sqrt x = y.
Proof. intros x y H ->. apply sqrt_square. exact H. Qed.
Lemma monoclinic_parameters : square_matrix 3 monoclinic /\ has_parameters monoclinic 4 5 6 90 100 90.
Proof.
  split; [split; [reflexivity|repeat constructor]|].
  assert (SC : sin (100 * PI / 180) * sin (100 * PI / 180) + cos (100 * PI / 180) * cos (100 * PI / 180) = 1) by (pose proof (sin2_cos2 (100 * PI / 180)) as Q; unfold Rsqr in Q; exact Q).
  assert (V0 : vlen (nth 0 monoclinic []) = 4) by (apply root_of; cbn [monoclinic nth rdot]; lra). assert (V1 : vlen (nth 1 monoclinic []) = 5) by (apply root_of; cbn [monoclinic nth rdot]; lra).
  assert (V2 : vlen (nth 2 monoclinic []) = 6) by (apply root_of; cbn [monoclinic nth rdot]; [lra|]; set (p := cos (100 * PI / 180)) in *; set (q := sin (100 * PI / 180)) in *; replace (6 * 6) with (6 * 6 * (q * q + p * p)) by (rewrite SC; ring); ring).
  constructor; auto; (split; [lra|]); rewrite ?V0, ?V1, ?V2, ?cos_90; cbn [monoclinic nth rdot]; lra.
Qed.
Lemma monoclinic_dominates : forall m, m <= 1 / 10 -> dominates (1 / 2 - m) 3 monoclinic.
Proof.
  intros m Hm. assert (B : Rabs (cos (100 * PI / 180)) <= 1 / 5). { pose proof (cos_lip (100 * PI / 180) (90 * PI / 180)) as Q. rewrite cos_90, Rminus_0_r in Q. pose proof PI_small. rewrite (Rabs_right (100 * PI / 180 - 90 * PI / 180)) in Q by lra. lra. }
  destruct monoclinic_parameters as [_ [V0 V1 V2 _ _ _]].
  assert (R0 : rdot (nth 0 monoclinic []) (nth 0 monoclinic []) = 16) by (rewrite <- vlen_sq, V0; lra). assert (R1 : rdot (nth 1 monoclinic []) (nth 1 monoclinic []) = 25) by (rewrite <- vlen_sq, V1; lra). assert (R2 : rdot (nth 2 monoclinic []) (nth 2 monoclinic []) = 36) by (rewrite <- vlen_sq, V2; lra).
  assert (D01 : rdot (nth 0 monoclinic []) (nth 1 monoclinic []) = 0) by (cbn [monoclinic nth rdot]; lra). assert (D12 : rdot (nth 1 monoclinic []) (nth 2 monoclinic []) = 0) by (cbn [monoclinic nth rdot]; lra). assert (D02 : rdot (nth 0 monoclinic []) (nth 2 monoclinic []) = 24 * cos (100 * PI / 180)) by (cbn [monoclinic nth rdot]; lra).
  intros [|[|[|i]]] Hi; try lia; unfold rsum; cbn [seq map fold_right Nat.eqb]; rewrite ?(rdot_comm (nth 1 monoclinic []) (nth 0 monoclinic [])), ?(rdot_comm (nth 2 monoclinic []) (nth 0 monoclinic [])), ?(rdot_comm (nth 2 monoclinic []) (nth 1 monoclinic [])), ?R0, ?R1, ?R2, ?D01, ?D12, ?D02, ?Rabs_R0, ?Rabs_mult, ?(Rabs_right 24) by lra; lra.
Qed.
Lemma space_within : images_within 1 space_site space_ops.
Proof.
  assert (A1 : Rabs 1 = 1) by (apply Rabs_right; lra). assert (A2 : Rabs (-1) = 1) by (rewrite Rabs_left; lra). assert (A3 : Rabs (1 / 8) = 1 / 8) by (apply Rabs_right; lra). assert (A4 : Rabs (1 / 3) = 1 / 3) by (apply Rabs_right; lra). assert (A5 : Rabs (1 / 4) = 1 / 4) by (apply Rabs_right; lra).
  intros p g j [<-|[]] Hg Hj. destruct Hg as [<-|[<-|[]]]; destruct j as [|[|[|j]]]; cbn in Hj; try lia; unfold rdot, rsum; cbn; rewrite ?A1, ?A2, ?A3, ?A4, ?A5, ?Rabs_R0; lra.
Qed.
Lemma space_decided : forall m, m <= 1 / 1000 -> decided_sites (1 / 1000) m space_site space_ops.
Proof.
  intros m Hm. split; [lra|]. assert (D : forall x, 0 <= 1 / 1000 - m -> x = 0 -> exists n, Rabs (x - IZR n) <= 1 / 1000 - m) by (intros x H ->; exists 0%Z; rewrite Rminus_0_r, Rabs_R0; lra).
  intros p q g h [<-|[]] [<-|[]] [<-|[<-|[]]] [<-|[<-|[]]].
  - left. intros [|[|[|j]]] Hj; cbn in Hj; try lia; apply D; try lra; unfold affine, rdot, rsum; cbn; lra.
  - right. exists 0%nat. split; [cbn; lia|]. intros n. destruct (quarter_int n) as [A _]. replace (nth 0 _ 0 - nth 0 _ 0) with (1 / 4) by (unfold affine, rdot, rsum; cbn; lra). lra.
  - right. exists 0%nat. split; [cbn; lia|]. intros n. destruct (quarter_int n) as [_ A]. replace (nth 0 _ 0 - nth 0 _ 0) with (- (1 / 4)) by (unfold affine, rdot, rsum; cbn; lra). lra.
  - left. intros [|[|[|j]]] Hj; cbn in Hj; try lia; apply D; try lra; unfold affine, rdot, rsum; cbn; lra.
Qed.

(** From its lengths and angles to k columns of AMD, all in binary64. *)
Example C83_case : forall k, exists cell' cs cs' warn exact rounded fuel0,
  r_cellpar_to_cell b64 deg64 cos64 sin64 [4; 5; 6; 90; 100; 90] = Done cell' /\
  finish mod1 (1 / 1000) true monoclinic space_site [6%nat] space_ops = Done (cs, warn) /\
  @finish R (num_of b64) (np_mod1 b64) (1 / 1000) true cell' space_site [6%nat] space_ops = Done (cs', warn) /\ length exact = k /\
  (INR (length (ps_motif (cs_set cs))) <= 50000 -> forall fuel, (fuel0 <= fuel)%nat -> AMD fuel (cs_set cs) k = Done exact /\ @AMD R (num_of b64) fuel (cs_set cs') k = Done rounded).
Proof.
  intros k. assert (U : 0 < u64 <= 1 / 9007199254740992) by (split; [apply u64_pos|unfold u64; simpl; lra]). destruct monoclinic_parameters as [SM HP].
  destruct (C83_amd_binary64 u64 b64 deg64 cos64 sin64 monoclinic 4 5 6 90 100 90 4 1 (1 / 1000) space_site [6%nat] space_ops true k) as (cell' & cs & cs' & warn & a & c & f & Q & E & E' & La & H); try lra.
  - exact b64_binary64.
  - exact b64_dots.
  - exact trig64.
  - exact SM.
  - exact HP.
  - apply monoclinic_dominates. lra.
  - discriminate.
  - repeat (constructor; [split; [reflexivity|split; [repeat constructor|reflexivity]]|]). constructor.
  - discriminate.
  - repeat constructor.
  - reflexivity.
  - exact space_within.
  - apply space_decided. lra.
  - exists cell', cs, cs', warn, a, c, f. do 4 (split; [assumption|]). intros Hm fuel Hf. destruct (H Hm fuel Hf) as (A & B & _). split; assumption.
Qed.

Definition oblique : list (list R) := [[4; 0]; [6 * cos (100 * PI / 180); 6 * sin (100 * PI / 180)]].
Example C83_case_2D : has_parameters_2D oblique 4 6 100 /\ half_dominant 2 oblique /\
  exists cell', r_cellpar_to_cell_2D b64 deg64 cos64 sin64 [4; 6; 100] = Done cell' /\ square_matrix 2 cell' /\ lower_triangular 2 cell' /\ (forall i, (i < 2)%nat -> 0 < entry cell' i i) /\ strained 2 oblique cell' (110 * u64).
Proof.
  assert (U : 0 < u64 <= 1 / 9007199254740992) by (split; [apply u64_pos|unfold u64; simpl; lra]).
  assert (SC : sin (100 * PI / 180) * sin (100 * PI / 180) + cos (100 * PI / 180) * cos (100 * PI / 180) = 1) by (pose proof (sin2_cos2 (100 * PI / 180)) as Q; unfold Rsqr in Q; exact Q).
  assert (B : Rabs (cos (100 * PI / 180)) <= 1 / 5). { pose proof (cos_lip (100 * PI / 180) (90 * PI / 180)) as Q. rewrite cos_90, Rminus_0_r in Q. pose proof PI_small. rewrite (Rabs_right (100 * PI / 180 - 90 * PI / 180)) in Q by lra. lra. }
  set (p := cos (100 * PI / 180)) in *. set (q := sin (100 * PI / 180)) in *.
  assert (V0 : vlen (nth 0 oblique []) = 4) by (apply root_of; cbn [oblique nth rdot]; lra).
  assert (V1 : vlen (nth 1 oblique []) = 6) by (apply root_of; [lra|]; cbn [oblique nth rdot]; fold p q; replace (6 * 6) with (6 * 6 * (q * q + p * p)) by (rewrite SC; ring); ring).
  assert (D : rdot (nth 0 oblique []) (nth 1 oblique []) = 24 * p) by (cbn [oblique nth rdot]; fold p q; lra).
  assert (HP : has_parameters_2D oblique 4 6 100) by (constructor; auto; split; [lra|]; rewrite V0, V1, D; fold p; lra).
  assert (HD : half_dominant 2 oblique).
  { intros [|[|i]] Hi; try lia; unfold rsum; cbn [seq map fold_right Nat.eqb]; rewrite ?(rdot_comm (nth 1 oblique []) (nth 0 oblique [])), D, <- vlen_sq, ?V0, ?V1, Rabs_mult, (Rabs_right 24) by lra; lra. }
  split; [exact HP|]. split; [exact HD|]. assert (E1 : eta64 <= u64) by (unfold u64, eta64; apply two_le; lia).
  apply (C83_cell_2D b64 u64 eta64 deg64 cos64 sin64 oblique 4 6 100); auto; try lra.
  - apply b64_float_like, b64_binary64.
  - exact trig64.
  - split; [reflexivity|repeat constructor].
Qed.

Print Assumptions C83_cell.
Print Assumptions C83_cell_2D.
Print Assumptions C83_dominant.
Print Assumptions C83_amd_computed.
Print Assumptions C83_amd_binary64.
Print Assumptions C83_case.
