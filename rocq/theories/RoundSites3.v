(** Cartesian coordinates of an expanded asymmetric unit with rounded operations. *)
From Coq Require Import List ZArith Arith Bool Lia Reals Lra Psatz Permutation.
From Verif Require Import Num Base Outcome NNModel VecR SpecGeom SpecDet NNProofs NNSpecProofs NNComplete NNInvariance CalcModel CalcProofs CompareModel DetProofs Props_PPC GramProofs AsymProofs
  SitesModel SpecSites SitesProofs SitesExpand SymmetryProofs Props_Sites SpecCont RoundModel SpecRound RoundSum RoundProofs RoundGeom RoundCalc RoundSitesModel SpecRoundSites RoundSites RoundSites2.
Import ListNotations.
Open Scope R_scope.
Open Scope list_scope.
Notation length := List.length.

Lemma norm_le_weighted : forall (v w : list R) a c n, length v = n -> length w = n -> (n <= 4)%nat -> 0 <= a -> 0 <= c ->
  (forall j, (j < n)%nat -> Rabs (nth j v 0) <= a * nth j w 0 + c) -> norm v <= a * norm w + 2 * c.
Proof.
  intros v w a c n Lv Lw H4 Ha Hc H. apply Rle_trans with (norm (vadd (vscale a w) (repeat c n))).
  - apply norm_pointwise; [rewrite vadd_length, vscale_length, repeat_length; lia|]. intros j Hj. rewrite nth_vadd_R by (rewrite ?vscale_length, ?repeat_length; lia).
    rewrite nth_vscale_R by lia. rewrite nth_repeat_lt by lia. apply H. lia.
  - eapply Rle_trans; [apply norm_triangle; rewrite vscale_length, repeat_length; lia|]. rewrite norm_scale by auto. apply Rplus_le_compat_l. apply norm_repeat; auto.
Qed.

(** The sums of the absolute values in the columns of the cell. *)
Section Cell.
  Variables (dims : nat) (cell : list (list R)).
  Hypothesis HC : length cell = dims.
  Hypothesis HV : Forall (fun r => length r = dims) cell.
  Definition col_sum (j : nat) : R := rsum (map (fun r => Rabs (nth j (nth r cell []) 0)) (seq 0 dims)).
  Definition col_sums : list R := map col_sum (seq 0 dims).

  Lemma col_sum_pos : forall j, 0 <= col_sum j.
  Proof. intros. apply rsum_nonneg, Forall_forall. intros y Hy. apply in_map_iff in Hy as (i & <- & _). apply Rabs_pos. Qed.
  Lemma col_sums_length : length col_sums = dims.
  Proof. unfold col_sums. rewrite map_length, seq_length. auto. Qed.
  Lemma nth_col_sums : forall j, (j < dims)%nat -> nth j col_sums 0 = col_sum j.
  Proof. intros. apply nth_map_seq. auto. Qed.

  Lemma col_sums_norm : norm col_sums <= cell_size cell.
  Proof.
    assert (E : col_sums = abs_lat dims cell (repeat 1%Z dims)).
    { apply vec_ext; [rewrite abs_lat_length, col_sums_length by auto; auto|]. intros j Hj. rewrite col_sums_length in Hj. rewrite nth_col_sums, nth_abs_lat by auto. unfold col_sum.
      rewrite (map2_seq _ _ _ _ _ _ 0%Z []) by (rewrite repeat_length; auto). rewrite repeat_length. apply rsum_ext. intros r Hr. apply in_seq in Hr. rewrite nth_repeat_lt by lia. rewrite Rabs_R1. lra. }
    rewrite E. eapply Rle_trans; [apply norm_abs_lat; auto|]. right. unfold len_sum, cell_size. rewrite (map2_seq _ _ _ _ _ _ 0%Z []) by (rewrite repeat_length; auto). rewrite repeat_length.
    replace (map (fun r => sqrt (rdot r r)) cell) with (map (fun i => sqrt (rdot (nth i cell []) (nth i cell []))) (seq 0 dims)) by (rewrite <- HC, <- (map_map (fun i => nth i cell []) (fun r => sqrt (rdot r r))), map_nth_seq; reflexivity). apply rsum_ext. intros r Hr. apply in_seq in Hr. rewrite nth_repeat_lt by lia. rewrite Rabs_R1, Rmult_1_l. unfold norm. rewrite rdot_dot. reflexivity.
  Qed.
  Lemma cell_size_pos : 0 <= cell_size cell.
  Proof. eapply Rle_trans; [apply norm_nonneg|apply col_sums_norm]. Qed.

  Lemma comb_bound : forall f a j, 0 <= a -> (forall r, (r < dims)%nat -> Rabs (nth r f 0) <= a) -> Rabs (comb_coord cell f j) <= a * col_sum j.
  Proof.
    intros f a j Ha H. unfold comb_coord, col_sum. rewrite HC, <- rsum_scale. eapply Rle_trans; [apply rsum_abs|]. rewrite map_map. apply rsum_le. intros r Hr. apply in_seq in Hr.
    rewrite Rabs_mult. apply Rmult_le_compat_r; [apply Rabs_pos|]. apply H. lia.
  Qed.

  (** Fractional coordinates of a short vector are small. *)
  Lemma coordinate_bound : forall w v xi, inverse_within w dims cell -> length v = dims -> length xi = dims ->
    (forall j, (j < dims)%nat -> nth j v 0 = comb_coord cell xi j) -> forall r, (r < dims)%nat -> Rabs (nth r xi 0) <= norm v * w.
  Proof.
    intros w v xi (dual & DB & HW) Hv LX EX r Hr. destruct DB as (D1 & D2 & D3).
    assert (Ld : length (nth r dual []) = dims) by (rewrite Forall_forall in D2; apply D2, nth_In; lia).
    assert (E : nth r xi 0 = dot v (nth r dual [])).
    { rewrite <- rdot_dot, rdot_seq by lia. rewrite Hv.
      rewrite (rsum_ext _ _ (fun j => rsum (map (fun s => nth s xi 0 * nth j (nth s cell []) 0 * nth j (nth r dual []) 0) (seq 0 dims)))).
      2:{ intros j Hj. apply in_seq in Hj. rewrite EX by lia. unfold comb_coord. rewrite HC, Rmult_comm, <- rsum_scale. apply rsum_ext. intros. ring. }
      rewrite (rsum_swap _ _ (fun j s => nth s xi 0 * nth j (nth s cell []) 0 * nth j (nth r dual []) 0)).
      rewrite (rsum_ext _ _ (fun s => if Nat.eqb s r then nth r xi 0 else 0)).
      2:{ intros s Hs. apply in_seq in Hs. specialize (D3 s r ltac:(lia) Hr). rewrite rdot_seq in D3 by (rewrite Ld; rewrite Forall_forall in HV; apply HV, nth_In; lia).
          replace (length (nth s cell [])) with dims in D3 by (symmetry; rewrite Forall_forall in HV; apply HV, nth_In; lia).
          rewrite (rsum_ext _ _ (fun j => nth s xi 0 * (nth j (nth s cell []) 0 * nth j (nth r dual []) 0))) by (intros; ring). rewrite rsum_scale, D3. destruct (Nat.eqb_spec s r) as [E|E]; [rewrite E|]; lra. }
      rewrite (rsum_split dims r) by auto. rewrite Nat.eqb_refl. rewrite (rsum_ext _ _ (fun _ => 0 * 0)); [rewrite rsum_scale; lra|]. intros s _. destruct (Nat.eqb s r); lra. }
    rewrite E. assert (Hw : norm (nth r dual []) <= w). { rewrite Forall_forall in HW. specialize (HW (nth r dual []) ltac:(apply nth_In; lia)). rewrite rdot_dot in HW. exact HW. }
    pose proof (norm_nonneg v) as NV. assert (Q : forall y, norm y = norm v -> length y = length v -> dot y (nth r dual []) <= norm v * w).
    { intros y Ny _. eapply Rle_trans; [apply dot_le_norm|]. rewrite Ny. apply Rmult_le_compat_l; auto. }
    apply Rabs_le. split; [|apply Q; auto]. specialize (Q (vscale (-1) v)). rewrite dot_vscale_l, vscale_length in Q. enough (-1 * dot v (nth r dual []) <= norm v * w) by lra. apply Q; auto.
    unfold norm. rewrite dot_vscale_l, dot_vscale_r. f_equal. ring.
  Qed.

  Lemma small_coordinates : forall w v, inverse_within w dims cell -> length v = dims ->
    exists xi, length xi = dims /\ (forall j, (j < dims)%nat -> nth j v 0 = comb_coord cell xi j) /\ forall r, (r < dims)%nat -> Rabs (nth r xi 0) <= norm v * w.
  Proof.
    intros w v HW Hv. assert (NS : nonsingular dims cell) by (destruct HW as (dual & DB & _); exists dual; auto). pose proof (proj1 (nonsingular_det dims cell HC HV) NS) as ND.
    destruct (coordinates dims cell v HV HC ND Hv) as (xi & LX & EX). exists xi. split; [auto|]. split; [auto|]. apply (coordinate_bound w v xi); auto.
  Qed.
End Cell.

Section Cartesian.
  Variables (ar : arith) (u eta s w : R) (dims : nat) (cell : list (list R)).
  Hypothesis FL : float_like u eta ar.
  Hypothesis Hu : u <= 1 / 10000.
  Hypothesis Hs : 0 <= s.
  Hypothesis H4 : (dims <= 4)%nat.
  Hypothesis HC : length cell = dims.
  Hypothesis HV : Forall (fun r => length r = dims) cell.
  Let L := cell_size cell.
  Hypothesis He : eta <= u * L / 10.
  Hypothesis Hk : 22 * u * (s + 1) <= 1 / 10.
  Variables (f f' : list R).
  Hypothesis Lf : length f = dims.
  Hypothesis Lf' : length f' = dims.
  Hypothesis Uf : in_unit f.
  Hypothesis Bf' : Forall (fun a => 0 <= a <= 1 + u) f'.
  Hypothesis Cf : close_mod1 (8 * u * (s + 1)) f' f.
  Let p' := @to_cartesian R (num_of ar) cell f'.
  Let cs := col_sums dims cell.

  Lemma cart_length : length p' = dims.
  Proof. unfold p', to_cartesian. rewrite map_length, seq_length. auto. Qed.
  Lemma cart_nth : forall j, (j < dims)%nat -> nth j p' 0 = r_dot ar f' (map (fun row => nth j row 0) cell).
  Proof.
    intros j Hj. unfold p', to_cartesian. rewrite (nth_map' _ _ _ _ _ 0%nat) by (unfold vec in *; rewrite seq_length; lia). rewrite seq_nth by (unfold vec in *; lia). reflexivity.
  Qed.

  Lemma frac_abs : forall r, (r < dims)%nat -> 0 <= nth r f' 0 <= 1 + u.
  Proof. intros r Hr. rewrite Forall_forall in Bf'. apply Bf', nth_In. lia. Qed.

  Lemma cart_error : forall j, (j < dims)%nat -> Rabs (nth j p' 0 - comb_coord cell f' j) <= 52 / 10 * u * col_sum dims cell j + 41 / 100 * (u * L).
  Proof.
    intros j Hj. rewrite cart_nth by auto. pose proof (fl_u _ _ _ FL) as u0.
    pose proof (dot_error ar u eta FL Hu f' (map (fun row => nth j row 0) cell) ltac:(rewrite map_length; lia) ltac:(lia)) as D. rewrite rdot_comb in D by lia.
    assert (A : rabs_dot f' (map (fun row => nth j row 0) cell) <= (1 + u) * col_sum dims cell j).
    { rewrite rabs_dot_seq by (rewrite map_length; lia). unfold col_sum. rewrite <- rsum_scale, Lf'. apply rsum_le. intros r Hr. apply in_seq in Hr. rewrite (nth_map' _ _ _ _ _ []) by lia.
      rewrite Rabs_mult. apply Rmult_le_compat_r; [apply Rabs_pos|]. pose proof (frac_abs r ltac:(lia)). rewrite Rabs_right; lra. }
    pose proof (col_sum_pos dims cell j) as P. set (c := col_sum dims cell j) in *. set (a := rabs_dot _ _) in *. clearbody a c.
    assert (u * a <= u * ((1 + u) * c)) by (apply Rmult_le_compat_l; auto). assert (0 <= u * c) by nra. assert (u * (u * c) <= 1 / 10000 * (u * c)) by (apply Rmult_le_compat_r; lra). fold L in He. lra.
  Qed.

  Lemma L_pos : 0 <= L. Proof. apply (cell_size_pos dims); auto. Qed.

  (** The error of the conversion alone, and the length of the result. *)
  Lemma cart_rest_norm : norm (map (fun j => nth j p' 0 - comb_coord cell f' j) (seq 0 dims)) <= 61 / 10 * u * L.
  Proof.
    pose proof (fl_u _ _ _ FL) as u0. pose proof L_pos as L0. assert (0 <= u * L) by nra. eapply Rle_trans.
    - apply (norm_le_weighted _ cs (52 / 10 * u) (41 / 100 * (u * L)) dims); [rewrite map_length, seq_length; auto|apply col_sums_length|auto|lra|lra|].
      intros j Hj. rewrite (nth_map_seq (fun j => nth j p' 0 - comb_coord cell f' j)) by auto. unfold cs. rewrite nth_col_sums by auto. apply cart_error. auto.
    - pose proof (col_sums_norm dims cell HC HV) as N. fold L in N. fold cs in N. assert (52 / 10 * u * norm cs <= 52 / 10 * u * L) by (apply Rmult_le_compat_l; lra). lra.
  Qed.
  Lemma cart_norm : norm p' <= 2 * L.
  Proof.
    pose proof (fl_u _ _ _ FL) as u0. pose proof L_pos as L0. assert (UL : 0 <= u * L) by nra. assert (UL2 : u * L <= 1 / 10000 * L) by (apply Rmult_le_compat_r; lra). eapply Rle_trans.
    - apply (norm_le_weighted _ cs (1 + u + 52 / 10 * u) (41 / 100 * (u * L)) dims); [apply cart_length|apply col_sums_length|auto|lra|lra|].
      intros j Hj. unfold cs. rewrite nth_col_sums by auto. pose proof (cart_error j Hj) as E. pose proof (comb_bound dims cell HC f' (1 + u) j ltac:(lra)) as B.
      replace (nth j p' 0) with (comb_coord cell f' j + (nth j p' 0 - comb_coord cell f' j)) by ring. eapply Rle_trans; [apply Rabs_triang|].
      assert (Rabs (comb_coord cell f' j) <= (1 + u) * col_sum dims cell j) by (apply B; intros r Hr; pose proof (frac_abs r Hr); rewrite Rabs_right; lra). lra.
    - pose proof (col_sums_norm dims cell HC HV) as N. fold L in N. fold cs in N. assert ((1 + u + 52 / 10 * u) * norm cs <= (1 + u + 52 / 10 * u) * L) by (apply Rmult_le_compat_l; lra). lra.
  Qed.

  (** The point is near a lattice translate of the exact one. *)
  Lemma cart_moved : exists z, length z = dims /\ norm (map (fun j => nth j p' 0 + lattice_coord cell z j - comb_coord cell f j) (seq 0 dims)) <= 15 * u * (s + 1) * L.
  Proof.
    pose proof (fl_u _ _ _ FL) as u0. pose proof L_pos as L0. assert (UL : 0 <= u * L) by nra. assert (US : 0 <= u * s) by nra.
    assert (Z : forall m, (m <= dims)%nat -> exists z, length z = m /\ forall r, (r < m)%nat -> Rabs (nth r f' 0 + IZR (nth r z 0%Z) - nth r f 0) <= 8 * u * (s + 1)).
    { induction m as [|m IH]; intros Hm; [exists []; split; [auto|intros; lia]|]. destruct IH as (z & Lz & Hz); [lia|]. destruct (Cf m ltac:(lia)) as (n & Hn). exists (z ++ [(- n)%Z]).
      split; [rewrite app_length; cbn; lia|]. intros r Hr. destruct (Nat.eq_dec r m) as [->|N].
      - rewrite app_nth2, Lz, Nat.sub_diag by lia. cbn [nth]. rewrite opp_IZR. replace (nth m f' 0 + - IZR n - nth m f 0) with (nth m f' 0 - nth m f 0 - IZR n) by ring. exact Hn.
      - rewrite app_nth1 by lia. apply Hz. lia. }
    destruct (Z dims (le_n _)) as (z & Lz & Hz). exists z. split; [auto|]. set (e := map (fun r => nth r f' 0 + IZR (nth r z 0%Z) - nth r f 0) (seq 0 dims)).
    assert (Ee : forall j, comb_coord cell e j = comb_coord cell f' j + lattice_coord cell z j - comb_coord cell f j).
    { intros j. unfold lattice_coord, comb_coord. rewrite HC. rewrite (rsum_ext _ _ (fun r => (nth r f' 0 * nth j (nth r cell []) 0 + nth r (map IZR z) 0 * nth j (nth r cell []) 0) + -1 * (nth r f 0 * nth j (nth r cell []) 0))).
      - rewrite rsum_plus, rsum_scale, rsum_plus. lra.
      - intros r Hr. apply in_seq in Hr. unfold e. rewrite (nth_map_seq (fun r => nth r f' 0 + IZR (nth r z 0%Z) - nth r f 0)) by lia. rewrite (nth_map' _ _ _ _ _ 0%Z) by lia. ring. }
    eapply Rle_trans.
    - apply (norm_le_weighted _ cs (8 * u * (s + 1) + 52 / 10 * u) (41 / 100 * (u * L)) dims); [rewrite map_length, seq_length; auto|apply col_sums_length|auto|lra|lra|].
      intros j Hj. rewrite (nth_map_seq (fun j => nth j p' 0 + lattice_coord cell z j - comb_coord cell f j)) by auto. unfold cs. rewrite nth_col_sums by auto. pose proof (cart_error j Hj) as E.
      pose proof (comb_bound dims cell HC e (8 * u * (s + 1)) j ltac:(lra)) as B. rewrite Ee in B.
      replace (nth j p' 0 + lattice_coord cell z j - comb_coord cell f j) with ((comb_coord cell f' j + lattice_coord cell z j - comb_coord cell f j) + (nth j p' 0 - comb_coord cell f' j)) by ring. eapply Rle_trans; [apply Rabs_triang|].
      assert (Rabs (comb_coord cell f' j + lattice_coord cell z j - comb_coord cell f j) <= 8 * u * (s + 1) * col_sum dims cell j).
      { apply B. intros r Hr. unfold e. rewrite (nth_map_seq (fun r => nth r f' 0 + IZR (nth r z 0%Z) - nth r f 0)) by auto. apply Hz. auto. }
      lra.
    - pose proof (col_sums_norm dims cell HC HV) as N. fold L in N. fold cs in N. assert ((8 * u * (s + 1) + 52 / 10 * u) * norm cs <= (8 * u * (s + 1) + 52 / 10 * u) * L) by (apply Rmult_le_compat_l; lra).
      assert (0 <= u * s * L) by (apply Rmult_le_pos; lra). lra.
  Qed.

  (** Its fractional coordinates. *)
  Hypothesis HW : inverse_within w dims cell.
  Lemma cart_frac : exists x, length x = dims /\ p' = map (comb_coord cell x) (seq 0 dims) /\
    forall r, (r < dims)%nat -> - (61 / 10 * u * L * w) <= nth r x 0 <= 1 + u + 61 / 10 * u * L * w.
  Proof.
    destruct (small_coordinates dims cell HC HV w (map (fun j => nth j p' 0 - comb_coord cell f' j) (seq 0 dims)) HW) as (xi & LX & EX & BX); [rewrite map_length, seq_length; auto|].
    pose proof cart_rest_norm as N. set (v := map (fun j => nth j p' 0 - comb_coord cell f' j) (seq 0 dims)) in *.
    exists (map (fun r => nth r f' 0 + nth r xi 0) (seq 0 dims)). split; [rewrite map_length, seq_length; auto|]. split.
    - apply vec_ext; [rewrite map_length, seq_length; apply cart_length|]. intros j Hj. rewrite cart_length in Hj. rewrite (nth_map_seq (comb_coord cell _)) by auto.
      specialize (EX j Hj). unfold v in EX. rewrite (nth_map_seq (fun j => nth j p' 0 - comb_coord cell f' j)) in EX by auto.
      unfold comb_coord at 1. rewrite HC. rewrite (rsum_ext _ _ (fun r => nth r f' 0 * nth j (nth r cell []) 0 + nth r xi 0 * nth j (nth r cell []) 0)).
      + rewrite rsum_plus. unfold comb_coord in EX. rewrite HC in EX. lra.
      + intros r Hr. apply in_seq in Hr. rewrite (nth_map_seq (fun r => nth r f' 0 + nth r xi 0)) by lia. ring.
    - intros r Hr. rewrite (nth_map_seq (fun r => nth r f' 0 + nth r xi 0)) by auto. pose proof (frac_abs r Hr). specialize (BX r Hr).
      assert (W0 : 0 <= w). { destruct HW as (dual & (D1 & _ & _) & FW). destruct dual as [|d dual]; [cbn in D1; lia|]. inversion FW as [|? ? W _]; subst. eapply Rle_trans; [apply sqrt_pos|exact W]. }
      assert (norm v * w <= 61 / 10 * u * L * w) by (apply Rmult_le_compat_r; auto). apply Rabs_le_both in BX. lra.
  Qed.
End Cartesian.
