(** Lemmas for C83: cells with almost orthogonal vectors. *)
From Coq Require Import List ZArith Arith Bool Lia Reals Lra Psatz.
From Verif Require Import Num Base Spec SpecGeom SpecCont SpecDeform Outcome NNModel VecR NNSpecProofs NNComplete NNInvariance SpecDet Props_PPC GramProofs SpecRoundSites DeformProofs.
Import ListNotations.
Open Scope R_scope.

Section Dominant.
  Variables (dims : nat) (cell : list (list R)).
  Hypothesis Lc : length cell = dims.
  Hypothesis V : Forall (fun r => length r = dims) cell.
  Hypothesis HD : half_dominant dims cell.
  Let g (i j : nat) : R := dot (nth i cell []) (nth j cell []).

  Lemma row_dims : forall r, (r < dims)%nat -> length (nth r cell []) = dims.
  Proof. intros r Hr. rewrite Forall_forall in V. apply V, nth_In. rewrite Lc. exact Hr. Qed.

  Lemma combination_gram : forall x, length x = dims -> dot (combination dims cell x) (combination dims cell x) =
    rsum (map (fun i => rsum (map (fun j => nth i x 0 * nth j x 0 * g i j) (seq 0 dims))) (seq 0 dims)).
  Proof.
    intros x Lx. change (combination dims cell x) with (lin_map dims cell x). rewrite lin_map_latvecR by (auto; lia). set (v := latvecR dims cell x).
    unfold v at 1. rewrite dot_latvecR by (auto; lia). rewrite Lc. apply rsum_ext. intros i _. rewrite dot_comm. unfold v. rewrite dot_latvecR by (auto; lia). rewrite Lc, <- rsum_scale.
    apply rsum_ext. intros j _. unfold g. rewrite (dot_comm (nth i cell [])). ring.
  Qed.

  (** The square of a length is at least half the sum of the squares along the cell vectors. *)
  Lemma dominant_lower : forall x, length x = dims ->
    rsum (map (fun i => nth i x 0 * nth i x 0 * g i i) (seq 0 dims)) / 2 <= dot (combination dims cell x) (combination dims cell x).
  Proof.
    intros x Lx. rewrite combination_gram by auto.
    set (off := fun i j => if Nat.eqb j i then 0 else Rabs (g i j)).
    assert (S : forall i j, off i j = off j i) by (intros i j; unfold off, g; rewrite (Nat.eqb_sym j i), dot_comm; auto).
    assert (A : rsum (map (fun i => nth i x 0 * nth i x 0 * g i i - rsum (map (fun j => (nth i x 0 * nth i x 0 / 2 + nth j x 0 * nth j x 0 / 2) * off i j) (seq 0 dims))) (seq 0 dims)) <=
      rsum (map (fun i => rsum (map (fun j => nth i x 0 * nth j x 0 * g i j) (seq 0 dims))) (seq 0 dims))).
    { apply rsum_le. intros i Hi. apply in_seq in Hi. rewrite (rsum_split dims i (fun j => nth i x 0 * nth j x 0 * g i j)) by lia.
      enough (B : rsum (map (fun j => -1 * ((nth i x 0 * nth i x 0 / 2 + nth j x 0 * nth j x 0 / 2) * off i j)) (seq 0 dims)) <= rsum (map (fun j => if Nat.eqb j i then 0 else nth i x 0 * nth j x 0 * g i j) (seq 0 dims))).
      { rewrite rsum_scale in B. lra. }
      apply rsum_le. intros j _. unfold off. destruct (Nat.eqb j i); [lra|]. set (a := nth i x 0). set (b := nth j x 0). set (h := g i j).
      assert (- (Rabs (a * b) * Rabs h) <= a * b * h). { rewrite <- Rabs_mult. pose proof (Rle_abs (- (a * b * h))) as Q. rewrite Rabs_Ropp in Q. lra. }
      pose proof (Rle_0_sqr (a + b)) as Q1. pose proof (Rle_0_sqr (a - b)) as Q2. unfold Rsqr in Q1, Q2. assert (Rabs (a * b) <= a * a / 2 + b * b / 2) by (apply Rabs_le; split; lra). pose proof (Rabs_pos h). assert (Rabs (a * b) * Rabs h <= (a * a / 2 + b * b / 2) * Rabs h) by (apply Rmult_le_compat_r; auto). lra. }
    eapply Rle_trans; [|exact A].
    assert (E : rsum (map (fun i => rsum (map (fun j => (nth i x 0 * nth i x 0 / 2 + nth j x 0 * nth j x 0 / 2) * off i j) (seq 0 dims))) (seq 0 dims)) =
      rsum (map (fun i => nth i x 0 * nth i x 0 * rsum (map (off i) (seq 0 dims))) (seq 0 dims))).
    { rewrite (rsum_ext _ _ (fun i => rsum (map (fun j => nth i x 0 * nth i x 0 / 2 * off i j) (seq 0 dims)) + rsum (map (fun j => nth j x 0 * nth j x 0 / 2 * off i j) (seq 0 dims)))).
      2:{ intros i _. rewrite <- rsum_plus. apply rsum_ext. intros. ring. }
      rewrite rsum_plus. rewrite (rsum_swap _ _ (fun i j => nth j x 0 * nth j x 0 / 2 * off i j)). rewrite <- rsum_plus. apply rsum_ext. intros i _.
      rewrite rsum_scale. rewrite (rsum_ext _ (fun a => nth i x 0 * nth i x 0 / 2 * off a i) (fun j => nth i x 0 * nth i x 0 / 2 * off i j)) by (intros; rewrite S; auto). rewrite rsum_scale. field. }
    assert (F : rsum (map (fun i => nth i x 0 * nth i x 0 * rsum (map (off i) (seq 0 dims))) (seq 0 dims)) <= rsum (map (fun i => nth i x 0 * nth i x 0 * g i i) (seq 0 dims)) / 2).
    { rewrite <- (Rmult_1_r (rsum _ / 2)). replace (rsum (map (fun i => nth i x 0 * nth i x 0 * g i i) (seq 0 dims)) / 2 * 1) with (/ 2 * rsum (map (fun i => nth i x 0 * nth i x 0 * g i i) (seq 0 dims))) by lra.
      rewrite <- rsum_scale. apply rsum_le. intros i Hi. apply in_seq in Hi. pose proof (HD i ltac:(lia)) as H.
      assert (rsum (map (off i) (seq 0 dims)) <= g i i / 2).
      { unfold g. rewrite <- rdot_dot. eapply Rle_trans; [|exact H]. right. apply rsum_ext. intros j _. unfold off, g. rewrite rdot_dot. auto. }
      nra. }
    set (T := rsum (map (fun i => nth i x 0 * nth i x 0 * g i i) (seq 0 dims))) in *.
    assert (M : forall (p q : nat -> R) l, rsum (map (fun i => p i - q i) l) = rsum (map p l) - rsum (map q l)).
    { intros p q l. induction l as [|i l IH]; unfold rsum in *; cbn [map fold_right]; [lra|]. rewrite IH. lra. }
    rewrite M, E. fold T. lra.
  Qed.

  Lemma g_nonneg : forall i, 0 <= g i i. Proof. intros. apply dot_nonneg. Qed.
  Lemma dominant_coordinate : forall x r, length x = dims -> (r < dims)%nat -> nth r x 0 * nth r x 0 * g r r / 2 <= dot (combination dims cell x) (combination dims cell x).
  Proof.
    intros x r Lx Hr. eapply Rle_trans; [|apply dominant_lower; auto]. apply Rmult_le_compat_r; [lra|]. rewrite (rsum_split dims r) by auto.
    enough (0 <= rsum (map (fun j => if Nat.eqb j r then 0 else nth j x 0 * nth j x 0 * g j j) (seq 0 dims))) by lra.
    replace 0 with (rsum (map (fun _ : nat => 0 * 0) (seq 0 dims))) at 1 by (rewrite rsum_scale; lra). apply rsum_le. intros j _. destruct (Nat.eqb j r); [lra|]. pose proof (g_nonneg j). rewrite Rmult_0_l. apply Rmult_le_pos; auto. apply Rle_0_sqr.
  Qed.

  (** Such cells have inverses, which are not large. *)
  Lemma dominant_inverse : forall l, 0 < l -> (forall r, (r < dims)%nat -> l <= vlength (nth r cell [])) -> inverse_within (3 / (2 * l)) dims cell.
  Proof.
    intros l L0 HL.
    assert (G : forall r, (r < dims)%nat -> l * l <= g r r).
    { intros r Hr. specialize (HL r Hr). unfold vlength in HL. rewrite rdot_dot in HL. fold (g r r) in HL. rewrite <- (sqrt_sqrt (g r r)) by apply g_nonneg. apply Rmult_le_compat; lra. }
    assert (P : forall r, (r < dims)%nat -> exists p, length p = dims /\ (forall i, (i < dims)%nat -> i <> r -> dot p (nth i cell []) = 0) /\ dot p (nth r cell []) = dot p p /\ l * l / 2 <= dot p p).
    { intros r Hr. pose proof (row_dims r Hr) as Lr.
      set (others := map (fun i => if Nat.eqb i r then vzero dims else nth i cell []) (seq 0 dims)).
      assert (Lo : length others = dims) by (unfold others; rewrite map_length, seq_length; auto).
      assert (No : forall i, (i < dims)%nat -> nth i others [] = if Nat.eqb i r then vzero dims else nth i cell []) by (intros i Hi; unfold others; rewrite (nth_map_seq (fun i => if Nat.eqb i r then vzero dims else nth i cell [])) by auto; auto).
      assert (Vo : vecs dims others).
      { apply Forall_forall. intros c Hc. unfold others in Hc. apply in_map_iff in Hc as (i & <- & Hi). apply in_seq in Hi. destruct (Nat.eqb i r); [apply vzero_length|apply row_dims; lia]. }
      destruct (project dims others (nth r cell []) Vo Lr) as (a & La & Pa). set (p := residual dims (nth r cell []) a others) in *.
      assert (Lp : length p = dims) by (apply residual_length; auto).
      assert (Q : forall i, (i < dims)%nat -> i <> r -> dot p (nth i cell []) = 0).
      { intros i Hi Ne. apply Pa. replace (nth i cell []) with (nth i others []); [apply nth_In; lia|]. rewrite No by auto. destruct (Nat.eqb_spec i r); [contradiction|auto]. }
      exists p. split; [exact Lp|]. split; [exact Q|]. split.
      - symmetry. unfold p at 2. apply dot_perp; auto.
      - set (x := map (fun i => if Nat.eqb i r then 1 else - nth i a 0) (seq 0 dims)). assert (Lx : length x = dims) by (unfold x; rewrite map_length, seq_length; auto).
        assert (E : p = combination dims cell x).
        { apply vec_ext; [unfold combination; rewrite map_length, seq_length; auto|]. intros j Hj. rewrite Lp in Hj. unfold p. rewrite residual_entry by (auto; lia). match goal with |- context [sigma ?n _] => replace n with dims by (symmetry; exact Lo) end.
          unfold combination. rewrite (nth_map_seq (comb_coord cell x)) by auto. unfold comb_coord. rewrite Lc, (rsum_split dims r) by auto. unfold x at 1. rewrite (nth_map_seq (fun i => if Nat.eqb i r then 1 else - nth i a 0)) by auto. rewrite Nat.eqb_refl.
          enough (X : rsum (map (fun k => if Nat.eqb k r then 0 else nth k x 0 * nth j (nth k cell []) 0) (seq 0 dims)) = -1 * rsum (map (fun i => nth i a 0 * nth j (nth i others []) 0) (seq 0 dims))) by (rewrite X; match goal with |- _ - ?s = _ => replace s with (rsum (map (fun i => nth i a 0 * nth j (nth i others []) 0) (seq 0 dims))) by exact (rsum_seq dims _) end; ring).
          rewrite <- rsum_scale. apply rsum_ext. intros i Hi. apply in_seq in Hi. rewrite No by lia. destruct (Nat.eqb_spec i r) as [Ei|Ne].
          - replace (nth j (vzero dims) 0) with 0; [ring|]. unfold vzero. symmetry. destruct (Nat.lt_ge_cases j (length (repeat 0 dims))) as [L|L]; [apply (repeat_spec dims), nth_In; auto|apply nth_overflow; auto].
          - unfold x. rewrite (nth_map_seq (fun i => if Nat.eqb i r then 1 else - nth i a 0)) by lia. destruct (Nat.eqb_spec i r); [contradiction|]. ring. }
        rewrite E. eapply Rle_trans; [|apply (dominant_coordinate x r Lx Hr)]. unfold x. rewrite (nth_map_seq (fun i => if Nat.eqb i r then 1 else - nth i a 0)) by auto. rewrite Nat.eqb_refl. specialize (G r Hr). lra. }
    assert (C : forall n, (n <= dims)%nat -> exists dual, length dual = n /\ Forall (fun w => length w = dims) dual /\ Forall (fun v => sqrt (rdot v v) <= 3 / (2 * l)) dual /\
      forall i j, (i < dims)%nat -> (j < n)%nat -> rdot (nth i cell []) (nth j dual []) = if Nat.eqb i j then 1 else 0).
    { induction n as [|n IH]; intros Hn; [exists []; repeat split; auto; lia|]. destruct IH as (dual & D1 & D2 & D3 & D4); [lia|]. destruct (P n ltac:(lia)) as (p & Lp & Q & E & B).
      assert (PP : 0 < dot p p) by (apply Rlt_le_trans with (l * l / 2); [nra|exact B]).
      exists (dual ++ [vscale (/ dot p p) p]). rewrite app_length, D1. split; [cbn; lia|]. split; [|split].
      - apply Forall_app. split; auto. constructor; auto. rewrite vscale_length. exact Lp.
      - apply Forall_app. split; auto. constructor; auto. rewrite rdot_dot, dot_vscale_l, dot_vscale_r. replace (/ dot p p * (/ dot p p * dot p p)) with (/ dot p p) by (field; lra).
        assert (L3 : 0 < 3 / (2 * l)) by (apply Rdiv_lt_0_compat; lra). apply Rle_trans with (sqrt (3 / (2 * l) * (3 / (2 * l)))); [apply sqrt_le_1_alt|right; apply sqrt_square; lra].
        apply Rle_trans with (/ (l * l / 2)); [apply Rinv_le_contravar; nra|]. apply Rmult_le_reg_r with (l * l); [nra|].
        replace (/ (l * l / 2) * (l * l)) with 2 by (field; lra). replace (3 / (2 * l) * (3 / (2 * l)) * (l * l)) with (9 / 4) by (field; lra). lra.
      - intros i j Hi Hj. destruct (Nat.eq_dec j n) as [->|Ne].
        + rewrite app_nth2, D1, Nat.sub_diag by lia. cbn [nth]. rewrite rdot_dot, dot_vscale_r, (dot_comm (nth i cell []) p). destruct (Nat.eqb_spec i n) as [->|Ni]; [rewrite E; field; lra|rewrite Q by auto; ring].
        + rewrite app_nth1 by lia. apply D4; lia. }
    destruct (C dims (le_n _)) as (dual & D1 & D2 & D3 & D4). exists dual. split; [split; [auto|split; auto]|auto].
  Qed.

  (** Changes of the cell vectors in proportion to their lengths. *)
  Lemma relative_strain : forall cell' kappa, length cell' = dims -> Forall (fun r => length r = dims) cell' -> 0 <= kappa ->
    (forall r, (r < dims)%nat -> edist (nth r cell' []) (nth r cell []) <= kappa * vlength (nth r cell [])) -> strained dims cell cell' (sqrt (2 * INR dims) * kappa).
  Proof.
    intros cell' kappa Lc' V' K0 HK x Lx.
    assert (VN : forall v, vlength v = norm v) by (intros; unfold vlength, norm; rewrite rdot_dot; auto). rewrite !VN.
    eapply Rle_trans; [apply norm_diff; unfold combination; rewrite !map_length; auto|].
    pose proof (combination_change dims cell cell' x Lc Lc' V V' Lx) as CC. rewrite <- dist_edist in CC. unfold dist in CC. eapply Rle_trans; [exact CC|].
    set (y := map (fun r => Rabs (nth r x 0) * norm (nth r cell [])) (seq 0 dims)).
    apply Rle_trans with (kappa * dot y (map (fun _ => 1) (seq 0 dims))).
    - unfold y. rewrite dot_maps. rewrite <- rsum_scale. apply rsum_le. intros r Hr. apply in_seq in Hr. specialize (HK r ltac:(lia)). rewrite VN in HK. pose proof (Rabs_pos (nth r x 0)). nra.
    - assert (B : dot y (map (fun _ => 1) (seq 0 dims)) <= norm y * norm (map (fun _ : nat => 1) (seq 0 dims))) by apply dot_le_norm.
      assert (N1 : norm (map (fun _ : nat => 1) (seq 0 dims)) = sqrt (INR dims)).
      { unfold norm. rewrite dot_maps. f_equal. rewrite rsum_scale. rewrite <- (seq_length dims 0) at 2. generalize (seq 0 dims). induction l as [|a l IH]; unfold rsum in *; cbn [map fold_right length]; [simpl; lra|]. rewrite S_INR. lra. }
      assert (Ny : norm y <= sqrt 2 * norm (combination dims cell x)).
      { unfold norm. rewrite <- sqrt_mult_alt by lra. apply sqrt_le_1_alt. pose proof (dominant_lower x Lx) as D. unfold y. rewrite dot_maps.
        rewrite (rsum_ext _ _ (fun i => nth i x 0 * nth i x 0 * g i i)); [lra|]. intros i _. unfold g. rewrite <- (norm_sq (nth i cell [])). assert (A : Rabs (nth i x 0) * Rabs (nth i x 0) = nth i x 0 * nth i x 0) by (rewrite <- Rabs_mult; apply Rabs_right, Rle_ge, Rle_0_sqr). rewrite <- A. ring. }
      rewrite N1 in B. rewrite sqrt_mult_alt by lra. pose proof (sqrt_pos (INR dims)) as Q. pose proof (norm_nonneg (combination dims cell x)). pose proof (sqrt_pos 2).
      assert (norm y * sqrt (INR dims) <= sqrt 2 * norm (combination dims cell x) * sqrt (INR dims)) by (apply Rmult_le_compat_r; auto).
      replace (sqrt 2 * sqrt (INR dims) * kappa * norm (combination dims cell x)) with (kappa * (sqrt 2 * norm (combination dims cell x) * sqrt (INR dims))) by ring. apply Rmult_le_compat_l; lra.
  Qed.
End Dominant.
