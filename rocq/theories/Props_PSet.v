(** C54 and C62: comparing periodic sets for equality, and the ready-made periodic sets. *)
From Coq Require Import List ZArith Reals Arith Bool Lia Lra.
From Verif Require Import Num Base Outcome NNModel SpecGeom SpecCell SpecSites SitesProofs UtilsModel Props_Utils PSetModel.
Import ListNotations.
Open Scope R_scope.
Open Scope list_scope.

(** Fractional coordinates of a point, and the contract of the inverse of a matrix. *)
Definition fractional (dims : nat) (cell : list (list R)) (f p : list R) : Prop :=
  length f = dims /\ p = map (comb_coord cell f) (seq 0 dims).
Definition is_inverse (dims : nat) (cell inv : list (list R)) : Prop :=
  square_matrix dims inv /\
  (forall p, length p = dims -> fractional dims cell (map (comb_coord inv p) (seq 0 dims)) p) /\
  (forall f p, fractional dims cell f p -> map (comb_coord inv p) (seq 0 dims) = f).

(** Points which are equal up to the lattice and [tol] in fractional coordinates. *)
Definition near (dims : nat) (cell : list (list R)) (tol : R) (p q : list R) : Prop :=
  exists f g, fractional dims cell f p /\ fractional dims cell g q /\ close_mod1 tol f g.
Definition cells_close (cell1 cell2 : list (list R)) : Prop :=
  forall i j, (i < length cell1)%nat -> (j < length (nth i cell1 []))%nat ->
    Rabs (entry cell1 i j - entry cell2 i j) <= / 10 ^ 8 + / 10 ^ 5 * Rabs (entry cell2 i j).

Lemma row_times_coord : forall dims p m, (0 < dims)%nat -> length p = dims -> square_matrix dims m ->
  row_times p m = map (comb_coord m p) (seq 0 dims).
Proof.
  intros dims p m HD HL [HM HF]. unfold row_times. assert (S : snd (shape m) = dims).
  { unfold shape. destruct m as [|r m]; [cbn in HM; lia|]. inversion HF; subst. auto. }
  rewrite S. apply map_ext. intros j. rewrite total_rdot. unfold comb_coord, column.
  assert (G : forall k a b, length a = k -> length b = k ->
    rdot a (map (fun r => nth j r 0) b) = rsum (map (fun r => nth r a 0 * nth j (nth r b []) 0) (seq 0 k))).
  { clear. induction k as [|k IH]; intros a b Ha Hb.
    - destruct a; [|discriminate]. auto.
    - destruct a as [|x a]; [discriminate|]. destruct b as [|r b]; [discriminate|]. injection Ha as Ha. injection Hb as Hb.
      cbn [map rdot seq]. unfold rsum. cbn [fold_right]. cbn [nth]. rewrite IH by auto. unfold rsum. rewrite <- seq_shift, map_map. auto. }
  rewrite HM. apply G; auto.
Qed.

(** The entries of [diffs]. *)
Lemma greatest_le : forall l x t, greatest x l <= t <-> x <= t /\ Forall (fun y => y <= t) l.
Proof.
  induction l as [|y l IH]; intros x t; cbn [greatest fold_left].
  - split; [auto|tauto].
  - unfold greatest in IH. cbn [fold_left]. rewrite IH. split.
    + intros [H1 H2]. pose proof (Rmax_l x y). pose proof (Rmax_r x y). split; [lra|constructor; [lra|auto]].
    + intros [H1 H2]. inversion H2; subst. split; auto. apply Rmax_lub; auto.
Qed.
Lemma smallest_le : forall l x t, smallest_of x l <= t <-> x <= t \/ Exists (fun y => y <= t) l.
Proof.
  induction l as [|y l IH]; intros x t; cbn [smallest_of fold_left].
  - split; [auto|]. intros [H|H]; auto. inversion H.
  - unfold smallest_of in IH. cbn [fold_left]. rewrite IH. split.
    + intros [H|H]; [|right; constructor 2; auto]. unfold Rmin in H. destruct (Rle_dec x y); [auto|right; constructor; auto].
    + intros [H|H]; [left; pose proof (Rmin_l x y); lra|]. inversion H; subst; [left; pose proof (Rmin_r x y); lra|auto].
Qed.
Lemma amin_le : forall l t, l <> [] -> amin l <= t <-> exists k, (k < length l)%nat /\ nth k l 0 <= t.
Proof.
  intros l t HL. destruct l as [|x l]; [congruence|]. unfold amin. rewrite smallest_le. split.
  - intros [H|H]; [exists 0%nat; cbn; split; [lia|auto]|]. apply Exists_exists in H as (y & Hy & H). apply (In_nth _ _ 0) in Hy as (k & Hk & E).
    exists (S k). cbn. split; [lia|]. rewrite E. auto.
  - intros ([|k] & Hk & H); cbn in *; auto. right. apply Exists_exists. exists (nth k l 0). split; auto. apply nth_In. lia.
Qed.
Lemma coords_close : forall tol f g, 0 <= tol < 1 -> length f = length g -> in_unit f -> in_unit g ->
  Forall (fun y => y <= tol) (map2 (fun a b => let d1 := Rabs (a - b) in let d2 := Rabs (d1 - 1) in Rmin d1 d2) f g) <-> close_mod1 tol f g.
Proof.
  intros tol f g Ht. revert g. induction f as [|a f IH]; intros [|b g] HL Uf Ug; try discriminate.
  - cbn. split; [intros; apply close_nil|constructor].
  - injection HL as HL. inversion Uf as [|? ? Ha Uf']; subst. inversion Ug as [|? ? Hb Ug']; subst. cbn [map2]. rewrite close_cons, <- IH by auto.
    cbv zeta. rewrite <- (coord_neq_ok tol a b) by (auto; lra). unfold SitesModel.coord_neq. cbn [nltb nsub n1 NumR].
    rewrite !nabs_Rabs, andb_false_iff, !Rltb_false.
    assert (M : Rmin (Rabs (a - b)) (Rabs (Rabs (a - b) - 1)) <= tol <-> Rabs (a - b) <= tol \/ Rabs (Rabs (a - b) - 1) <= tol).
    { unfold Rmin. destruct (Rle_dec _ _); split; intros H; auto; destruct H; lra. }
    split; intros H; [inversion H; subst; split; [apply M; auto|auto]|destruct H; constructor; [apply M; auto|auto]].
Qed.
Lemma diff_close : forall tol f g, 0 <= tol < 1 -> f <> [] -> length f = length g -> in_unit f -> in_unit g -> diff f g <= tol <-> close_mod1 tol f g.
Proof.
  intros tol f g Ht HN HL Uf Ug. rewrite <- coords_close by auto. unfold diff, amax.
  destruct f as [|a f]; [congruence|]. destruct g as [|b g]; [discriminate|]. cbn [map2]. rewrite greatest_le. split.
  - intros [H1 H2]. constructor; auto.
  - intros H. inversion H; subst. auto.
Qed.
Lemma map2_nth : forall A B C (f : A -> B -> C) l1 l2 da db dc k, (k < length l1)%nat -> (k < length l2)%nat ->
  nth k (map2 f l1 l2) dc = f (nth k l1 da) (nth k l2 db).
Proof.
  induction l1 as [|a l1 IH]; intros [|b l2] da db dc k H1 H2; cbn in H1, H2; try lia.
  destruct k as [|k]; auto. cbn. apply IH; lia.
Qed.
Lemma map2_len : forall A B C (f : A -> B -> C) l1 l2, length (map2 f l1 l2) = Nat.min (length l1) (length l2).
Proof. induction l1 as [|a l1 IH]; intros [|b l2]; cbn; auto. Qed.
Lemma forallb_nth : forall l, forallb (fun b => b) l = true <-> forall k, (k < length l)%nat -> nth k l false = true.
Proof.
  intros l. rewrite forallb_forall. split.
  - intros H k Hk. apply (H (nth k l false)). apply nth_In. auto.
  - intros H x Hx. apply (In_nth _ _ false) in Hx as (k & Hk & <-). auto.
Qed.
Lemma allclose_ok : forall dims cell1 cell2, square_matrix dims cell1 -> square_matrix dims cell2 ->
  allclose cell1 cell2 = true <-> cells_close cell1 cell2.
Proof.
  intros dims cell1 cell2 [L1 F1] [L2 F2]. unfold allclose, cells_close. rewrite forallb_forall.
  assert (LR : forall m i, Forall (fun r => length r = dims) m -> (i < length m)%nat -> length (nth i m (@nil R)) = dims).
  { intros m i F Hi. rewrite Forall_forall in F. apply F. apply nth_In. auto. }
  split.
  - intros H i j Hi Hj. assert (Hi2 : (i < length cell2)%nat) by lia.
    assert (Hj2 : (j < length (nth i cell2 []))%nat) by (rewrite LR in * by auto; lia).
    assert (I : In (map2 isclose (nth i cell1 []) (nth i cell2 [])) (map2 (map2 isclose) cell1 cell2)).
    { rewrite <- (map2_nth _ _ _ (map2 isclose) cell1 cell2 [] [] [] i) by auto. apply nth_In. rewrite map2_len. lia. }
    specialize (H _ I). rewrite forallb_nth in H. specialize (H j). rewrite map2_len in H. rewrite (map2_nth _ _ _ isclose _ _ 0 0) in H by auto.
    specialize (H ltac:(lia)). unfold isclose in H. apply Rleb_true in H. auto.
  - intros H r Hr. apply (In_nth _ _ []) in Hr as (i & Hi & <-). rewrite map2_len in Hi. rewrite (map2_nth _ _ _ (map2 isclose) cell1 cell2 [] []) by lia.
    apply forallb_nth. intros j Hj. rewrite map2_len in Hj. rewrite (map2_nth _ _ _ isclose _ _ 0 0) by lia. unfold isclose. apply Rleb_true.
    apply H; lia.
Qed.

(** What the check means: point number k of the first motif has a partner in the second, or
    point number k of the second has a partner in the first, for every k. *)
Theorem C54_meaning : forall dims inv motif1 cell1 motif2 cell2 cell_inv,
  pset_ok dims motif1 cell1 -> pset_ok dims motif2 cell2 -> inv cell1 = Done cell_inv -> is_inverse dims cell1 cell_inv ->
  exists b, equal_cell_and_motif inv motif1 cell1 motif2 cell2 = Done b /\
  (b = true <-> cells_close cell1 cell2 /\ length motif1 = length motif2 /\
     forall k, (k < length motif1)%nat ->
       (exists i, (i < length motif2)%nat /\ near dims cell1 (/ 10 ^ 8) (nth i motif2 []) (nth k motif1 [])) \/
       (exists j, (j < length motif1)%nat /\ near dims cell1 (/ 10 ^ 8) (nth k motif2 []) (nth j motif1 []))).
Proof.
  intros dims inv motif1 cell1 motif2 cell2 cell_inv [D1 M1 ML1 C1 CL1] [D2 M2 ML2 C2 CL2] HI (SI & I1 & I2).
  assert (SQ1 : square_matrix dims cell1) by (split; auto). assert (SQ2 : square_matrix dims cell2) by (split; auto).
  assert (SH : forall m : list (list R), Forall (fun r => length r = dims) m -> m <> [] -> snd (shape m) = dims).
  { intros m F HN. destruct m as [|r m]; [congruence|]. inversion F; subst. auto. }
  assert (N1 : cell1 <> []) by (intros ->; cbn in C1; lia). assert (N2 : cell2 <> []) by (intros ->; cbn in C2; lia).
  unfold equal_cell_and_motif.
  assert (SC : shape_eqb (shape cell1) (shape cell2) = true).
  { unfold shape_eqb. rewrite !SH by auto. cbn [shape fst]. rewrite C1, C2, !Nat.eqb_refl. auto. }
  assert (SM : shape_eqb (shape motif1) (shape motif2) = (length motif1 =? length motif2)%nat).
  { unfold shape_eqb. rewrite !SH by auto. cbn [shape fst]. rewrite (Nat.eqb_refl dims). apply andb_true_r. }
  rewrite SC, SM. cbn [negb orb].
  destruct (Nat.eqb_spec (length motif1) (length motif2)) as [EL|EL]; cbn [negb orb].
  2: { exists false. split; auto. split; [discriminate|tauto]. }
  destruct (allclose cell1 cell2) eqn:AC; cbn [negb].
  2: { exists false. split; auto. split; [discriminate|]. intros [Q _]. apply (allclose_ok dims) in Q; auto. congruence. }
  apply (allclose_ok dims) in AC; auto. rewrite HI. cbn [obind].
  set (fm := fun p => map frac_part (row_times p cell_inv)).
  set (fm1 := map fm motif1). set (fm2 := map fm motif2). set (diffs := map (fun f2 => map (fun f1 => diff f2 f1) fm1) fm2).
  set (m := length motif1) in *.
  assert (LF1 : length fm1 = m) by apply map_length. assert (LF2 : length fm2 = m) by (unfold fm2; rewrite map_length; auto).
  assert (LD : length diffs = m) by (unfold diffs; rewrite map_length; auto).
  assert (MP : (0 < m)%nat) by (unfold m; destruct motif1; [congruence|cbn; lia]).
  assert (P1 : forall k, (k < m)%nat -> length (nth k motif1 []) = dims) by (intros k Hk; rewrite Forall_forall in ML1; apply ML1, nth_In; auto).
  assert (P2 : forall k, (k < m)%nat -> length (nth k motif2 []) = dims) by (intros k Hk; rewrite Forall_forall in ML2; apply ML2, nth_In; lia).
  assert (DIFF : forall i k, (i < m)%nat -> (k < m)%nat ->
    (diff (nth i fm2 []) (nth k fm1 []) <= / 10 ^ 8 <-> near dims cell1 (/ 10 ^ 8) (nth i motif2 []) (nth k motif1 []))).
  { intros i k Hi Hk. unfold fm1, fm2.
    rewrite (nth_indep (map fm motif2) [] (fm [])) by (rewrite map_length; lia). rewrite (nth_indep (map fm motif1) [] (fm [])) by (rewrite map_length; auto).
    rewrite !map_nth. set (q := nth i motif2 []) in *. set (p := nth k motif1 []) in *.
    assert (Lq : length q = dims) by (apply P2; auto). assert (Lp : length p = dims) by (apply P1; auto).
    unfold fm. rewrite !(row_times_coord dims) by (auto; lia).
    set (f := map (comb_coord cell_inv q) (seq 0 dims)). set (g := map (comb_coord cell_inv p) (seq 0 dims)).
    assert (Lf : length f = dims) by (unfold f; rewrite map_length, seq_length; auto).
    assert (Lg : length g = dims) by (unfold g; rewrite map_length, seq_length; auto).
    assert (UN : forall l, in_unit (map frac_part l)).
    { intros l. apply Forall_forall. intros x Hx. apply in_map_iff in Hx as (y & <- & _). destruct (base_fp y). lra. }
    assert (SM1 : forall l, same_mod1 (map frac_part l) l).
    { intros l. split; [apply map_length|]. intros j Hj. rewrite map_length in Hj.
      rewrite (nth_indep _ 0 (frac_part 0)) by (rewrite map_length; auto). rewrite map_nth. apply mod1_diff. }
    assert (TP : 0 <= / 10 ^ 8 < 1). { split; [left; apply Rinv_0_lt_compat, pow_lt; lra|]. lra. }
    rewrite diff_close; auto.
    - split.
      + intros Q. exists f, g. split; [apply I1; auto|]. split; [apply I1; auto|].
        apply (close_same_l _ (map frac_part f)); auto. apply (close_same _ _ (map frac_part g)); auto. rewrite !map_length. lia.
      + intros (f' & g' & Hf & Hg & Q). assert (f' = f) by (symmetry; apply I2; auto). assert (g' = g) by (symmetry; apply I2; auto). subst f' g'.
        apply (close_same_l _ f); [apply same_sym; auto|]. apply (close_same _ _ g); auto; [apply same_sym; auto|]. lia.
    - intros Q. apply (f_equal (@length R)) in Q. rewrite map_length, Lf in Q. cbn in Q. lia.
    - rewrite !map_length. lia. }
  set (mins0 := map (fun j => amin (column diffs j)) (seq 0 (length fm1))). set (mins1 := map amin diffs).
  assert (L0 : length mins0 = m) by (unfold mins0; rewrite map_length, seq_length; auto).
  assert (L1 : length mins1 = m) by (unfold mins1; rewrite map_length; auto).
  assert (E0 : forall k, (k < m)%nat -> nth k mins0 0 <= / 10 ^ 8 <-> exists i, (i < m)%nat /\ diff (nth i fm2 []) (nth k fm1 []) <= / 10 ^ 8).
  { intros k Hk. unfold mins0. rewrite (nth_indep _ 0 (amin (column diffs 0))) by (fold mins0; lia).
    rewrite (map_nth (fun j => amin (column diffs j))), seq_nth by lia. cbn [Nat.add].
    assert (LC : length (column diffs k) = m) by (unfold column; rewrite map_length; auto).
    assert (EN : forall i, (i < m)%nat -> nth i (column diffs k) 0 = diff (nth i fm2 []) (nth k fm1 [])).
    { intros i Hi. unfold column, diffs. rewrite map_map.
      rewrite (nth_indep _ 0 ((fun f2 => nth k (map (fun f1 => diff f2 f1) fm1) 0) [])) by (rewrite map_length; lia).
      rewrite (map_nth (fun f2 => nth k (map (fun f1 => diff f2 f1) fm1) 0)).
      rewrite (nth_indep _ 0 (diff (nth i fm2 []) [])) by (rewrite map_length; lia). rewrite map_nth. auto. }
    rewrite amin_le by (intros Q; rewrite Q in LC; cbn in LC; lia). rewrite LC.
    split; intros (i & Hi & Q); exists i; (split; [auto|]); [rewrite <- EN|rewrite EN]; auto. }
  assert (E1 : forall k, (k < m)%nat -> nth k mins1 0 <= / 10 ^ 8 <-> exists j, (j < m)%nat /\ diff (nth k fm2 []) (nth j fm1 []) <= / 10 ^ 8).
  { intros k Hk. unfold mins1. rewrite (nth_indep _ 0 (amin [])) by (fold mins1; lia). rewrite map_nth.
    assert (EN : nth k diffs [] = map (fun f1 => diff (nth k fm2 []) f1) fm1).
    { unfold diffs. rewrite (nth_indep _ [] ((fun f2 => map (fun f1 => diff f2 f1) fm1) [])) by (rewrite map_length; lia).
      rewrite (map_nth (fun f2 => map (fun f1 => diff f2 f1) fm1)). auto. }
    rewrite EN. rewrite amin_le by (intros Q; apply (f_equal (@length R)) in Q; rewrite map_length in Q; cbn in Q; lia).
    rewrite map_length, LF1.
    split; intros (j & Hj & Q); exists j; (split; [auto|]);
      [rewrite (nth_indep _ 0 (diff (nth k fm2 []) [])) in Q by (rewrite map_length; lia)|rewrite (nth_indep _ 0 (diff (nth k fm2 []) [])) by (rewrite map_length; lia)];
      rewrite map_nth in *; auto. }
  assert (FA : forallb (fun b => b) (map2 (fun a b => (Rleb a (/ 10 ^ 8) || Rleb b (/ 10 ^ 8))%bool) mins0 mins1) = true <->
    forall k, (k < m)%nat -> (exists i, (i < m)%nat /\ near dims cell1 (/ 10 ^ 8) (nth i motif2 []) (nth k motif1 [])) \/
       (exists j, (j < m)%nat /\ near dims cell1 (/ 10 ^ 8) (nth k motif2 []) (nth j motif1 []))).
  { rewrite forallb_nth, map2_len, L0, L1, Nat.min_id. split; intros H k Hk; specialize (H k Hk).
    - rewrite (map2_nth _ _ _ _ mins0 mins1 0 0) in H by lia. apply orb_true_iff in H. rewrite !Rleb_true in H.
      destruct H as [H|H]; [left; apply E0 in H as (i & Hi & Q); auto|right; apply E1 in H as (j & Hj & Q); auto]; [exists i|exists j]; split; auto; apply DIFF; auto.
    - rewrite (map2_nth _ _ _ _ mins0 mins1 0 0) by lia. apply orb_true_iff. rewrite !Rleb_true.
      destruct H as [(i & Hi & Q)|(j & Hj & Q)]; [left; apply E0; auto; exists i|right; apply E1; auto; exists j]; split; auto; apply DIFF; auto. }
  rewrite <- EL. destruct (forallb _ _); cbn [negb].
  - exists true. split; auto. split; auto. intros _. split; auto. split; auto. apply FA. auto.
  - exists false. split; auto. split; [discriminate|]. intros (_ & _ & Q). apply FA in Q. discriminate.
Qed.

Lemma near_sym : forall dims cell tol p q, near dims cell tol p q -> near dims cell tol q p.
Proof.
  intros dims cell tol p q (f & g & Hf & Hg & C). exists g, f. split; auto. split; auto. apply close_sym; auto.
  destruct Hf, Hg. congruence.
Qed.
Lemma near_refl : forall dims cell cell_inv tol p, 0 <= tol -> is_inverse dims cell cell_inv -> length p = dims -> near dims cell tol p p.
Proof.
  intros dims cell cell_inv tol p Ht (_ & I1 & _) L. exists (map (comb_coord cell_inv p) (seq 0 dims)), (map (comb_coord cell_inv p) (seq 0 dims)).
  split; [apply I1; auto|]. split; [apply I1; auto|]. apply close_refl; auto.
Qed.
Lemma tol_pos : 0 <= / 10 ^ 8.
Proof. left. apply Rinv_0_lt_compat, pow_lt. lra. Qed.
Lemma cells_close_refl : forall cell, cells_close cell cell.
Proof.
  intros cell i j _ _. rewrite Rminus_diag_eq, Rabs_R0 by auto. pose proof tol_pos. pose proof (Rabs_pos (entry cell i j)).
  assert (0 <= / 10 ^ 5) by (left; apply Rinv_0_lt_compat, pow_lt; lra). nra.
Qed.

(** A set equals itself, also when its points are taken in another order and moved by lattice vectors or by little. *)
Theorem C54_complete : forall dims inv motif1 motif2 cell cell_inv,
  pset_ok dims motif1 cell -> pset_ok dims motif2 cell -> inv cell = Done cell_inv -> is_inverse dims cell cell_inv ->
  length motif1 = length motif2 ->
  (forall p, In p motif1 -> exists q, In q motif2 /\ near dims cell (/ 10 ^ 8) p q) ->
  equal_cell_and_motif inv motif1 cell motif2 cell = Done true.
Proof.
  intros dims inv motif1 motif2 cell cell_inv H1 H2 HI HC HL H.
  destruct (C54_meaning dims inv motif1 cell motif2 cell cell_inv H1 H2 HI HC) as (b & E & M). rewrite E. f_equal. apply M.
  split; [apply cells_close_refl|]. split; auto. intros k Hk. left.
  destruct (H (nth k motif1 [])) as (q & Hq & N); [apply nth_In; auto|]. apply (In_nth _ _ []) in Hq as (i & Hi & <-). exists i. split; auto. apply near_sym. auto.
Qed.
Theorem C54_reflexive : forall dims inv motif cell cell_inv,
  pset_ok dims motif cell -> inv cell = Done cell_inv -> is_inverse dims cell cell_inv ->
  equal_cell_and_motif inv motif cell motif cell = Done true.
Proof.
  intros dims inv motif cell cell_inv H HI HC. eapply C54_complete; eauto. intros p Hp. exists p. split; auto.
  eapply near_refl; eauto; [apply tol_pos|]. destruct H as [_ _ ML _ _]. rewrite Forall_forall in ML. auto.
Qed.
Theorem C54_symmetric : forall dims inv motif1 motif2 cell cell_inv,
  pset_ok dims motif1 cell -> pset_ok dims motif2 cell -> inv cell = Done cell_inv -> is_inverse dims cell cell_inv ->
  equal_cell_and_motif inv motif1 cell motif2 cell = equal_cell_and_motif inv motif2 cell motif1 cell.
Proof.
  intros dims inv motif1 motif2 cell cell_inv H1 H2 HI HC.
  destruct (C54_meaning dims inv motif1 cell motif2 cell cell_inv H1 H2 HI HC) as (b & E & M).
  destruct (C54_meaning dims inv motif2 cell motif1 cell cell_inv H2 H1 HI HC) as (b' & E' & M').
  rewrite E, E'. f_equal. apply eq_true_iff_eq. rewrite M, M'.
  assert (S : forall (m1 m2 : list (list R)), length m1 = length m2 -> (forall k, (k < length m1)%nat ->
       (exists i, (i < length m2)%nat /\ near dims cell (/ 10 ^ 8) (nth i m2 []) (nth k m1 [])) \/
       (exists j, (j < length m1)%nat /\ near dims cell (/ 10 ^ 8) (nth k m2 []) (nth j m1 []))) ->
     (forall k, (k < length m2)%nat ->
       (exists i, (i < length m1)%nat /\ near dims cell (/ 10 ^ 8) (nth i m1 []) (nth k m2 [])) \/
       (exists j, (j < length m2)%nat /\ near dims cell (/ 10 ^ 8) (nth k m1 []) (nth j m2 [])))).
  { intros m1 m2 L Q k Hk. destruct (Q k) as [(i & Hi & N)|(j & Hj & N)]; [lia| |]; [right; exists i|left; exists j]; split; auto; apply near_sym; auto. }
  split; intros (_ & L & Q); (split; [apply cells_close_refl|]); (split; [auto|]); apply S; auto.
Qed.

Lemma one_inverse : is_inverse 1 [[1]] [[1]].
Proof.
  split; [split; auto|]. split.
  - intros p L. destruct p as [|a [|? ?]]; try discriminate. split; auto. unfold comb_coord, rsum. cbn [length seq map nth fold_right]. f_equal. lra.
  - intros f p [L ->]. destruct f as [|a [|? ?]]; try discriminate. unfold comb_coord, rsum. cbn [length seq map nth fold_right]. f_equal. lra.
Qed.
Lemma one_ok : forall a b, pset_ok 1 [[a]; [b]] [[1]].
Proof. intros a b. split; auto; discriminate. Qed.
Lemma one_near : forall a b tol, near 1 [[1]] tol [a] [b] <-> exists n : Z, Rabs (a - b - IZR n) <= tol.
Proof.
  intros a b tol. split.
  - intros (f & g & [Lf Ef] & [Lg Eg] & C). destruct f as [|f0 [|? ?]]; try discriminate. destruct g as [|g0 [|? ?]]; try discriminate.
    unfold comb_coord, rsum in Ef, Eg. cbn [length seq map nth fold_right] in Ef, Eg. injection Ef as ->. injection Eg as ->.
    apply close_cons in C as [(n & Hn) _]. exists n. replace (f0 * 1 + 0 - (g0 * 1 + 0)) with (f0 - g0) by ring. auto.
  - intros (n & Hn). exists [a], [b]. unfold fractional, comb_coord, rsum. cbn [length seq map nth fold_right].
    split; [split; auto; f_equal; ring|]. split; [split; auto; f_equal; ring|]. apply close_cons. split; [exists n; auto|apply close_nil].
Qed.
(** The point 1/2 of the first motif is not in the second, which is {3/10, 0}. *)
Theorem C54_points_refuted : exists inv motif1 motif2 cell cell_inv p,
  pset_ok 1 motif1 cell /\ pset_ok 1 motif2 cell /\ inv cell = Done cell_inv /\ is_inverse 1 cell cell_inv /\
  equal_cell_and_motif inv motif1 cell motif2 cell = Done true /\
  In p motif1 /\ forall q, In q motif2 -> ~ near 1 cell (/ 10) p q.
Proof.
  exists (fun c => Done c), [[0]; [1 / 2]], [[3 / 10]; [0]], [[1]], [[1]], [1 / 2].
  pose proof (one_ok 0 (1 / 2)) as O1. pose proof (one_ok (3 / 10) 0) as O2.
  split; [auto|]. split; [auto|]. split; [reflexivity|]. split; [apply one_inverse|]. split; [|split; [cbn; auto|]].
  - destruct (C54_meaning 1 (fun c => Done c) [[0]; [1 / 2]] [[1]] [[3 / 10]; [0]] [[1]] [[1]] O1 O2 eq_refl one_inverse) as (b & E & M).
    rewrite E. f_equal. apply M. split; [apply cells_close_refl|]. split; auto. pose proof tol_pos as T.
    intros k Hk. destruct k as [|[|k]]; [left; exists 1%nat|right; exists 0%nat|cbn in Hk; lia]; (split; [cbn; lia|]); cbn [nth];
      apply one_near; exists 0%Z; rewrite !Rminus_0_r, Rabs_R0; auto.
  - intros q [<-|[<-|[]]] N; apply one_near in N as (n & Hn).
    + assert (0 < IZR n < 1) as [H1 H2]; [unfold Rabs in Hn; destruct (Rcase_abs _); lra|]. apply lt_IZR in H1. apply lt_IZR in H2. lia.
    + assert (0 < IZR n < 1) as [H1 H2]; [unfold Rabs in Hn; destruct (Rcase_abs _); lra|]. apply lt_IZR in H1. apply lt_IZR in H2. lia.
Qed.

Example C54_case : pset_ok 1 [[0]; [1 / 2]] [[1]] /\ pset_ok 1 [[3 / 2]; [0]] [[1]] /\ is_inverse 1 [[1]] [[1]] /\
  near 1 [[1]] (/ 10 ^ 8) [1 / 2] [3 / 2].
Proof.
  split; [apply one_ok|]. split; [apply one_ok|]. split; [apply one_inverse|]. apply one_near. exists (-1)%Z.
  replace (1 / 2 - 3 / 2 - -1) with 0 by field. rewrite Rabs_R0. apply tol_pos.
Qed.

(** ** C62 *)
Lemma rdot_maps : forall (f g : nat -> R) l, rdot (map f l) (map g l) = rsum (map (fun k => f k * g k) l).
Proof. induction l as [|k l IH]; cbn [map rdot]; [reflexivity|]. unfold rsum. cbn [map fold_right]. rewrite IH. auto. Qed.
Lemma sum_delta : forall n s i x, rsum (map (fun k => (if (i =? k)%nat then x k else 0)) (seq s n)) =
  if ((s <=? i) && (i <? s + n))%nat then x i else 0.
Proof.
  induction n as [|n IH]; intros s i x.
  - cbn [seq map]. destruct (Nat.leb_spec s i), (Nat.ltb_spec i (s + 0)); cbn [andb]; auto. lia.
  - cbn [seq map]. unfold rsum in *. cbn [fold_right]. rewrite IH.
    destruct (Nat.eqb_spec i s) as [->|HN].
    + destruct (Nat.leb_spec (S s) s), (Nat.leb_spec s s), (Nat.ltb_spec s (s + S n)); cbn [andb]; try lia; lra.
    + destruct (Nat.leb_spec (S s) i), (Nat.leb_spec s i), (Nat.ltb_spec i (S s + n)), (Nat.ltb_spec i (s + S n)); cbn [andb]; try lia; lra.
Qed.
Theorem C62_cubic : forall scale dims, exists cell, cubic scale dims = ([repeat 0 dims], cell) /\ square_matrix dims cell /\
  forall i j, (i < dims)%nat -> (j < dims)%nat -> rdot (nth i cell []) (nth j cell []) = if (i =? j)%nat then scale * scale else 0.
Proof.
  intros scale dims. unfold cubic. eexists. split; [reflexivity|]. split.
  - split; [rewrite map_length, seq_length; auto|]. apply Forall_forall. intros r Hr. apply in_map_iff in Hr as (i & <- & _). rewrite map_length, seq_length. auto.
  - intros i j Hi Hj. set (row := fun i => map (fun j => (if (i =? j)%nat then 1 else 0) * scale) (seq 0 dims)).
    assert (N : forall k, (k < dims)%nat -> nth k (map row (seq 0 dims)) [] = row k).
    { intros k Hk. rewrite (nth_indep (map row (seq 0 dims)) [] (row 0%nat)) by (rewrite map_length, seq_length; auto). rewrite map_nth, seq_nth by auto. auto. }
    rewrite !N by auto. unfold row. rewrite rdot_maps.
    rewrite (map_ext _ (fun k => if (i =? k)%nat then (if (j =? k)%nat then scale * scale else 0) else 0)).
    + rewrite sum_delta. destruct (Nat.leb_spec 0 i), (Nat.ltb_spec i (0 + dims)); cbn [andb]; try lia. rewrite Nat.eqb_sym. auto.
    + intros k. destruct (i =? k)%nat, (j =? k)%nat; lra.
Qed.
Theorem C62_hexagonal : forall scale, 0 < scale ->
  (exists cell, hexagonal scale 3 = Done ([repeat 0 3], cell) /\ square_matrix 3 cell /\ has_parameters cell scale scale scale 90 90 120 /\
     0 < det3 cell) /\
  (exists cell, hexagonal scale 2 = Done ([repeat 0 2], cell) /\ square_matrix 2 cell /\ has_parameters_2D cell scale scale 60 /\ 0 < det2 cell) /\
  forall dims, dims <> 2%nat -> dims <> 3%nat -> hexagonal scale dims = Raise NotImplementedError.
Proof.
  intros s Hs. split; [|split].
  - unfold hexagonal. assert (V : unit_volume_sq 90 90 120 = 3 / 4) by (unfold unit_volume_sq; rewrite cos_90, cos_120; lra).
    destruct (cellpar_cases s s s 90 90 120 90 90 120 Hs Hs Hs ltac:(lra) ltac:(lra) ltac:(lra) rounded_90 rounded_90 rounded_120) as [OK _].
    destruct OK as (cell & E & SQ & _ & _ & HP & DT); [lra|]. rewrite E. cbn [obind]. exists cell. split; auto. split; auto. split; auto.
    rewrite DT, V. assert (0 < sqrt (3 / 4)) by (apply sqrt_lt_R0; lra). repeat apply Rmult_lt_0_compat; auto.
  - destruct (C52_cellpar_2D s s 60 Hs Hs ltac:(lra)) as (cell & E & SQ & _ & HP & _ & DP & _). exists cell. unfold hexagonal. rewrite E. auto.
  - intros dims H2 H3. unfold hexagonal. destruct dims as [|[|[|[|dims]]]]; auto; congruence.
Qed.

Lemma random_points : forall dims draw2 n cell, (2 <= dims)%nat -> (forall i, 0 <= draw2 i < 1) -> square_matrix dims cell ->
  let motif := map (fun f => row_times f cell) (map (fun i => map (fun j => draw2 (i * dims + j)%nat) (seq 0 dims)) (seq 0 n)) in
  length motif = n /\ Forall (in_cell dims cell) motif.
Proof.
  intros dims draw2 n cell HD Hd HS motif. unfold motif. split; [rewrite !map_length, seq_length; auto|]. apply Forall_forall. intros p Hp. apply in_map_iff in Hp as (f & <- & Hf).
  apply in_map_iff in Hf as (i & <- & _). set (f := map (fun j => draw2 (i * dims + j)%nat) (seq 0 dims)).
  assert (L : length f = dims) by (unfold f; rewrite map_length, seq_length; auto). exists f. split; auto. split; [|apply row_times_coord; auto; lia].
  apply Forall_forall. intros x Hx. apply in_map_iff in Hx as (j & <- & _). auto.
Qed.
(** The random sets: the motif has the number of points asked for, inside of the cell, and the cell is within the bounds. *)
Theorem C62_random : forall draw draw2 n ll lu al au fuel, (forall i, 0 <= draw i < 1) -> (forall i, 0 <= draw2 i < 1) -> 0 < ll <= lu ->
  (60 <= al <= au -> au <= 120 -> exists motif cell a b c x y z x' y' z', random_set (S fuel) draw draw2 n ll lu al au 3 = Done (motif, cell) /\
     length motif = n /\ Forall (in_cell 3 cell) motif /\ square_matrix 3 cell /\
     has_parameters cell a b c x' y' z' /\ rounded_angle x x' /\ rounded_angle y y' /\ rounded_angle z z' /\
     ll <= a <= lu /\ ll <= b <= lu /\ ll <= c <= lu /\ al <= x <= au /\ al <= y <= au /\ al <= z <= au) /\
  (0 < al <= au -> au < 180 -> exists motif cell a b x, random_set fuel draw draw2 n ll lu al au 2 = Done (motif, cell) /\
     length motif = n /\ Forall (in_cell 2 cell) motif /\ square_matrix 2 cell /\ has_parameters_2D cell a b x /\
     ll <= a <= lu /\ ll <= b <= lu /\ al <= x <= au) /\
  forall dims, dims <> 2%nat -> dims <> 3%nat -> random_set fuel draw draw2 n ll lu al au dims = Raise NotImplementedError.
Proof.
  intros draw draw2 n ll lu al au fuel HD HD2 HL. split; [|split].
  - intros HA HU. destruct (C53_default_partial draw ll lu al au fuel HD HL HA HU) as (cell & a & b & c & x & y & z & x' & y' & z' & E & HS & HP & HQ).
    unfold random_set. cbn [Nat.eqb orb negb]. rewrite E. cbn [obind]. do 11 eexists. split; [reflexivity|].
    destruct (random_points 3 draw2 n cell ltac:(lia) HD2 HS) as [Q1 Q2]. split; [exact Q1|]. split; [exact Q2|]. split; auto. split; [exact HP|]. exact HQ.
  - intros HA HU. destruct (C53_two_dimensions draw ll lu al au fuel HD HL HA HU) as (cell & a & b & x & E & HS & HP & HQ).
    unfold random_set. cbn [Nat.eqb orb negb]. rewrite E. cbn [obind]. do 5 eexists. split; [reflexivity|].
    destruct (random_points 2 draw2 n cell ltac:(lia) HD2 HS) as [Q1 Q2]. split; [exact Q1|]. split; [exact Q2|]. split; auto. split; [exact HP|]. exact HQ.
  - intros dims H2 H3. unfold random_set. apply Nat.eqb_neq in H2, H3. rewrite H2, H3. auto.
Qed.
Example C62_case : 0 < 2 /\ (forall i : nat, 0 <= (fun i => / (2 + INR i)) i < 1) /\ 60 <= 60 <= 120.
Proof.
  split; [lra|]. split; [|lra]. intros i. pose proof (pos_INR i). split; [left; apply Rinv_0_lt_compat; lra|].
  rewrite <- Rinv_1. apply Rinv_lt_contravar; lra.
Qed.

Print Assumptions C54_meaning.
Print Assumptions C54_complete.
Print Assumptions C54_reflexive.
Print Assumptions C54_symmetric.
Print Assumptions C54_points_refuted.
Print Assumptions C62_cubic.
Print Assumptions C62_hexagonal.
Print Assumptions C62_random.
