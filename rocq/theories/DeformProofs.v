(** Lemmas for C82: distances in deformed sets. *)
From Coq Require Import List ZArith Arith Bool Lia Reals Lra Permutation Sorted.
From Verif Require Import AsymProofs2 RoundSum.
From Verif Require Import Num Base Spec SpecGeom SpecCalc SpecCont SpecDeform Outcome NNModel VecR NNProofs NNSpecProofs NNComplete
  NNInvariance Props_NN CalcModel CalcProofs CalcProofs2 CalcCanon CalcInv Line Props_Calc Props_Inv Props_Geo.
From Verif Require Import Sums SpecEmd Props_EmdPdd ContProofs.
From Verif Require Import SpecRoundSites.
From Verif Require RoundSites3.
Import ListNotations.
Open Scope R_scope.

(** ** Distances as lengths of combinations *)
Lemma vlength_edist : forall dims cell f g, edist (combination dims cell f) (combination dims cell g) =
  sqrt (rsum (map (fun j => (comb_coord cell f j - comb_coord cell g j) * (comb_coord cell f j - comb_coord cell g j)) (seq 0 dims))).
Proof.
  intros. unfold edist, combination. f_equal. generalize (seq 0 dims) as l. induction l as [|j l IH]; [reflexivity|].
  cbn [map sq_dist]. unfold rsum in *. cbn [fold_right]. rewrite IH. reflexivity.
Qed.

Lemma vlength_sum : forall dims cell f, vlength (combination dims cell f) =
  sqrt (rsum (map (fun j => comb_coord cell f j * comb_coord cell f j) (seq 0 dims))).
Proof.
  intros. unfold vlength, combination. f_equal. generalize (seq 0 dims) as l. induction l as [|j l IH]; [reflexivity|].
  cbn [map rdot]. unfold rsum in *. cbn [fold_right]. rewrite IH. reflexivity.
Qed.

Lemma comb_minus : forall cell f g j, length cell = length f -> length f = length g ->
  comb_coord cell (map (fun r => nth r f 0 - nth r g 0) (seq 0 (length f))) j = comb_coord cell f j - comb_coord cell g j.
Proof.
  intros cell f g j H1 H2. unfold comb_coord. rewrite H1.
  assert (G : forall l, (forall r, In r l -> (r < length f)%nat) ->
    rsum (map (fun r => nth r (map (fun r => nth r f 0 - nth r g 0) (seq 0 (length f))) 0 * nth j (nth r cell []) 0) l) =
    rsum (map (fun r => nth r f 0 * nth j (nth r cell []) 0) l) - rsum (map (fun r => nth r g 0 * nth j (nth r cell []) 0) l)).
  { induction l as [|r l IH]; intros Hl; unfold rsum in *; cbn [map fold_right]; [lra|].
    rewrite IH by (intros; apply Hl; simpl; auto). rewrite (nth_map_seq (fun r => nth r f 0 - nth r g 0)) by (apply Hl; simpl; auto). ring. }
  apply G. intros r Hr. apply in_seq in Hr. lia.
Qed.

Lemma edist_strained : forall dims cell cell' delta f g, length cell = dims -> length cell' = dims ->
  strained dims cell cell' delta -> length f = dims -> length g = dims ->
  Rabs (edist (combination dims cell' f) (combination dims cell' g) - edist (combination dims cell f) (combination dims cell g)) <=
  delta * edist (combination dims cell f) (combination dims cell g).
Proof.
  intros dims cell cell' delta f g Hc Hc' HS Hf Hg.
  set (x := map (fun r => nth r f 0 - nth r g 0) (seq 0 dims)).
  assert (E : forall c, length c = dims -> edist (combination dims c f) (combination dims c g) = vlength (combination dims c x)).
  { intros c Lc. rewrite vlength_edist, vlength_sum. f_equal. f_equal. apply map_ext. intros j. unfold x. rewrite <- Hf. rewrite comb_minus by lia. reflexivity. }
  rewrite !E by auto. apply HS. unfold x. rewrite map_length, seq_length. auto.
Qed.

Lemma ppoint_combination : forall dims motif cell l i f t, length cell = dims -> length l = dims -> length f = dims ->
  nth i motif [] = map (fun j => comb_coord cell f j + nth j t 0) (seq 0 dims) ->
  ppoint dims motif cell (l, i) = map (fun j => comb_coord cell (map (fun r => nth r f 0 - nth r (map (fun z => - IZR z) l) 0) (seq 0 dims)) j + nth j t 0) (seq 0 dims).
Proof.
  intros dims motif cell l i f t Hc Hl Hf E. unfold ppoint. cbn [fst snd]. rewrite E. apply map_ext_in. intros j Hj. apply in_seq in Hj.
  rewrite (nth_map_seq (fun j => comb_coord cell f j + nth j t 0)) by lia. rewrite <- Hf. rewrite comb_minus by (rewrite ?map_length; lia).
  unfold lattice_coord, comb_coord. generalize (seq 0 (length cell)) as s. intros s.
  enough (G : rsum (map (fun r => nth r (map IZR l) 0 * nth j (nth r cell []) 0) s) = - rsum (map (fun r => nth r (map (fun z => - IZR z) l) 0 * nth j (nth r cell []) 0) s)) by lra.
  induction s as [|r s IH]; unfold rsum in *; cbn [map fold_right]; [lra|]. rewrite IH.
  replace (nth r (map (fun z => - IZR z) l) 0) with (- nth r (map IZR l) 0); [ring|].
  clear. revert r. induction l as [|z l IH]; intros [|r]; simpl; auto; ring.
Qed.

Lemma edist_origin : forall dims cell f g t,
  edist (map (fun j => comb_coord cell f j + nth j t 0) (seq 0 dims)) (map (fun j => comb_coord cell g j + nth j t 0) (seq 0 dims)) =
  edist (combination dims cell f) (combination dims cell g).
Proof.
  intros. unfold edist, combination. f_equal. generalize (seq 0 dims) as l. induction l as [|j l IH]; [reflexivity|].
  cbn [map sq_dist]. rewrite IH. ring.
Qed.

Lemma combination_origin : forall dims cell f, combination dims cell f = map (fun j => comb_coord cell f j + nth j [] 0) (seq 0 dims).
Proof. intros. unfold combination. apply map_ext. intros j. destruct j; simpl; lra. Qed.

(** ** Points carried along with the cell *)
Section Carried.
  Variables (dims : nat) (cell cell' motif mid : list (list R)) (delta : R).
  Hypothesis Hok : pset_ok dims motif cell.
  Hypothesis Hc' : length cell' = dims.
  Hypothesis HC : carried dims cell cell' motif mid.
  Hypothesis HS : strained dims cell cell' delta.

  Lemma carried_ok : Forall (fun r => length r = dims) cell' -> pset_ok dims mid cell'.
  Proof.
    intros HV. destruct HC as (L & t & frac & HF). destruct Hok as [O1 O2 O3 O4 O5]. constructor; auto.
    - intros ->. apply O2. destruct motif; [reflexivity|discriminate].
    - apply Forall_forall. intros p Hp. destruct (In_nth _ _ [] Hp) as (i & Hi & <-). destruct (HF i ltac:(lia)) as (_ & _ & ->).
      rewrite map_length, seq_length. auto.
  Qed.

  Lemma carried_dist : forall i a, (i < length motif)%nat -> pindex dims motif a -> pindex dims mid a /\
    Rabs (edist (nth i mid []) (ppoint dims mid cell' a) - edist (nth i motif []) (ppoint dims motif cell a)) <=
    delta * edist (nth i motif []) (ppoint dims motif cell a).
  Proof.
    intros i [l r] Hi [Hl Hr]. cbn [fst snd] in *. destruct HC as (L & t & frac & HF). destruct (HF i Hi) as (F1 & F2 & F3). destruct (HF r Hr) as (G1 & G2 & G3).
    pose proof (ok_cell _ _ _ Hok) as Lc. split; [split; cbn [fst snd]; auto; lia|].
    rewrite combination_origin in F2, G2. rewrite (ppoint_combination dims motif cell l r (frac r) []), (ppoint_combination dims mid cell' l r (frac r) t) by auto. rewrite F2, F3, !edist_origin.
    apply edist_strained; auto. rewrite map_length, seq_length. auto.
  Qed.
End Carried.

(** ** Nearest distances *)
Section Perturbed.
  Variables (dims : nat) (cell cell' motif mid motif' : list (list R)) (delta eps : R) (sigma : nat -> nat) (shift : nat -> list Z).
  Hypothesis Hok : pset_ok dims motif cell.
  Hypothesis Hok' : pset_ok dims motif' cell'.
  Hypothesis HC : carried dims cell cell' motif mid.
  Hypothesis HS : strained dims cell cell' delta.
  Hypothesis Hd : 0 <= delta < 1.
  Hypothesis Hm : moved_by dims cell' eps mid motif' sigma shift.

  Lemma perturbed_nearest : forall i n ds ds', (i < length motif)%nat ->
    nearest_distances dims motif cell (nth i motif []) n ds ->
    nearest_distances dims motif' cell' (nth (sigma i) motif' []) n ds' ->
    forall j, (j < n)%nat -> Rabs (nth j ds' 0 - nth j ds 0) <= delta * nth j ds 0 + 2 * eps.
  Proof.
    intros i n ds ds' Hi N N' j Hj.
    pose proof (carried_ok _ _ _ _ _ Hok (ok_cell _ _ _ Hok') HC (ok_cell_len _ _ _ Hok')) as Hmid.
    pose proof (carried_dist _ _ _ _ _ _ Hok (ok_cell _ _ _ Hok') HC HS) as CD.
    assert (L : length mid = length motif) by apply HC.
    assert (Hi' : (i < length mid)%nat) by lia.
    assert (PI : forall a, pindex dims motif a <-> pindex dims mid a) by (intros a; unfold pindex; rewrite L; tauto).
    assert (U : nth j ds' 0 <= (1 + delta) * nth j ds 0 + 2 * eps).
    { apply (nearest_le_phi dims motif cell motif' cell' _ _ n ds ds' (fun x => (1 + delta) * x + 2 * eps) (follow_index sigma shift i) N N'); auto.
      - intros a b Ha Hb. apply (follow_index_inj dims cell' mid motif' eps sigma shift Hm i Hi'); apply PI; auto.
      - intros a Ha. destruct (CD i a Hi Ha) as [P1 P2]. destruct (follow_index_near dims cell' mid motif' eps sigma shift Hmid Hok' Hm i Hi' a P1) as [Q1 Q2].
        split; auto. apply Rabs_le_both in P2. lra.
      - intros x y Hxy. assert ((1 + delta) * x <= (1 + delta) * y) by (apply Rmult_le_compat_l; lra). lra. }
    destruct (moved_back _ _ _ _ _ _ _ Hmid Hok' Hm) as (tau & back & Hb & T).
    pose proof (moved_range _ _ _ _ _ _ _ Hm i Hi') as SR.
    assert (D : nth j ds 0 <= (nth j ds' 0 + 2 * eps) / (1 - delta)).
    { apply (nearest_le_phi dims motif' cell' motif cell _ _ n ds' ds (fun x => (x + 2 * eps) / (1 - delta)) (follow_index tau back (sigma i)) N' N); auto.
      - intros a b Ha Hb'. apply (follow_index_inj dims cell' motif' mid eps tau back Hb (sigma i) SR); auto.
      - intros a Ha. destruct (follow_index_near dims cell' motif' mid eps tau back Hok' Hmid Hb (sigma i) SR a Ha) as [Q1 Q2].
        rewrite (T i Hi') in Q2. apply PI in Q1. split; auto. destruct (CD i _ Hi Q1) as [P1 P2]. apply Rabs_le_both in P2.
        apply Rmult_le_reg_r with (1 - delta); [lra|]. unfold Rdiv. rewrite Rmult_assoc, Rinv_l, Rmult_1_r by lra. lra.
      - intros x y Hxy. apply Rmult_le_compat_r; [left; apply Rinv_0_lt_compat; lra|lra]. }
    assert (D' : nth j ds 0 * (1 - delta) <= nth j ds' 0 + 2 * eps).
    { apply Rmult_le_compat_r with (r := 1 - delta) in D; [|lra]. unfold Rdiv in D. rewrite Rmult_assoc, Rinv_l, Rmult_1_r in D by lra. exact D. }
    apply Rabs_le. lra.
  Qed.
End Perturbed.

(** ** AMDs as averages over the motif points *)
Lemma nearest_entry : forall dims motif cell p n ds ds', nearest_distances dims motif cell p n ds -> nearest_distances dims motif cell p n ds' ->
  forall j, (j < n)%nat -> nth j ds' 0 = nth j ds 0.
Proof.
  intros dims motif cell p n ds ds' N N' j Hj.
  pose proof (nearest_le_map dims motif cell motif cell p p n ds ds' 0 (fun a => a) N N' (fun _ _ _ _ e => e) ltac:(intros a Ha; split; [exact Ha|lra]) j Hj).
  pose proof (nearest_le_map dims motif cell motif cell p p n ds' ds 0 (fun a => a) N' N (fun _ _ _ _ e => e) ltac:(intros a Ha; split; [exact Ha|lra]) j Hj).
  lra.
Qed.

Lemma amd_of_points : forall dims ps k fuel a, pset_wf dims ps -> (dims <= 4)%nat -> spread dims (ps_cell ps) (ps_motif ps) ->
  stands_for dims (ps_motif ps) (ps_cell ps) (positions_of ps) (counts_of ps) -> AMD fuel ps k = Done a ->
  forall (near : nat -> list R), (forall i, (i < length (ps_motif ps))%nat ->
    nearest_distances dims (ps_motif ps) (ps_cell ps) (nth i (ps_motif ps) []) (S k) (near i)) ->
  forall j, (j < k)%nat -> nth j a 0 = Sum (length (ps_motif ps)) (fun i => nth (S j) (near i) 0) / INR (length (ps_motif ps)).
Proof.
  intros dims ps k fuel a Hwf H4 Hin Hst A near HN j Hj.
  assert (T : exists pdd g, PDD fuel ps k false false 0 = Done (pdd, g)).
  { destruct (AMD_Done _ _ _ _ _ Hwf A) as (rows & En & _). rewrite (PDD_run dims ps Hwf), En. simpl. eauto. }
  destruct T as (pdd & g & E).
  rewrite (C15_average_exact _ _ _ _ _ _ _ _ _ Hwf (or_introl eq_refl) E) in A. injection A as <-.
  destruct (C14_pdd_is_distribution _ _ _ _ _ _ _ _ _ Hwf E) as ((HF & HSum) & _).
  rewrite (wmean_row k); auto. 2:{ eapply Forall_impl; [|exact HF]; cbn; tauto. }
  destruct (pdd_rows_of_points _ _ _ _ _ _ _ _ _ Hwf H4 Hin Hst (Rle_refl 0) E) as (r & near0 & HR & HW).
  unfold row_mean. assert (LA : length (pdd_array pdd) = length pdd) by apply map_length. rewrite LA.
  set (m := length (ps_motif ps)) in *.
  transitivity (Sum (length pdd) (fun s => Sum m (fun i => (nth j (snd (nth s pdd (0, []))) 0 * / INR m) * ind (r i) s))).
  - apply Sum_ext. intros s Hs. unfold mx. rewrite pdd_array_nth by auto. cbn [nth]. rewrite HW by auto. rewrite <- ind_count.
    rewrite Sum_scal. unfold Rdiv. change (vec R) with (list R). fold m. ring.
  - rewrite Sum_swap. unfold Rdiv. rewrite <- Sum_scal_r. apply Sum_ext. intros i Hi.
    destruct (HR i Hi) as (R1 & R2 & R3). rewrite (ind_sum (length pdd) (r i) (fun s => nth j (snd (nth s pdd (0, []))) 0 * / INR m)) by auto.
    f_equal. specialize (R3 j Hj). unfold slack in R3. rewrite (nearest_entry _ _ _ _ _ _ _ R2 (HN i Hi)) by lia. apply Rabs_le_both in R3. lra.
Qed.

Lemma Sum_perm : forall m f sigma, Permutation (map sigma (seq 0 m)) (seq 0 m) -> Sum m (fun i => f (sigma i)) = Sum m f.
Proof.
  intros m f sigma P.
  assert (G : forall g, Sum m g = rsum (map g (seq 0 m))).
  { clear. intros g. induction m as [|m IH]; [reflexivity|]. rewrite seq_S, map_app. cbn [Sum]. rewrite IH. clear.
    generalize (map g (seq 0 m)) as l. induction l as [|x l IH]; unfold rsum in *; cbn [fold_right app map] in *; [simpl; lra|]. rewrite <- IH. lra. }
  rewrite !G, <- (map_map sigma f). apply Permutation_map with (f := f) in P. unfold rsum. clear G.
  induction P; cbn [fold_right]; lra.
Qed.

(** ** A sufficient condition *)
Lemma vadd_nth : forall (u v : list R) j, (j < length u)%nat -> (j < length v)%nat -> nth j (vadd u v) 0 = nth j u 0 + nth j v 0.
Proof. induction u as [|a u IH]; intros [|b v] [|j] H H'; cbn in *; try lia; auto. apply IH; lia. Qed.
Lemma vsub_nth : forall (u v : list R) j, (j < length u)%nat -> (j < length v)%nat -> nth j (vsub u v) 0 = nth j u 0 - nth j v 0.
Proof. induction u as [|a u IH]; intros [|b v] [|j] H H'; cbn in *; try lia; auto. apply IH; lia. Qed.
Lemma vscale_nth : forall c (v : list R) j, (j < length v)%nat -> nth j (vscale c v) 0 = c * nth j v 0.
Proof. intros c. induction v as [|a v IH]; intros [|j] H; cbn in *; try lia; auto. apply IH; lia. Qed.
Lemma norm_vscale : forall c v, norm (vscale c v) = Rabs c * norm v.
Proof.
  intros c v. unfold norm. rewrite dot_vscale_l, dot_vscale_r, <- Rmult_assoc, sqrt_mult_alt by apply Rle_0_sqr. f_equal. apply sqrt_Rsqr_abs.
Qed.

Lemma norm_diff : forall u v, length u = length v -> Rabs (norm u - norm v) <= norm (vsub u v).
Proof.
  assert (T : forall u v : list R, length u = length v -> norm u - norm v <= norm (vsub u v)).
  { intros u v Luv. enough (norm u <= norm v + norm (vsub u v)) by lra. eapply Rle_trans; [|apply norm_triangle; rewrite vsub_length; lia]. right. f_equal.
    apply vec_ext; [rewrite vadd_length, vsub_length; lia|]. intros i Hi. rewrite vadd_nth, vsub_nth by (rewrite ?vsub_length; lia). lra. }
  intros u v L. pose proof (T u v L). pose proof (T v u (eq_sym L)) as B. rewrite norm_vsub_sym in B. apply Rabs_le. lra.
Qed.
Lemma dot_maps : forall A (f h : A -> R) l, dot (map f l) (map h l) = rsum (map (fun a => f a * h a) l).
Proof. intros A f h. induction l as [|a l IH]; [reflexivity|]. cbn [map]. rewrite dot_cons, IH. reflexivity. Qed.

Lemma combination_change : forall dims cell cell' x, length cell = dims -> length cell' = dims ->
  Forall (fun r => length r = dims) cell -> Forall (fun r => length r = dims) cell' -> length x = dims ->
  edist (combination dims cell' x) (combination dims cell x) <= rsum (map (fun r => Rabs (nth r x 0) * edist (nth r cell' []) (nth r cell [])) (seq 0 dims)).
Proof.
  intros dims cell cell' x Lc Lc' V V' Lx.
  assert (G : forall n, (n <= dims)%nat ->
    norm (map (fun j => rsum (map (fun r => nth r x 0 * (nth j (nth r cell' []) 0 - nth j (nth r cell []) 0)) (seq 0 n))) (seq 0 dims)) <=
    rsum (map (fun r => Rabs (nth r x 0) * edist (nth r cell' []) (nth r cell [])) (seq 0 n))).
  { induction n as [|n IH]; intros Hn.
    - cbn [seq map]. unfold rsum. cbn [fold_right]. unfold norm. enough (X : dot (map (fun _ => 0) (seq 0 dims)) (map (fun _ => 0) (seq 0 dims)) = 0) by (rewrite X, sqrt_0; lra).
      generalize (seq 0 dims) as l. induction l as [|y l IHl]; [reflexivity|]. cbn [map]. rewrite dot_cons, IHl. lra.
    - set (u := map (fun j => rsum (map (fun r => nth r x 0 * (nth j (nth r cell' []) 0 - nth j (nth r cell []) 0)) (seq 0 n))) (seq 0 dims)) in *.
      set (w := vsub (nth n cell' []) (nth n cell [])).
      assert (Ln : length (nth n cell []) = dims) by (rewrite Forall_forall in V; apply V, nth_In; lia).
      assert (Ln' : length (nth n cell' []) = dims) by (rewrite Forall_forall in V'; apply V', nth_In; lia).
      assert (Lw : length w = dims) by (unfold w; rewrite vsub_length; lia).
      assert (E : map (fun j => rsum (map (fun r => nth r x 0 * (nth j (nth r cell' []) 0 - nth j (nth r cell []) 0)) (seq 0 (S n)))) (seq 0 dims) =
        vadd u (vscale (nth n x 0) w)).
      { apply vec_ext.
        - rewrite vadd_length, vscale_length, Lw. unfold u. rewrite !map_length, seq_length. lia.
        - intros j Hj. rewrite map_length, seq_length in Hj. rewrite (nth_map_seq (fun j => rsum _)) by auto.
          rewrite vadd_nth by (unfold u; rewrite ?vscale_length, ?map_length, ?seq_length; lia). unfold u. rewrite (nth_map_seq (fun j => rsum _)) by auto.
          rewrite vscale_nth by lia. unfold w. rewrite vsub_nth by lia.
          rewrite seq_S, map_app, rsum_app. cbn [map]. unfold rsum at 2. cbn [fold_right]. simpl (0 + n)%nat. lra. }
      rewrite E. eapply Rle_trans; [apply norm_triangle; unfold u; rewrite vscale_length, map_length, seq_length; lia|].
      specialize (IH ltac:(lia)). rewrite seq_S, map_app, rsum_app. cbn [map]. unfold rsum at 2. cbn [fold_right]. simpl (0 + n)%nat.
      assert (X : norm (vscale (nth n x 0) w) = Rabs (nth n x 0) * edist (nth n cell' []) (nth n cell [])) by (rewrite norm_vscale; rewrite <- dist_edist; reflexivity).
      lra. }
  specialize (G dims (le_n _)). eapply Rle_trans; [|exact G]. right.
  rewrite <- dist_edist. unfold dist. f_equal. apply vec_ext.
  - unfold combination. rewrite vsub_length, !map_length, !seq_length. lia.
  - intros j Hj. unfold combination in *. rewrite vsub_length, !map_length, seq_length, Nat.min_id in Hj.
    rewrite vsub_nth by (rewrite !map_length, ?seq_length; auto). rewrite !nth_map_seq by auto.
    unfold comb_coord. rewrite Lc, Lc'. generalize (seq 0 dims) as l. induction l as [|r l IH]; unfold rsum in *; cbn [map fold_right]; [lra|]. rewrite <- IH. ring.
Qed.

Lemma combination_small : forall dims cell cell' x, length cell = dims -> length cell' = dims ->
  Forall (fun r => length r = dims) cell -> Forall (fun r => length r = dims) cell' -> length x = dims ->
  forall a, (forall r, (r < dims)%nat -> Rabs (nth r x 0) <= a) -> 0 <= a ->
  edist (combination dims cell' x) (combination dims cell x) <= a * cell_change dims cell cell'.
Proof.
  intros dims cell cell' x Lc Lc' V V' Lx a Ha A0. eapply Rle_trans; [apply combination_change; auto|]. unfold cell_change. rewrite <- rsum_scale. apply rsum_le. intros r Hr. apply in_seq in Hr.
  apply Rmult_le_compat_r; [apply sqrt_pos|]. apply Ha. lia.
Qed.
