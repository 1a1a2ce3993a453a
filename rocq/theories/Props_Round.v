(** C74: what rounding does to the nearest distances, AMD and PDD. *)
From Coq Require Import List ZArith Arith Bool Lia Reals Lra Psatz Permutation.
From Verif Require Import Num Base Spec Outcome NNModel VecR SpecGeom SpecCalc NNProofs NNComplete Props_NN CalcModel CalcProofs CalcProofs2 Props_Calc
  RoundModel SpecRound RoundSum RoundSearch RoundGeom RoundTop RoundCalc RoundCollapse RoundBinary.
Import ListNotations.
Open Scope R_scope.

(** The arithmetic, and a bound of the motif which is not tiny: its square times u^2 is at least
    the error of underflow. *)
Definition arithmetic_for (ar : arith) (u eta b : R) : Prop :=
  float_like u eta ar /\ u <= 1 / 10000 /\ 0 <= b /\ eta <= u * b /\ eta <= (u * b) * (u * b).

(** Whatever the search returns is within 100 u (d + b) of the true distance d, in order. *)
Theorem C74_rows_rounded : forall ar u eta b dims motif cell x k fuel rows,
  arithmetic_for ar u eta b -> pset_ok dims motif cell -> (dims <= 4)%nat -> spread_within (u / 8) dims cell motif ->
  motif_within ar b motif -> incl x motif -> x <> [] ->
  @nearest_neighbors R (num_of ar) fuel motif cell x (S k) = Done rows ->
  Forall2 (fun p r => forall ds, nearest_distances dims motif cell p (S k) ds -> Forall2 (fun d e => Rabs (e - d) <= 100 * u * (d + b)) ds r) x rows.
Proof. intros ar u eta b dims motif cell x k fuel rows (FL & Hu & Hb & He1 & He2) OK H4 Hin Hm Hx Hne E. pose proof (spread_dominant _ _ _ _ Hin) as Hdom. eapply rounded_nearest; eauto. Qed.

(** With enough iterations it returns. *)
Theorem C74_returns_rounded : forall ar u eta b dims motif cell x k,
  arithmetic_for ar u eta b -> pset_ok dims motif cell -> (dims <= 4)%nat -> half_dominant dims cell -> nonsingular dims cell ->
  motif_within ar b motif -> incl x motif -> x <> [] ->
  exists rows fuel0, forall fuel, (fuel0 <= fuel)%nat -> @nearest_neighbors R (num_of ar) fuel motif cell x (S k) = Done rows.
Proof. intros ar u eta b dims motif cell x k (FL & Hu & Hb & He1 & He2) OK H4 Hdom Hns Hm Hx Hne. eapply rounded_returns; eauto. Qed.

(** AMD returns, and every entry is within (110 + 3 m) u (a + b) of the exact one. *)
Theorem C74_amd_rounded : forall ar u eta b dims ps k,
  arithmetic_for ar u eta b -> pset_wf dims ps -> (dims <= 4)%nat -> nonsingular dims (ps_cell ps) ->
  spread dims (ps_cell ps) (ps_motif ps) -> motif_within ar b (ps_motif ps) -> INR (length (ps_motif ps)) * u <= 1 / 100 ->
  exists exact rounded fuel0, length exact = k /\ forall fuel, (fuel0 <= fuel)%nat ->
    AMD fuel ps k = Done exact /\ @AMD R (num_of ar) fuel ps k = Done rounded /\
    Forall2 (fun a c => Rabs (c - a) <= (110 + 3 * INR (length (ps_motif ps))) * u * (a + b)) exact rounded.
Proof.
  intros ar u eta b dims ps k AF Hwf H4 Hns Hin Hm HM. pose proof (spread_dominant _ _ _ _ Hin) as Hdom. pose proof AF as (FL & Hu & Hb & He1 & He2).
  destruct (C09_terminates dims _ _ (points_of ps) k (wf_ok _ _ Hwf) Hns (points_incl _ _ Hwf) (points_nonempty _ _ Hwf)) as (rows & f0 & H0).
  destruct (C74_returns_rounded ar u eta b dims _ _ (points_of ps) k AF (wf_ok _ _ Hwf) H4 Hdom Hns Hm (points_incl _ _ Hwf) (points_nonempty _ _ Hwf)) as (rows' & f1 & H1).
  assert (A0 : forall fuel, (f0 <= fuel)%nat -> AMD fuel ps k = Done (amd_of ps k rows)).
  { intros fuel Hf. rewrite (AMD_run dims ps Hwf). destruct (H0 fuel) as [E _]. rewrite (E Hf). reflexivity. }
  set (b' := map (fun j => r_div ar (r_dot ar (@col_of R (num_of ar) j rows') (map (@nofnat R (num_of ar)) (counts_of ps))) (r_sum ar (map (@nofnat R (num_of ar)) (counts_of ps)))) (seq 1 k)).
  assert (A1 : forall fuel, (f1 <= fuel)%nat -> @AMD R (num_of ar) fuel ps k = Done b').
  { intros fuel Hf. unfold AMD. rewrite (query_eq dims ps Hwf). cbn [obind]. pose proof (H1 fuel Hf) as E. rewrite E. cbn [obind]. unfold average_columns_except_first.
    pose proof (F2_len _ _ _ _ _ (C74_rows_rounded ar u eta b dims _ _ _ k fuel rows' AF (wf_ok _ _ Hwf) H4 (spread_rounded _ _ _ _ _ _ FL Hin) Hm (points_incl _ _ Hwf) (points_nonempty _ _ Hwf) E)) as L.
    rewrite (points_length _ _ Hwf) in L. replace (Nat.ltb (length (map (@nofnat R (num_of ar)) (counts_of ps))) (length rows')) with false; [|symmetry; apply Nat.ltb_ge; rewrite map_length; lia].
    replace (S k - 1)%nat with k by lia. reflexivity. }
  exists (amd_of ps k rows), b', (Nat.max f0 f1). split; [unfold amd_of; rewrite map_length, seq_length; auto|]. intros fuel Hf.
  pose proof (A0 fuel ltac:(lia)) as E0. pose proof (A1 fuel ltac:(lia)) as E1. split; [auto|]. split; [auto|]. eapply (amd_close ar u eta b dims ps FL Hu Hwf H4 Hdom (spread_rounded _ _ _ _ _ _ FL Hin)); eauto.
Qed.

(** PDD without collapsing: after a suitable reordering of the rows, which is none at all without
    the lexicographic sort, weights and distances are close. *)
Theorem C74_pdd_uncollapsed : forall ar u eta b dims ps k lexsort lexsort' tol tol',
  arithmetic_for ar u eta b -> pset_wf dims ps -> (dims <= 4)%nat -> nonsingular dims (ps_cell ps) ->
  spread dims (ps_cell ps) (ps_motif ps) -> motif_within ar b (ps_motif ps) -> INR (length (ps_motif ps)) * u <= 1 / 100 ->
  exists exact g rounded g' fuel0, (forall fuel, (fuel0 <= fuel)%nat ->
    PDD fuel ps k lexsort false tol = Done (exact, g) /\ @PDD R (num_of ar) fuel ps k lexsort' false tol' = Done (rounded, g')) /\
    exists e' r', Permutation exact e' /\ Permutation rounded r' /\ (lexsort = false -> e' = exact) /\ (lexsort' = false -> r' = rounded) /\
      Forall2 (fun x y => Rabs (fst y - fst x) <= 4 * u * fst x + eta /\ Forall2 (fun d e => Rabs (e - d) <= 100 * u * (d + b)) (snd x) (snd y)) e' r'.
Proof.
  intros ar u eta b dims ps k lexsort lexsort' tol tol' AF Hwf H4 Hns Hin Hm HM. pose proof (spread_dominant _ _ _ _ Hin) as Hdom. pose proof AF as (FL & Hu & Hb & He1 & He2).
  destruct (C09_terminates dims _ _ (points_of ps) k (wf_ok _ _ Hwf) Hns (points_incl _ _ Hwf) (points_nonempty _ _ Hwf)) as (rows & f0 & H0).
  destruct (C74_returns_rounded ar u eta b dims _ _ (points_of ps) k AF (wf_ok _ _ Hwf) H4 Hdom Hns Hm (points_incl _ _ Hwf) (points_nonempty _ _ Hwf)) as (rows' & f1 & H1).
  assert (A0 : exists p, forall fuel, (f0 <= fuel)%nat -> PDD fuel ps k lexsort false tol = Done p).
  { eexists. intros fuel Hf. rewrite (PDD_run dims ps Hwf). destruct (H0 fuel) as [E _]. rewrite (E Hf). reflexivity. }
  assert (A1 : exists p, forall fuel, (f1 <= fuel)%nat -> @PDD R (num_of ar) fuel ps k lexsort' false tol' = Done p).
  { eexists. intros fuel Hf. unfold PDD. rewrite (query_eq dims ps Hwf). cbn [obind]. rewrite (H1 fuel Hf). reflexivity. }
  destruct A0 as ([e g] & A0), A1 as ([r g'] & A1). exists e, g, r, g', (Nat.max f0 f1). split; [intros fuel Hf; split; [apply A0|apply A1]; lia|].
  eapply (pdd_close ar u eta b dims ps FL Hu Hwf H4 Hdom Hin Hb He1 He2 Hm k f0 f1); [exact HM|apply A0|apply A1]; auto.
Qed.

(** PDD, collapsing or not: the rows of the rounded result belong to the same groups as those of
    the exact one, and are close, when the tolerance decides clearly which rows overlap. *)
Theorem C74_pdd_rounded : forall ar u eta b dims ps k D lexsort lexsort' collapse tol,
  arithmetic_for ar u eta b -> pset_wf dims ps -> (dims <= 4)%nat -> nonsingular dims (ps_cell ps) ->
  spread dims (ps_cell ps) (ps_motif ps) -> motif_within ar b (ps_motif ps) ->
  INR (length (ps_motif ps)) * u <= 1 / 100 -> INR (length (ps_motif ps)) * eta <= u ->
  distances_within dims (ps_motif ps) (ps_cell ps) (points_of ps) k D ->
  (collapse = true -> decided dims (ps_motif ps) (ps_cell ps) (points_of ps) k tol (203 * u * (D + b))) ->
  exists exact g rounded g' fuel0, (forall fuel, (fuel0 <= fuel)%nat ->
    PDD fuel ps k lexsort collapse tol = Done (exact, g) /\ @PDD R (num_of ar) fuel ps k lexsort' collapse tol = Done (rounded, g')) /\
    exists e' r', Permutation (combine exact g) e' /\ Permutation (combine rounded g') r' /\ (lexsort = false -> e' = combine exact g) /\ (lexsort' = false -> r' = combine rounded g') /\
      Forall2 (fun x y => snd y = snd x /\ Rabs (fst (fst y) - fst (fst x)) <= (5 + 2 * INR (length (ps_motif ps))) * u * fst (fst x) /\
        Forall2 (fun d e => Rabs (e - d) <= (110 + 3 * INR (length (ps_motif ps))) * u * (d + b)) (snd (fst x)) (snd (fst y))) e' r'.
Proof.
  intros ar u eta b dims ps k D lexsort lexsort' collapse tol AF Hwf H4 Hns Hin Hm HM HeM HD HC. pose proof (spread_dominant _ _ _ _ Hin) as Hdom. pose proof AF as (FL & Hu & Hb & He1 & He2).
  destruct (C09_terminates dims _ _ (points_of ps) k (wf_ok _ _ Hwf) Hns (points_incl _ _ Hwf) (points_nonempty _ _ Hwf)) as (rows & f0 & H0).
  destruct (C74_returns_rounded ar u eta b dims _ _ (points_of ps) k AF (wf_ok _ _ Hwf) H4 Hdom Hns Hm (points_incl _ _ Hwf) (points_nonempty _ _ Hwf)) as (rows' & f1 & H1).
  assert (A0 : exists p, forall fuel, (f0 <= fuel)%nat -> PDD fuel ps k lexsort collapse tol = Done p).
  { eexists. intros fuel Hf. rewrite (PDD_run dims ps Hwf). destruct (H0 fuel) as [E _]. rewrite (E Hf). reflexivity. }
  assert (A1 : exists p, forall fuel, (f1 <= fuel)%nat -> @PDD R (num_of ar) fuel ps k lexsort' collapse tol = Done p).
  { eexists. intros fuel Hf. unfold PDD. rewrite (query_eq dims ps Hwf). cbn [obind]. rewrite (H1 fuel Hf). reflexivity. }
  destruct A0 as ([e g] & A0), A1 as ([r g'] & A1). exists e, g, r, g', (Nat.max f0 f1). split; [intros fuel Hf; split; [apply A0|apply A1]; lia|].
  eapply (pdd_collapse_close ar u eta b D dims ps FL Hu Hwf H4 Hdom Hin Hb He1 He2 Hm HM HeM k f0 f1); [exact HD|exact HC|apply A0|apply A1]; auto.
Qed.

(** ** binary64 *)
Lemma two_split : forall a b c, (a + b = c)%Z -> powerRZ 2 c = powerRZ 2 a * powerRZ 2 b.
Proof. intros a b c <-. apply two_add. Qed.

Lemma b64_for : forall u ar b, binary64 u ar -> powerRZ 2 (-400) <= b -> arithmetic_for ar u eta64 b.
Proof.
  intros u ar b BI Hb. pose proof (two_pos (-400)). pose proof u64_pos. pose proof (binary64_u u ar BI) as BU. unfold arithmetic_for. split; [apply b64_float_like; auto|].
  assert (U1 : u64 * b <= u * b) by (apply Rmult_le_compat_r; lra).
  assert (U : u64 * powerRZ 2 (-400) <= u64 * b) by (apply Rmult_le_compat_l; lra).
  assert (U0 : u64 * powerRZ 2 (-400) = powerRZ 2 (-453)) by (symmetry; apply two_split; reflexivity).
  assert (E : eta64 <= powerRZ 2 (-906)) by (apply two_le; lia). assert (E2 : powerRZ 2 (-906) = powerRZ 2 (-453) * powerRZ 2 (-453)) by (apply two_split; reflexivity).
  assert (E3 : powerRZ 2 (-906) <= powerRZ 2 (-453)) by (apply two_le; lia). pose proof (two_pos (-453)).
  split; [|split; [lra|split; [lra|]]].
  - assert (u64 <= powerRZ 2 (-20)) by (apply two_le; lia). simpl in *. lra.
  - rewrite E2 in E. eapply Rle_trans; [exact E|]. apply Rmult_le_compat; lra.
Qed.

(** AMD in binary64 without overflow, sums in any order: [u] is 2^-53, or 2^-51 if divisions may
    be multiplications by reciprocals. *)
Theorem C74_amd_binary64 : forall u ar b dims ps k, binary64 u ar -> 1 <= b ->
  pset_wf dims ps -> (dims <= 4)%nat -> nonsingular dims (ps_cell ps) ->
  spread dims (ps_cell ps) (ps_motif ps) -> motif_within ar b (ps_motif ps) -> INR (length (ps_motif ps)) <= 1000000000 ->
  exists exact rounded fuel0, length exact = k /\ forall fuel, (fuel0 <= fuel)%nat ->
    AMD fuel ps k = Done exact /\ @AMD R (num_of ar) fuel ps k = Done rounded /\
    Forall2 (fun a c => Rabs (c - a) <= (110 + 3 * INR (length (ps_motif ps))) * u * (a + b)) exact rounded.
Proof.
  intros u ar b dims ps k BI Hb Hwf H4 Hns Hin Hm HM. pose proof (binary64_u u ar BI) as BU. pose proof u64_pos. apply (C74_amd_rounded ar u eta64 b dims); auto.
  - apply b64_for; auto. apply Rle_trans with (powerRZ 2 0); [apply two_le; lia|]. simpl. lra.
  - assert (u64 <= powerRZ 2 (-40)) by (apply two_le; lia). apply Rle_trans with (1000000000 * (4 * powerRZ 2 (-40))); [|simpl; lra]. apply Rmult_le_compat; auto using pos_INR; lra.
Qed.

(** ** Examples *)
(** A sheared cell with two points; all coordinates are exact in binary. *)
Definition shear_set : pset R := {| ps_motif := [[0; 0]; [5 / 2; 1]]; ps_cell := [[4; 0]; [1; 4]]; ps_asym := None; ps_mult := None |}.

Lemma shear_wf : pset_wf 2 shear_set /\ half_dominant 2 (ps_cell shear_set) /\ nonsingular 2 (ps_cell shear_set) /\ spread 2 (ps_cell shear_set) (ps_motif shear_set).
Proof.
  assert (D : half_dominant 2 (ps_cell shear_set)) by (intros [|[|i]] Hi; try lia; unfold rsum; simpl; rewrite Rabs_right by lra; lra).
  split; [|split; [exact D|split]].
  - apply pset_wf_no_asym. split; simpl; auto; try discriminate; repeat constructor.
  - exists [[1 / 4; - (1 / 16)]; [0; 1 / 4]]. split; [auto|]. split; [repeat constructor|]. intros [|[|i]] [|[|j]] Hi Hj; try lia; simpl; lra.
  - apply in_cell_spread; [exact D|]. constructor; [|constructor; [|constructor]].
    + exists [0; 0]. split; auto. split; [repeat constructor; lra|]. unfold comb_coord. simpl. f_equal; [lra|]. f_equal. lra.
    + exists [9 / 16; 1 / 4]. split; auto. split; [repeat constructor; lra|]. unfold comb_coord. simpl. f_equal; [lra|]. f_equal. lra.
Qed.

Lemma shear_within : forall u ar, binary64 u ar -> motif_within ar 3 (ps_motif shear_set).
Proof.
  intros u ar BI. assert (X : forall z g x, (Z.abs z < 2 ^ 53)%Z -> x = IZR z * powerRZ 2 g -> representable ar x) by (intros z g x Hz ->; apply (b64_representable u); auto).
  constructor; [|constructor; [|constructor]]; (split; [repeat constructor|]).
  - apply (X 0%Z 0%Z); [reflexivity|]. simpl. lra.
  - apply (X 0%Z 0%Z); [reflexivity|]. simpl. lra.
  - simpl. replace (0 * 0 + (0 * 0 + 0)) with 0 by lra. rewrite sqrt_0. lra.
  - apply (X 5%Z (-1)%Z); [reflexivity|]. simpl. lra.
  - apply (X 1%Z 0%Z); [reflexivity|]. simpl. lra.
  - simpl. rewrite <- (sqrt_square 3) by lra. apply sqrt_le_1_alt. lra.
Qed.

(** AMD of it in binary64, any number of columns: every entry a is within 2^-46 (a + 3). *)
Lemma shear_amd : forall u ar k, binary64 u ar -> exists exact rounded fuel0, length exact = k /\ forall fuel, (fuel0 <= fuel)%nat ->
  AMD fuel shear_set k = Done exact /\ @AMD R (num_of ar) fuel shear_set k = Done rounded /\
  Forall2 (fun a c => Rabs (c - a) <= 116 * u * (a + 3)) exact rounded.
Proof.
  intros u ar k BI. destruct shear_wf as (W & D & NS & IN). destruct (C74_amd_binary64 u ar 3 2 shear_set k) as (a & c & f & L & H); auto; try lra; try lia.
  - apply (shear_within u); auto.
  - simpl. lra.
  - exists a, c, f. split; auto. intros fuel Hf. destruct (H fuel Hf) as (E1 & E2 & F). split; auto. split; auto. replace (110 + 3 * INR (length (ps_motif shear_set))) with 116 in F by (simpl; lra). exact F.
Qed.
Example C74_case : forall k, exists exact rounded fuel0, length exact = k /\ forall fuel, (fuel0 <= fuel)%nat ->
  AMD fuel shear_set k = Done exact /\ @AMD R (num_of b64) fuel shear_set k = Done rounded /\
  Forall2 (fun a c => Rabs (c - a) <= 116 * powerRZ 2 (-53) * (a + 3)) exact rounded.
Proof. intros k. apply (shear_amd u64 b64 k b64_binary64). Qed.
(** With fused scalar products, sums by halves and reciprocals, within 2^-44 (a + 3). *)
Example C74_fast_case : forall k, exists exact rounded fuel0, length exact = k /\ forall fuel, (fuel0 <= fuel)%nat ->
  AMD fuel shear_set k = Done exact /\ @AMD R (num_of fast64) fuel shear_set k = Done rounded /\
  Forall2 (fun a c => Rabs (c - a) <= 116 * (4 * powerRZ 2 (-53)) * (a + 3)) exact rounded.
Proof. intros k. apply (shear_amd (4 * u64) fast64 k fast64_binary64). Qed.

(** The two points of the set see the same distances (an inversion exchanges them), so PDD
    collapses its two rows, in binary64 too. *)
Lemma nearest_through : forall dims motif cell p q (phi : list Z * nat -> list Z * nat) n ds,
  (forall a, pindex dims motif a -> pindex dims motif (phi a) /\ phi (phi a) = a /\ edist q (ppoint dims motif cell (phi a)) = edist p (ppoint dims motif cell a)) ->
  nearest_distances dims motif cell p n ds -> nearest_distances dims motif cell q n ds.
Proof.
  intros dims motif cell p q phi n ds H (ids & (L & ND & PI & E & S) & F). rewrite Forall_forall in PI. exists (map phi ids). split.
  - split; [rewrite map_length; auto|]. split; [|split; [|split; [|auto]]].
    + clear L E S F. induction ND as [|a ids Ha ND IH]; cbn; constructor; [|apply IH; intros x Hx; apply PI; right; auto]. intros I. apply in_map_iff in I as (c & Ec & Ic). apply Ha.
      destruct (H a (PI a (or_introl eq_refl))) as (_ & X & _). destruct (H c (PI c (or_intror Ic))) as (_ & Y & _). rewrite <- X, <- Ec, Y. auto.
    + apply Forall_forall. intros c Hc. apply in_map_iff in Hc as (a & <- & Ia). apply H; auto.
    + rewrite E, map_map. apply map_ext_in. intros a Ia. symmetry. apply H; auto.
  - intros a d Pa Na Id. destruct (H a Pa) as (Q1 & Q2 & Q3). destruct (H _ Q1) as (_ & _ & Q4). rewrite Q2 in Q4. rewrite Q4. apply F; auto.
    intros I. apply Na. rewrite <- Q2. apply in_map. auto.
Qed.

Lemma nearest_upto : forall dims motif cell p n ds D (js : list (list Z * nat)), nearest_distances dims motif cell p n ds ->
  length js = n -> NoDup js -> Forall (fun a => pindex dims motif a /\ edist p (ppoint dims motif cell a) <= D) js -> Forall (fun d => d <= D) ds.
Proof.
  intros dims motif cell p n ds D js (ids & (L & ND & PI & E & S) & F) Lj NDj Hj. rewrite Forall_forall in Hj. apply Forall_forall. intros d Id.
  assert (DEC : forall a c : list Z * nat, {a = c} + {a <> c}) by (repeat decide equality).
  assert (X : incl js ids \/ exists a, In a js /\ ~ In a ids).
  { clear - DEC. induction js as [|a js IH]; [left; intros x []|]. destruct (in_dec DEC a ids) as [Ha|Ha].
    - destruct IH as [J|(c & Hc & Nc)]; [left; intros x [<-|Hx]; auto|right; exists c; split; [right; auto|auto]].
    - right. exists a. split; [left; auto|auto]. }
  destruct X as [I|X].
  - assert (I2 : incl ids js) by (apply (NoDup_length_incl NDj); [lia|auto]). rewrite E in Id. apply in_map_iff in Id as (a & <- & Ia). apply Hj. auto.
  - destruct X as (a & Ia & Na). destruct (Hj a Ia) as [Pa Da]. eapply Rle_trans; [apply F; eauto|auto].
Qed.

Definition swap_inv (a : list Z * nat) : list Z * nat := (map Z.opp (fst a), (1 - snd a)%nat).

Lemma shear_swap : forall i a, (i < 2)%nat -> pindex 2 (ps_motif shear_set) a ->
  pindex 2 (ps_motif shear_set) (swap_inv a) /\ swap_inv (swap_inv a) = a /\
  edist (nth (1 - i) (ps_motif shear_set) []) (ppoint 2 (ps_motif shear_set) (ps_cell shear_set) (swap_inv a)) = edist (nth i (ps_motif shear_set) []) (ppoint 2 (ps_motif shear_set) (ps_cell shear_set) a).
Proof.
  intros i [l j] Hi [H1 H2]. destruct l as [|x [|y [|z l]]]; try discriminate. cbn [fst snd] in *. unfold swap_inv. cbn [map fst snd]. split; [split; [reflexivity|cbn [snd]; change (length (ps_motif shear_set)) with 2%nat; lia]|]. cbn in H2.
  destruct j as [|[|j]]; try lia; destruct i as [|[|i]]; try lia; (split; [cbn; rewrite !Z.opp_involutive; auto|]); unfold edist; f_equal; cbn; unfold lattice_coord, comb_coord, rsum; cbn; rewrite !opp_IZR; ring.
Qed.

Lemma shear_edist : forall i a, (i < 2)%nat -> pindex 2 (ps_motif shear_set) a -> 
  edist (nth i (ps_motif shear_set) []) (ppoint 2 (ps_motif shear_set) (ps_cell shear_set) a) =
  edist (nth 0 (ps_motif shear_set) []) (ppoint 2 (ps_motif shear_set) (ps_cell shear_set) (if (i =? 0)%nat then a else swap_inv a)).
Proof. intros [|[|i]] a Hi Ha; try lia; auto. cbn [Nat.eqb]. symmetry. apply (shear_swap 1 a); auto. Qed.

Lemma shear_points : points_of shear_set = [[0; 0]; [5 / 2; 1]].
Proof. reflexivity. Qed.
Lemma shear_distances : distances_within 2 (ps_motif shear_set) (ps_cell shear_set) (points_of shear_set) 3 4.
Proof.
  rewrite shear_points. intros p ds Hp N.
    assert (X : exists i, (i < 2)%nat /\ p = nth i (ps_motif shear_set) []) by (destruct Hp as [<-|[<-|[]]]; [exists 0%nat|exists 1%nat]; cbn; auto).
    destruct X as (i & Hi & ->). set (psi := fun a => if (i =? 0)%nat then a else swap_inv a).
    set (js := [([0; 0]%Z, 0%nat); ([0; 0]%Z, 1%nat); ([1; 0]%Z, 0%nat); ([-1; 0]%Z, 0%nat)]).
    apply (nearest_upto 2 _ _ _ 4 ds 4 (map psi js) N); [reflexivity| |].
  - unfold psi, js, swap_inv. destruct i as [|[|i]]; try lia; cbn; repeat constructor; cbn; intuition discriminate.
  - apply Forall_forall. intros c Hc. apply in_map_iff in Hc as (a & <- & Ia).
    assert (Pa : pindex 2 (ps_motif shear_set) a) by (destruct Ia as [<-|[<-|[<-|[<-|[]]]]]; split; cbn; auto).
    assert (Pp : pindex 2 (ps_motif shear_set) (psi a)) by (unfold psi; destruct (i =? 0)%nat; auto; apply (shear_swap 0); auto).
    split; auto. rewrite shear_edist by auto. replace (if (i =? 0)%nat then psi a else swap_inv (psi a)) with a by (unfold psi; destruct (i =? 0)%nat; auto; symmetry; apply (shear_swap 0); auto).
    rewrite <- (sqrt_square 4) by lra. unfold edist. apply sqrt_le_1_alt. destruct Ia as [<-|[<-|[<-|[<-|[]]]]]; cbn; unfold lattice_coord, comb_coord, rsum; cbn; lra.
Qed.
Lemma shear_decided : decided 2 (ps_motif shear_set) (ps_cell shear_set) (points_of shear_set) 3 (1 / 10000) (203 * u64 * (4 + 3)).
Proof.
  pose proof (two_pos (-53)) as T. assert (T2 : u64 <= powerRZ 2 (-40)) by (apply two_le; lia). fold u64 in T. assert (T3 : powerRZ 2 (-40) <= 1 / 1000000000000) by (simpl; lra).
  split; [nra|]. rewrite shear_points. intros i j ds es Hij N1 N2. cbn in Hij. assert (i = 0%nat /\ j = 1%nat) as [-> ->] by lia. left. intros l _.
    assert (Eq : ds = es). { apply (C05_nearest_unique _ _ _ _ _ _ _ (nearest_through _ _ _ _ _ swap_inv _ _ (fun a Ha => shear_swap 0 a ltac:(lia) Ha) N1) N2). }
    subst es. rewrite Rminus_eq_0, Rabs_R0. nra.
Qed.

Example C74_collapse_case : forall lexsort, exists exact g rounded g' fuel0, (forall fuel, (fuel0 <= fuel)%nat ->
    PDD fuel shear_set 3 lexsort true (1 / 10000) = Done (exact, g) /\ @PDD R (num_of b64) fuel shear_set 3 lexsort true (1 / 10000) = Done (rounded, g')) /\
    exists e' r', Permutation (combine exact g) e' /\ Permutation (combine rounded g') r' /\
      Forall2 (fun x y => snd y = snd x /\ Rabs (fst (fst y) - fst (fst x)) <= 9 * u64 * fst (fst x) /\
        Forall2 (fun d e => Rabs (e - d) <= 116 * u64 * (d + 3)) (snd (fst x)) (snd (fst y))) e' r'.
Proof.
  intros lexsort. destruct shear_wf as (W & D & NS & IN). pose proof (two_pos (-53)) as T. assert (T2 : u64 <= powerRZ 2 (-40)) by (apply two_le; lia). fold u64 in T. assert (T3 : powerRZ 2 (-40) <= 1 / 1000000000000) by (simpl; lra).
  assert (AF : arithmetic_for b64 u64 eta64 3) by (apply b64_for; [apply b64_binary64|]; apply Rle_trans with (powerRZ 2 0); [apply two_le; lia|simpl; lra]).
  assert (E2 : eta64 <= u64 * powerRZ 2 (-40)). { unfold u64, eta64. rewrite <- two_add. apply two_le. lia. }
  assert (LM : length (ps_motif shear_set) = 2%nat) by reflexivity.
  destruct (C74_pdd_rounded b64 u64 eta64 3 2 shear_set 3 4 lexsort lexsort true (1 / 10000)) as (e & g & r & g' & f & H & e' & r' & P1 & P2 & _ & _ & F); auto; try lia.
  - apply (shear_within u64), b64_binary64.
  - rewrite LM. simpl. lra.
  - rewrite LM. simpl. nra.
  - apply shear_distances.
  - intros _. apply shear_decided.
  - exists e, g, r, g', f. split; auto. exists e', r'. split; auto. split; auto. rewrite LM in F. replace (5 + 2 * INR 2) with 9 in F by (simpl; lra). replace (110 + 3 * INR 2) with 116 in F by (simpl; lra). exact F.
Qed.

(** The operations do round: 1/3 is not a number of the format. *)
Example C74_rounds : r_div b64 1 3 <> 1 / 3.
Proof.
  cbn [b64 r_div]. unfold round64. destruct (Req_EM_T (1 / 3) 0) as [E|_]; [lra|]. unfold round_at. set (e := Z.max _ _). set (z := nearest_even _). intros E.
  assert (He : (e < 0)%Z).
  { unfold e. apply Z.max_lub_lt; [|lia]. assert (lead (1 / 3) < 52)%Z; [|lia]. apply two_lt_inv. eapply Rle_lt_trans; [apply (lead_spec (1 / 3)); lra|]. rewrite Rabs_right by lra. apply Rlt_le_trans with (powerRZ 2 0); [simpl; lra|apply two_le; lia]. }
  assert (X : (3 * z = 2 ^ (- e))%Z).
  { apply eq_IZR. rewrite mult_IZR, <- two_nat by lia. assert (P : powerRZ 2 e * powerRZ 2 (- e) = 1) by (rewrite <- two_add; replace (e + - e)%Z with 0%Z by ring; reflexivity).
    apply (Rmult_eq_reg_r (powerRZ 2 e)); [|pose proof (two_pos e); lra]. rewrite (Rmult_comm (powerRZ 2 (- e))), P. lra. }
  assert (D : forall n : nat, (2 ^ Z.of_nat n mod 3 <> 0)%Z).
  { induction n as [|n IH]; [discriminate|]. rewrite Nat2Z.inj_succ, Z.pow_succ_r by lia. pose proof (Z.mod_pos_bound (2 ^ Z.of_nat n) 3 ltac:(lia)). rewrite Z.mul_mod by lia. intros F.
    assert (H3 : (2 ^ Z.of_nat n mod 3 = 1 \/ 2 ^ Z.of_nat n mod 3 = 2)%Z) by lia. destruct H3 as [H3|H3]; rewrite H3 in F; discriminate. }
  apply (D (Z.to_nat (- e))). rewrite Z2Nat.id by lia. rewrite <- X, Z.mul_comm. apply Z.mod_mul. lia.
Qed.

(** With exact operations the bounds are 0: the rows are the true ones. *)
Definition exact_arith : arith := {| r_add := Rplus; r_sub := Rminus; r_mul := Rmult; r_div := Rdiv; r_sqrt := sqrt; r_ofZ := IZR;
  r_sum l := fold_left Rplus l 0; r_dot xs ys := fold_left Rplus (map2 Rmult xs ys) 0 |}.
Lemma exact_sum : any_order_sum 0 (r_sum exact_arith).
Proof. intros l. apply (sum_within_seq 0 Rplus (fun x y => ltac:(rewrite Rminus_eq_0, Rabs_R0; lra)) l [0] 0); [discriminate|constructor]. Qed.
Example C74_exact : arithmetic_for exact_arith 0 0 3 /\ motif_within exact_arith 3 (ps_motif shear_set).
Proof.
  split.
  - split; [|lra]. constructor; try (cbn [exact_arith r_add r_sub r_mul r_div r_sqrt r_ofZ]; intros; try lra; rewrite Rminus_eq_0, Rabs_R0; lra).
    + apply exact_sum.
    + intros xs ys L. exists (map2 Rmult xs ys). split; [rewrite map2_length_eq; auto|]. split; [|apply exact_sum].
      intros i Hi. replace (nth i (map2 Rmult xs ys) 0) with (nth i xs 0 * nth i ys 0); [split; [rewrite Rminus_eq_0, Rabs_R0; lra|auto]|].
      revert ys L i Hi. induction xs as [|x xs IH]; intros [|y ys] L i Hi; cbn in L, Hi; try lia. destruct i as [|i]; cbn; auto. apply IH; lia.
  - pose proof (shear_within u64 b64 b64_binary64) as W. unfold motif_within in *. rewrite Forall_forall in *. intros p Hp. split; [|apply W; auto]. apply Forall_forall. intros x _. unfold representable. simpl. lra.
Qed.

Print Assumptions C74_rows_rounded.
Print Assumptions C74_returns_rounded.
Print Assumptions C74_amd_rounded.
Print Assumptions C74_pdd_uncollapsed.
Print Assumptions C74_pdd_rounded.
Print Assumptions C74_amd_binary64.
