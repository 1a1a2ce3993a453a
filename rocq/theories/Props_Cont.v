(** Property C79: PDDs, their Earth mover's distance and AMDs under small displacements. *)
From Coq Require Import List ZArith Arith Bool Lia Reals Lra Permutation Sorted.
From Verif Require Import Num Base Spec SpecGeom SpecCalc SpecCont Outcome NNModel VecR NNSpecProofs Props_NN CalcModel CalcProofs
  CalcProofs2 CalcInv Line Props_Calc Props_Inv Props_Geo.
From Verif Require Import Sums SpecEmd EmdReal EmdTop Props_Emd Props_EmdPdd ContProofs.
From Verif Require Import EmdModel SpecEmd64 RoundModel SpecRound RoundBinary Props_Round RoundEmdModel RoundEmd RoundEmdTop RoundEmdArgs RoundEmdPdd Props_RoundEmd.
From Verif Require NNComplete.
Import ListNotations.
Open Scope R_scope.

(** What is asked of each of the two sets. *)
Definition set_spread (dims : nat) (ps : pset R) : Prop :=
  pset_wf dims ps /\ spread dims (ps_cell ps) (ps_motif ps) /\
  stands_for dims (ps_motif ps) (ps_cell ps) (positions_of ps) (counts_of ps).

Lemma plain_stands_for : forall dims motif cell mu,
  let ps := {| ps_motif := motif; ps_cell := cell; ps_asym := None; ps_mult := mu |} in
  stands_for dims motif cell (positions_of ps) (counts_of ps).
Proof.
  intros dims motif cell mu ps. exists (fun i => i). unfold positions_of, counts_of, ps. simpl. rewrite seq_length. split.
  - intros i Hi. split; auto. rewrite seq_nth by auto. apply same_surroundings_refl.
  - intros a Ha. rewrite map_id. rewrite (proj1 (NoDup_count_occ' Nat.eq_dec _) (seq_NoDup _ _)) by (apply in_seq; split; [lia|exact Ha]).
    clear - Ha. revert a Ha. induction (length motif) as [|n IH]; intros [|a] Ha; simpl; auto; try lia. apply IH. lia.
Qed.

(** A plan whose cost is small takes the one PDD to the other. *)
Theorem C79_pdd_continuous : forall dims ps ps' eps k fuel fuel' lex lex' col col' tol tol' pdd pdd' g g' d,
  (dims <= 4)%nat -> ps_cell ps' = ps_cell ps ->
  set_spread dims ps -> set_spread dims ps' ->
  displaced dims (ps_cell ps) eps (ps_motif ps) (ps_motif ps') -> 0 <= tol -> 0 <= tol' ->
  PDD fuel ps k lex col tol = Done (pdd, g) -> PDD fuel' ps' k lex' col' tol' = Done (pdd', g') ->
  row_distance k (pdd_array pdd) (pdd_array pdd') d ->
  exists Y, coupling (length pdd) (length pdd') (fun i => fst (nth i pdd (0, []))) (fun j => fst (nth j pdd' (0, []))) Y /\
    transport_cost (length pdd) (length pdd') d Y <= 2 * eps + slack col tol + slack col' tol'.
Proof.
  intros dims ps ps' eps k fuel fuel' lex lex' col col' tol tol' pdd pdd' g g' d H4 Ec (Hwf & Hin & Hst) (Hwf' & Hin' & Hst')
    (sigma & shift & Hm) Ht Ht' E E' D.
  destruct (pdd_rows_of_points _ _ _ _ _ _ _ _ _ Hwf H4 Hin Hst Ht E) as (r & near & HR & HW).
  destruct (pdd_rows_of_points _ _ _ _ _ _ _ _ _ Hwf' H4 Hin' Hst' Ht' E') as (r' & near' & HR' & HW').
  rewrite Ec in HR'.
  pose proof (wf_ok _ _ Hwf) as Hok. pose proof (wf_ok _ _ Hwf') as Hok'. rewrite Ec in Hok'.
  pose proof (moved_length _ _ _ _ _ _ _ Hm) as L. pose proof (moved_range _ _ _ _ _ _ _ Hm) as MR.
  set (m := length (ps_motif ps)) in *.
  assert (Mp : (0 < m)%nat). { unfold m. destruct (ps_motif ps) eqn:Em; [exfalso; apply (ok_motif _ _ _ Hok); reflexivity|simpl; lia]. }
  assert (Q1 : forall i, (i < m)%nat -> (r i < length pdd)%nat) by (intros i Hi; apply HR; auto).
  assert (Q2 : forall i, (i < m)%nat -> (r' (sigma i) < length pdd')%nat) by (intros i Hi; apply HR'; auto).
  exists (follow m r (fun i => r' (sigma i))). split.
  - destruct (follow_coupling m (length pdd) (length pdd') r (fun i => r' (sigma i)) Mp Q1 Q2) as (F1 & F2 & F3).
    split; [auto|]. split.
    + intros s Hs. rewrite F2, HW by auto. auto.
    + intros t Ht0. rewrite F3, HW' by auto. rewrite <- (map_map sigma r'). unfold vec in *. rewrite <- L. fold m.
      do 2 f_equal. apply count_perm. destruct Hm as [P _]. fold m in P. rewrite <- L in P. exact P.
  - apply follow_cost; auto. intros i Hi.
    destruct (HR i Hi) as (A1 & A2 & A3). destruct (HR' (sigma i) (MR i Hi)) as (B1 & B2 & B3).
    assert (Z : 0 <= 2 * eps).
    { destruct Hm as [_ X]. destruct (X i Hi) as [_ X2]. pose proof (sqrt_pos (sq_dist (nth i (ps_motif ps) []) (ppoint dims (ps_motif ps') (ps_cell ps) (shift i, sigma i)))) as X3.
      pose proof (Rle_trans _ _ _ X3 X2). lra. }
    assert (S1 : forall b t, 0 <= t -> 0 <= slack b t) by (intros [|] t Ht0; unfold slack; lra).
    pose proof (S1 col tol Ht). pose proof (S1 col' tol' Ht').
    destruct (D (r i) (r' (sigma i))) as [_ [->|(t & Hk & ->)]]; [unfold pdd_array; rewrite map_length; auto|unfold pdd_array; rewrite map_length; auto|lra|].
    rewrite !pdd_array_nth by auto. cbn [tl].
    pose proof (moved_nearest_both _ _ _ _ _ _ _ i (S k) _ _ Hok Hok' Hm Hi A2 B2 (S t) ltac:(lia)) as C.
    specialize (A3 t Hk). specialize (B3 t Hk).
    apply RoundSum.Rabs_le_both in A3. apply RoundSum.Rabs_le_both in B3. apply RoundSum.Rabs_le_both in C. apply Rabs_le. lra.
Qed.

(** The distance that is computed. *)
Theorem C79_emd_continuous : forall dims ps ps' eps k fuel fuel' lex lex' col col' tol tol' pdd pdd' g g' d dmax fe v plan,
  (dims <= 4)%nat -> ps_cell ps' = ps_cell ps ->
  set_spread dims ps -> set_spread dims ps' -> (Z.of_nat (length (ps_motif ps)) <= 100000000)%Z ->
  displaced dims (ps_cell ps) eps (ps_motif ps) (ps_motif ps') -> 0 <= tol -> 0 <= tol' ->
  PDD fuel ps k lex col tol = Done (pdd, g) -> PDD fuel' ps' k lex' col' tol' = Done (pdd', g') ->
  row_distance k (pdd_array pdd) (pdd_array pdd') d -> below_cap (length pdd) (length pdd') (fun _ _ => dmax) d ->
  EMD fe (pdd_array pdd) (pdd_array pdd') = Done (v, plan) ->
  v <= 2 * eps + slack col tol + slack col' tol' + accuracy (length pdd) (length pdd') dmax.
Proof.
  intros dims ps ps' eps k fuel fuel' lex lex' col col' tol tol' pdd pdd' g g' d dmax fe v plan H4 Ec S S' HM Hd Ht Ht' E E' D B EE.
  destruct (C79_pdd_continuous _ _ _ _ _ _ _ _ _ _ _ _ _ _ _ _ _ _ H4 Ec S S' Hd Ht Ht' E E' D) as (Y & (C1 & C2 & C3) & HY).
  destruct S as (Hwf & _). destruct S' as (Hwf' & _).
  assert (HM' : (Z.of_nat (length (ps_motif ps')) <= 100000000)%Z).
  { destruct Hd as (sigma & shift & Hm). pose proof (moved_length _ _ _ _ _ _ _ Hm) as L. unfold vec in *. lia. }
  pose proof (C32_pdd_weights _ _ _ _ _ _ _ _ _ Hwf HM E) as P. pose proof (C32_pdd_weights _ _ _ _ _ _ _ _ _ Hwf' HM' E') as P'.
  assert (LA : forall q, length (pdd_array q) = length q) by (intros; apply map_length).
  assert (B' : below_cap (length (pdd_array pdd)) (length (pdd_array pdd')) (fun _ _ => dmax) d) by (rewrite !LA; auto).
  destruct (C27_near_exact k _ _ d dmax fe v plan P P' D B' EE) as [V _]. rewrite !LA in V.
  specialize (V Y). eapply Rle_trans; [apply V|lra]. split; [auto|]. split.
  - intros i Hi. rewrite C2 by auto. unfold mx. rewrite pdd_array_nth by auto. auto.
  - intros i Hi. rewrite C3 by auto. unfold mx. rewrite pdd_array_nth by auto. auto.
Qed.

(** The same in binary64 arithmetic. *)
Theorem C79_emd_binary64 : forall ar cast b dims ps ps' eps k D lex lex' col col' tol tol',
  binary64 u64 ar -> truncates cast -> powerRZ 2 (-400) <= b -> D + b <= 1000000 -> (dims <= 4)%nat ->
  pdd_case ar u64 eta64 b dims ps k D col tol -> pdd_case ar u64 eta64 b dims ps' k D col' tol' ->
  INR (length (ps_motif ps)) <= 5000 ->
  INR (length (ps_motif ps)) * INR (length (ps_motif ps)) * (D + 1) <= 10000000000 ->
  ps_cell ps' = ps_cell ps -> displaced dims (ps_cell ps) eps (ps_motif ps) (ps_motif ps') -> 0 <= tol -> 0 <= tol' ->
  stands_for dims (ps_motif ps) (ps_cell ps) (positions_of ps) (counts_of ps) ->
  stands_for dims (ps_motif ps') (ps_cell ps') (positions_of ps') (counts_of ps') ->
  exists v plan fuel0, (forall fuel, (fuel0 <= fuel)%nat -> pipeline ar cast fuel ps ps' k lex lex' col col' tol tol' = Done (v, plan)) /\
    v <= 2 * eps + slack col tol + slack col' tol' + 5 * (2 * INR (length (ps_motif ps)) + 3) * (D + b + 2) / 100000000.
Proof.
  intros ar cast b dims ps ps' eps k D lex lex' col col' tol tol' BI HT Hb HDb H4 C1 C2 M1 Hc Ec Hd Ht Ht' S S'.
  assert (L : length (ps_motif ps') = length (ps_motif ps)).
  { destruct Hd as (sigma & shift & Hm). symmetry. exact (moved_length _ _ _ _ _ _ _ Hm). }
  destruct (C76_sets_binary64 ar cast b dims ps ps' k D lex lex' lex lex' col col' tol tol' BI HT Hb HDb H4 C1 C2 M1)
    as (e1 & g1 & e2 & g2 & v & plan & f & HF & HV); [now rewrite L|now rewrite L|].
  exists v, plan, f. split; [intros fuel Hf; apply (HF fuel Hf)|].
  destruct (HF f (le_n _)) as (E1 & E2 & _).
  destruct C1 as (W1 & _ & I1 & _). destruct C2 as (W2 & _ & I2 & _).
  assert (HM : forall p : pset R, INR (length (ps_motif p)) <= 5000 -> (Z.of_nat (length (ps_motif p)) <= 100000000)%Z).
  { intros p Hp. rewrite INR_IZR_INZ in Hp. apply le_IZR in Hp. lia. }
  pose proof (C32_pdd_weights _ _ _ _ _ _ _ _ _ W1 (HM _ M1) E1) as P1.
  pose proof (C32_pdd_weights _ _ _ _ _ _ _ _ _ W2 ltac:(apply HM; now rewrite L) E2) as P2.
  pose proof (dm_dist k _ _ P1 P2) as DD.
  destruct (C79_pdd_continuous dims ps ps' eps k f f lex lex' col col' tol tol' e1 e2 g1 g2 (mx (dm (pdd_array e1) (pdd_array e2))) H4 Ec) as (Y & (Q1 & Q2 & Q3) & HY);
    [split; auto|split; auto|auto|auto|auto|exact E1|exact E2|exact DD|].
  destruct (HV _ DD) as [V _]. specialize (V Y). rewrite L in V.
  eapply Rle_trans; [apply V|].
  - split; [auto|]. split.
    + intros i Hi. rewrite Q2 by auto. unfold mx. rewrite pdd_array_nth by auto. auto.
    + intros i Hi. rewrite Q3 by auto. unfold mx. rewrite pdd_array_nth by auto. auto.
  - lra.
Qed.

(** The AMDs, also when the points cross the boundary of the cell or the asymmetric units differ. *)
Theorem C79_amd_continuous : forall dims ps ps' eps k fuel fuel' a a' j,
  (dims <= 4)%nat -> ps_cell ps' = ps_cell ps ->
  set_spread dims ps -> set_spread dims ps' ->
  displaced dims (ps_cell ps) eps (ps_motif ps) (ps_motif ps') ->
  AMD fuel ps k = Done a -> AMD fuel' ps' k = Done a' -> (j < k)%nat ->
  Rabs (nth j a 0 - nth j a' 0) <= 2 * eps.
Proof.
  intros dims ps ps' eps k fuel fuel' a a' j H4 Ec S S' Hd A A' Hj.
  pose proof S as (Hwf & _). pose proof S' as (Hwf' & _).
  assert (T : forall p fu b, pset_wf dims p -> AMD fu p k = Done b -> exists pdd g, PDD fu p k false false 0 = Done (pdd, g)).
  { intros p fu b W Eb. destruct (AMD_Done _ _ _ _ _ W Eb) as (rows & En & _).
    rewrite (PDD_run dims p W), En. simpl. eauto. }
  destruct (T _ _ _ Hwf A) as (pdd & g & E). destruct (T _ _ _ Hwf' A') as (pdd' & g' & E').
  rewrite (C15_average_exact _ _ _ _ _ _ _ _ _ Hwf (or_introl eq_refl) E) in A.
  rewrite (C15_average_exact _ _ _ _ _ _ _ _ _ Hwf' (or_introl eq_refl) E') in A'.
  injection A as <-. injection A' as <-.
  destruct (C14_pdd_is_distribution _ _ _ _ _ _ _ _ _ Hwf E) as ((HF & HS) & _).
  destruct (C14_pdd_is_distribution _ _ _ _ _ _ _ _ _ Hwf' E') as ((HF' & HS') & _).
  assert (K : forall q, Forall (fun p : R * list R => 0 < fst p /\ length (snd p) = k /\ Forall (fun d => 0 <= d) (snd p) /\ StronglySorted Rle (snd p)) q ->
    Forall (fun p => length (snd p) = k) q /\ Forall (fun r => length r = Datatypes.S k) (pdd_array q)).
  { intros q Hq. split; [eapply Forall_impl; [|exact Hq]; cbn; tauto|]. unfold pdd_array. apply Forall_map.
    eapply Forall_impl; [|exact Hq]. cbn. intros ? (_ & -> & _). auto. }
  destruct (K _ HF) as [K1 K2]. destruct (K _ HF') as [K1' K2'].
  rewrite !(wmean_row k) by auto.
  assert (DD : row_distance k (pdd_array pdd) (pdd_array pdd') (fun i j => cheb (tl (nth i (pdd_array pdd) [])) (tl (nth j (pdd_array pdd') [])))).
  { rewrite Forall_forall in K2, K2'. intros i i' Hi Hi'. pose proof (K2 _ (nth_In _ [] Hi)) as X. pose proof (K2' _ (nth_In _ [] Hi')) as X'.
    apply cheb_spec; [destruct (nth i (pdd_array pdd) [])|destruct (nth i' (pdd_array pdd') [])]; simpl in *; lia. }
  destruct (C79_pdd_continuous _ _ _ _ _ _ _ _ _ _ _ _ _ _ _ _ _ _ H4 Ec S S' Hd (Rle_refl 0) (Rle_refl 0) E E' DD) as (Y & (C1 & C2 & C3) & HY).
  assert (LA : forall q, length (pdd_array q) = length q) by (intros; apply map_length).
  pose proof (C30_average_below_any_plan k _ _ _ Y j K2 K2' DD Hj) as Q. rewrite !LA in Q.
  eapply Rle_trans; [apply Q|unfold slack in HY; lra]. split; [auto|]. split.
  - intros i Hi. rewrite C2 by auto. unfold mx. rewrite pdd_array_nth by auto. auto.
  - intros i Hi. rewrite C3 by auto. unfold mx. rewrite pdd_array_nth by auto. auto.
Qed.

(** ** Cases *)
(** Twice the displacement is attained: two points move towards each other. *)
Definition two_points (x y : R) : pset R :=
  {| ps_motif := line [x; y]; ps_cell := [[10]]; ps_asym := None; ps_mult := None |}.

Lemma two_points_ok : forall x y, 0 <= x < 10 -> 0 <= y < 10 -> set_spread 1 (two_points x y).
Proof.
  intros x y Hx Hy. assert (F : Forall (fun t => 0 <= t < 10) [x; y]) by (apply Forall_cons; [lra|apply Forall_cons; [lra|apply Forall_nil]]).
  split; [apply pset_wf_no_asym, (line_ok _ _ F); discriminate|]. split; [apply NNComplete.in_cell_spread; [apply line_dominant|apply line_in_cell]; auto; lra|].
  apply plain_stands_for.
Qed.

Lemma two_points_amd : forall x y, 0 <= x -> x < y <= x + 5 -> y < 10 ->
  exists f0, forall fuel, (f0 <= fuel)%nat -> AMD fuel (two_points x y) 1 = Done [y - x].
Proof.
  intros x y Hx Hy Hy'. assert (F : Forall (fun t => 0 <= t < 10) [x; y]) by (apply Forall_cons; [lra|apply Forall_cons; [lra|apply Forall_nil]]).
  destruct (line_rows [x; y] 10 ltac:(lra) F ltac:(discriminate) (line [x; y]) 1 [[0; y - x]; [0; y - x]]) as (f0 & H).
  - apply incl_refl.
  - discriminate.
  - repeat constructor.
    + apply (line_near2 [x; y] 10 ltac:(lra) 0 0 1); simpl; auto; try discriminate.
      * rabs.
      * intros z [|[|i]] Hi; try lia; destruct (shift_cases 10 ltac:(lra) z) as [->|[H|H]]; auto; right; rabs.
    + apply (line_near2 [x; y] 10 ltac:(lra) 1 0 0); simpl; auto; try discriminate.
      * rabs.
      * intros z [|[|i]] Hi; try lia; destruct (shift_cases 10 ltac:(lra) z) as [->|[H|H]]; auto; right; rabs.
  - exists f0. intros fuel Hf. destruct (two_points_ok x y) as (W & _); [lra|lra|].
    rewrite (AMD_run 1 _ W). change (points_of (two_points x y)) with (line [x; y]).
    change (ps_motif (two_points x y)) with (line [x; y]). change (ps_cell (two_points x y)) with [[10]].
    rewrite (H fuel Hf). simpl. unfold amd_of, wmean. simpl. do 2 f_equal. field.
Qed.

Theorem C79_two_eps_attained : exists ps ps' eps fuel a a',
  0 < eps /\ set_spread 1 ps /\ set_spread 1 ps' /\ ps_cell ps' = ps_cell ps /\
  displaced 1 (ps_cell ps) eps (ps_motif ps) (ps_motif ps') /\
  AMD fuel ps 1 = Done a /\ AMD fuel ps' 1 = Done a' /\ Rabs (nth 0 a 0 - nth 0 a' 0) = 2 * eps.
Proof.
  destruct (two_points_amd 1 5) as (f & H); try lra. destruct (two_points_amd 2 4) as (f' & H'); try lra.
  exists (two_points 1 5), (two_points 2 4), 1, (f + f')%nat, [5 - 1], [4 - 2].
  split; [lra|]. split; [apply two_points_ok; lra|]. split; [apply two_points_ok; lra|]. split; [auto|].
  split; [|split; [apply H; lia|split; [apply H'; lia|simpl; rabs]]].
  exists (fun i => i), (fun _ => [0%Z]). split; [reflexivity|].
  intros [|[|i]] Hi; simpl in Hi; try lia; (split; [auto|]); cbn [two_points ps_motif ps_cell]; rewrite ppoint1; simpl nth; rewrite edist1; rabs.
Qed.

(** The set of case21 with its asymmetric unit; its first point moves out of the cell, is put
    back at the other end and listed last; the moved set has no asymmetric unit. *)
Definition unmoved : pset R := with_asym (line [0; 1; 3]) [[5]] [0; 2]%nat [2; 1]%nat.
Definition moved : pset R := {| ps_motif := line [1; 3; 5 - 1/10]; ps_cell := [[5]]; ps_asym := None; ps_mult := None |}.

Example C79_case : set_spread 1 unmoved /\ set_spread 1 moved /\
  ps_cell moved = ps_cell unmoved /\ displaced 1 (ps_cell unmoved) (1/10) (ps_motif unmoved) (ps_motif moved).
Proof.
  destruct case21 as (W & D & I & R1 & R2).
  assert (F : Forall (fun x => 0 <= x < 5) [1; 3; 5 - 1/10]) by (repeat (apply Forall_cons; [lra|]); apply Forall_nil).
  split; [split; [exact W|split; [apply NNComplete.in_cell_spread; [exact D|exact I]|]]|].
  - eexists. split; [exact R1|exact R2].
  - split; [split; [|split]|].
    + apply pset_wf_no_asym, (line_ok _ _ F). discriminate.
    + apply NNComplete.in_cell_spread; [exact D|apply line_in_cell]; auto. lra.
    + apply plain_stands_for.
    + split; [auto|].
      exists (fun i => match i with 0 => 2 | 1 => 0 | _ => 1 end)%nat, (fun i => match i with 0%nat => [(-1)%Z] | _ => [0%Z] end).
      split.
      * simpl. apply Permutation_sym. eapply Permutation_trans; [apply perm_skip, perm_swap|]. apply perm_swap.
      * intros [|[|[|i]]] Hi; simpl in Hi; try lia; (split; [auto|]); cbn [unmoved with_asym moved ps_motif ps_cell]; rewrite ppoint1; simpl nth; rewrite edist1; rabs.
Qed.

(** The PDDs and the distance of this case exist. *)
Example C79_case_runs : exists fuel pdd g pdd' g' fe v plan d dmax,
  PDD fuel unmoved 2 true true (1/100) = Done (pdd, g) /\ PDD fuel moved 2 true true (1/100) = Done (pdd', g') /\
  row_distance 2 (pdd_array pdd) (pdd_array pdd') d /\ below_cap (length pdd) (length pdd') (fun _ _ => dmax) d /\
  EMD fe (pdd_array pdd) (pdd_array pdd') = Done (v, plan).
Proof.
  destruct C79_case as ((W & _) & (W' & _) & _).
  assert (T : forall ps, pset_wf 1 ps -> ps_cell ps = [[5]] -> exists f0 pdd g, forall fuel, (f0 <= fuel)%nat ->
    PDD fuel ps 2 true true (1/100) = Done (pdd, g)).
  { intros ps Hw Ec. assert (N : nonsingular 1 (ps_cell ps)) by (rewrite Ec; apply line_nonsingular; lra).
    destruct (C09_terminates 1 (ps_motif ps) (ps_cell ps) (points_of ps) 2 (wf_ok _ _ Hw) N
      (points_incl _ _ Hw) (points_nonempty _ _ Hw)) as (rows & f0 & H).
    destruct (assemble (collapse_rows (CalcProofs2.weights_of ps) (map (@tl R) rows) true (1/100)) true) as [pdd g] eqn:EA.
    exists f0, pdd, g. intros fuel Hf. destruct (H fuel) as [H1 _].
    rewrite (PDD_run 1 _ Hw), (H1 Hf). cbn [obind]. rewrite <- EA. auto. }
  destruct (T _ W eq_refl) as (f & pdd & g & H). destruct (T _ W' eq_refl) as (f' & pdd' & g' & H').
  pose proof (H (f + f')%nat ltac:(lia)) as E. pose proof (H' (f + f')%nat ltac:(lia)) as E'.
  pose proof (C32_pdd_weights _ _ _ _ _ _ _ _ _ W ltac:(cbn; lia) E) as P.
  pose proof (C32_pdd_weights _ _ _ _ _ _ _ _ _ W' ltac:(cbn; lia) E') as P'.
  destruct (EMD_returns 2 _ _ P P') as (v & plan & F & HE). pose proof (dm_dist 2 _ _ P P') as D.
  exists (f + f')%nat, pdd, g, pdd', g', F, v, plan, (mx (dm (pdd_array pdd) (pdd_array pdd'))).
  exists (Sum (length (pdd_array pdd)) (fun i => Sum (length (pdd_array pdd')) (fun j => mx (dm (pdd_array pdd) (pdd_array pdd')) i j))).
  repeat (split; [eassumption|]). split; [|auto].
  pose proof (d_pos 2 _ _ _ D) as DP. unfold pdd_array in DP at 1 2. unfold pdd_array at 1 2. rewrite !map_length in *.
  intros i j Hi Hj. eapply Rle_trans; [|apply (Sum_ge_one (length pdd) _ i); auto].
  - cbv beta. apply (Sum_ge_one (length pdd') (fun j => mx (dm (pdd_array pdd) (pdd_array pdd')) i j)); auto.
  - intros i' Hi'. apply Sum_nonneg. auto.
Qed.

(** Binary64: the second point of the set of Props_Round.v moves by 1/8. *)
Definition nudged : pset R := {| ps_motif := [[0; 0]; [21 / 8; 1]]; ps_cell := [[4; 0]; [1; 4]]; ps_asym := None; ps_mult := None |}.

Lemma nudged_case : pdd_case b64 u64 eta64 3 2 nudged 3 4 false 0.
Proof.
  destruct u64_small as [U E]. destruct shear_wf as (_ & D & NS & _). unfold pdd_case. split; [|split; [exact NS|split; [|split; [|split; [|split; [|split]]]]]].
  - apply pset_wf_no_asym. split; simpl; auto; try discriminate; repeat constructor.
  - apply NNComplete.in_cell_spread; [exact D|]. constructor; [|constructor; [|constructor]].
    + exists [0; 0]. split; auto. split; [apply Forall_cons; [lra|apply Forall_cons; [lra|apply Forall_nil]]|]. unfold comb_coord. simpl. f_equal; [lra|]. f_equal. lra.
    + exists [19 / 32; 1 / 4]. split; auto. split; [apply Forall_cons; [lra|apply Forall_cons; [lra|apply Forall_nil]]|]. unfold comb_coord. simpl. f_equal; [lra|]. f_equal. lra.
  - assert (X : forall z g x, (Z.abs z < 2 ^ 53)%Z -> x = IZR z * powerRZ 2 g -> representable b64 x) by (intros z g x Hz ->; apply (b64_representable u64); auto using b64_binary64).
    constructor; [|constructor; [|constructor]]; (split; [repeat constructor|]).
    + apply (X 0%Z 0%Z); [reflexivity|]. simpl. lra.
    + apply (X 0%Z 0%Z); [reflexivity|]. simpl. lra.
    + simpl. replace (0 * 0 + (0 * 0 + 0)) with 0 by lra. rewrite sqrt_0. lra.
    + apply (X 21%Z (-3)%Z); [reflexivity|]. simpl. lra.
    + apply (X 1%Z 0%Z); [reflexivity|]. simpl. lra.
    + simpl. rewrite <- (sqrt_square 3) by lra. apply sqrt_le_1_alt. lra.
  - simpl. lra.
  - simpl. nra.
  - pose proof (fun js p ds N => nearest_upto 2 (ps_motif nudged) (ps_cell nudged) p 4 ds 4 js N) as G.
    intros p ds [<-|[<-|[]]] N.
    + apply (G [([0; 0]%Z, 0%nat); ([0; 0]%Z, 1%nat); ([1; 0]%Z, 0%nat); ([-1; 0]%Z, 0%nat)] _ ds N); [reflexivity| |].
      * repeat constructor; cbn; intuition discriminate.
      * apply Forall_forall. intros a Ia. split; [destruct Ia as [<-|[<-|[<-|[<-|[]]]]]; split; cbn; auto|].
        rewrite <- (sqrt_square 4) by lra. unfold edist. apply sqrt_le_1_alt. destruct Ia as [<-|[<-|[<-|[<-|[]]]]]; cbn; unfold lattice_coord, comb_coord, rsum; cbn; lra.
    + apply (G [([0; 0]%Z, 1%nat); ([0; 0]%Z, 0%nat); ([1; 0]%Z, 1%nat); ([-1; 0]%Z, 1%nat)] _ ds N); [reflexivity| |].
      * repeat constructor; cbn; intuition discriminate.
      * apply Forall_forall. intros a Ia. split; [destruct Ia as [<-|[<-|[<-|[<-|[]]]]]; split; cbn; auto|].
        rewrite <- (sqrt_square 4) by lra. unfold edist. apply sqrt_le_1_alt. destruct Ia as [<-|[<-|[<-|[<-|[]]]]]; cbn; unfold lattice_coord, comb_coord, rsum; cbn; lra.
  - discriminate.
Qed.

Example C79_binary64_case : exists v plan fuel0,
  (forall fuel, (fuel0 <= fuel)%nat -> pipeline b64 Int_part fuel shear_set nudged 3 true true true false (1 / 10000) 0 = Done (v, plan)) /\
  v <= 1/4 + 1/4000.
Proof.
  destruct (C79_emd_binary64 b64 Int_part 3 2 shear_set nudged (1/8) 3 4 true true true false (1 / 10000) 0)
    as (v & plan & f & HF & HV); auto using Int_part_truncates, shear_case, nudged_case; try lra.
  - apply b64_binary64.
  - apply Rle_trans with (powerRZ 2 0); [apply two_le; lia|simpl; lra].
  - simpl. lra.
  - simpl. lra.
  - exists (fun i => i), (fun _ => [0; 0]%Z). split; [reflexivity|].
    intros [|[|i]] Hi; simpl in Hi; try lia; (split; [auto|]); rewrite <- (sqrt_square (1/8)) by lra; unfold edist; apply sqrt_le_1_alt;
      cbn; unfold lattice_coord, comb_coord, rsum; cbn; lra.
  - apply (plain_stands_for 2 [[0; 0]; [5 / 2; 1]] [[4; 0]; [1; 4]] None).
  - apply (plain_stands_for 2 [[0; 0]; [21 / 8; 1]] [[4; 0]; [1; 4]] None).
  - exists v, plan, f. split; [exact HF|]. change (length (ps_motif shear_set)) with 2%nat in HV. unfold slack in HV. simpl (INR _) in HV. lra.
Qed.

Print Assumptions C79_pdd_continuous.
Print Assumptions C79_emd_continuous.
Print Assumptions C79_emd_binary64.
Print Assumptions C79_amd_continuous.
Print Assumptions C79_two_eps_attained.
