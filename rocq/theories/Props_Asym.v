(** Properties C65 and C66: AMD and PDD stay within a constant of AMD_estimate, so AMD_k divided by the n-th root of k
    tends to PPC; and for every cell the distances found exceed the nearest ones by a bounded amount. *)
From Coq Require Import List ZArith Arith Bool Lia Reals Lra Sorted Permutation.
From Verif Require Import Num Base Outcome NNModel Spec SpecGeom SpecDet SpecCalc SpecAsym VecR NNProofs NNSpecProofs NNComplete Props_NN CalcModel CalcProofs CalcProofs2 Props_Calc PPCModel Props_PPC
  BallProofs CountProofs GramProofs AsymProofs AsymProofs2 NNError.
Import ListNotations.
Open Scope R_scope.

(** ** C66 *)
Theorem C66_rows : forall dims motif cell x k fuel rows b,
  pset_ok dims motif cell -> incl x motif -> x <> [] -> motif_diameter motif b ->
  nearest_neighbors fuel motif cell x (S k) = Done rows ->
  Forall2 (fun p r => nearest_within dims motif cell p (S k) (edge_sum cell + b) r) x rows.
Proof. exact nearest_neighbors_within. Qed.
Theorem C66_exist : forall dims motif cell p n, pset_ok dims motif cell -> nonsingular dims cell -> length p = dims -> exists ds, nearest_distances dims motif cell p n ds.
Proof. intros. apply nearest_exist; auto. Qed.
Theorem C66_entries : forall dims motif cell p n e ds r j, 0 <= e -> nearest_distances dims motif cell p n ds -> nearest_within dims motif cell p n e r -> (j < n)%nat ->
  nth j ds 0 <= nth j r 0 <= nth j ds 0 + e.
Proof.
  intros dims motif cell p n e ds r j He H W Hj. split.
  - destruct W as (ids & W & _). apply within_nearest in H. pose proof (entry_compare dims motif cell p n n 0 ds r ids j ltac:(lra) H W Hj Hj). lra.
  - destruct H as (ids & H & _). apply (entry_compare dims motif cell p n n e r ds ids j); auto.
Qed.
Lemma bound_nonneg : forall motif cell b, motif <> [] -> motif_diameter motif b -> 0 <= edge_sum cell + b.
Proof.
  intros motif cell b NE Hb. destruct motif as [|p motif]; [congruence|]. specialize (Hb p p (or_introl eq_refl) (or_introl eq_refl)). pose proof (sqrt_pos (sq_dist p p)). unfold edist in Hb.
  assert (0 <= edge_sum cell); [|lra]. unfold edge_sum, rsum. clear. induction cell as [|c cs IH]; cbn; [lra|]. pose proof (sqrt_pos (rdot c c)). lra.
Qed.
(** [true] gives for every point of the motif its nearest distances; the average of these is missed by at most the bound. *)
Theorem C66_amd : forall dims ps k fuel a b (true : list R -> list R), pset_wf dims ps -> motif_diameter (ps_motif ps) b ->
  (forall p, In p (ps_motif ps) -> nearest_distances dims (ps_motif ps) (ps_cell ps) p (S k) (true p)) -> AMD fuel ps k = Done a ->
  forall j, (j < k)%nat -> 0 <= nth j a 0 - wmean (map INR (counts_of ps)) (map (fun p => tl (true p)) (points_of ps)) j <= edge_sum (ps_cell ps) + b.
Proof.
  intros dims ps k fuel a b true Hwf Hb HT E j Hj. destruct (AMD_Done _ _ _ _ _ Hwf E) as (rows & En & Hr & ->).
  pose proof (wf_ok _ _ Hwf) as OK. pose proof (points_incl _ _ Hwf) as PI. pose proof (C66_rows dims (ps_motif ps) (ps_cell ps) (points_of ps) k fuel rows b OK PI (points_nonempty _ _ Hwf) Hb En) as W.
  destruct (counts_INR_pos _ _ Hwf) as [Hw Hne]. pose proof (points_length _ _ Hwf) as PL. pose proof (bound_nonneg (ps_motif ps) (ps_cell ps) b (ok_motif _ _ _ OK) Hb) as EB.
  unfold amd_of. rewrite nth_map_seq by auto. destruct Hr as [Hr _].
  apply wmean_band; auto; rewrite ?map_length; try congruence.
  intros r r' Hin. clear PL Hr En. assert (X : forall y rs, Forall2 (fun p r => nearest_within dims (ps_motif ps) (ps_cell ps) p (S k) (edge_sum (ps_cell ps) + b) r) y rs -> incl y (ps_motif ps) ->
    In (r, r') (combine (map (fun p => tl (true p)) y) (map (@tl R) rs)) -> 0 <= nth j r' 0 - nth j r 0 <= edge_sum (ps_cell ps) + b); [|apply (X _ _ W PI Hin)].
  clear Hin W. induction 1 as [|p q y rs H1 H2 IH]; intros HI HC; [destruct HC|]. destruct HC as [HC|HC]; [|apply IH; auto; intros z Hz; apply HI; right; auto].
  injection HC as <- <-. pose proof (C66_entries dims (ps_motif ps) (ps_cell ps) p (S k) _ (true p) q (S j) EB (HT p (HI p (or_introl eq_refl))) H1 ltac:(lia)) as G.
  assert (TL : forall l : list R, nth j (tl l) 0 = nth (S j) l 0) by (intros [|? ?]; [destruct j; auto|auto]). rewrite !TL. lra.
Qed.

(** ** C65 *)
Lemma nth_repeat_lt : forall n (x : R) j, (j < n)%nat -> nth j (repeat x n) 0 = x.
Proof. induction n; intros x [|j] Hj; cbn; auto; try lia. apply IHn. lia. Qed.
Lemma density_root : forall dims motif cell p j x, pset_ok dims motif cell -> nonsingular dims cell -> p ^ dims * INR (length motif) * ball dims = volume_of dims cell ->
  x ^ dims = p ^ dims * INR (S j) -> density dims motif cell * x ^ dims = INR (S j).
Proof.
  intros dims motif cell p j x OK NS HP HX. unfold density. rewrite HX, <- HP. pose proof (volume_pos dims motif cell OK NS) as VP. rewrite <- HP in VP. field. split; [|split]; intros Z; rewrite Z in VP; lra.
Qed.
(** Distances from any point of space. *)
Theorem C65_any_point : forall dims motif cell ppc, pset_ok dims motif cell -> nonsingular dims cell -> 0 <= ppc -> ppc ^ dims * INR (length motif) * ball dims = volume_of dims cell ->
  exists B, forall p n ds j x, length p = dims -> nearest_distances dims motif cell p n ds -> (j < n)%nat -> is_root dims (S j) x -> Rabs (nth j ds 0 - ppc * x) <= B.
Proof.
  intros dims motif cell ppc OK NS P0 HP. destruct (within_bound dims motif cell OK NS) as (B & B0 & HB). exists B. intros p n ds j x Hp H Hj (X0 & X1).
  rewrite <- (Rplus_0_r B). apply (HB p n 0 ds j (ppc * x)); auto; [lra|apply within_nearest; auto|apply Rmult_le_pos; auto|]. apply (density_root dims motif cell ppc); auto. rewrite Rpow_mult_distr, X1. auto.
Qed.

Lemma max_distance : forall motif, exists b, motif_diameter motif b.
Proof.
  intros motif. destruct (list_eq_dec (list_eq_dec Req_EM_T) motif []) as [->|NE]; [exists 0; intros p q []|].
  destruct (exists_max _ (fun pq => edist (fst pq) (snd pq)) (list_prod motif motif)) as (mx & _ & MX); [destruct motif; [congruence|discriminate]|].
  exists mx. intros p q Hp Hq. apply (MX (p, q)). apply in_prod; auto.
Qed.
Lemma root_step : forall n a b j p, (1 <= n)%nat -> 0 <= p -> 0 <= a -> 0 <= b -> a ^ n = p ^ n * INR (S j) -> b ^ n = p ^ n * INR (S (S j)) -> a <= b <= a + p.
Proof.
  intros n a b j p Hn Hp Ha Hb EA EB. assert (P0 : 0 <= p ^ n) by (apply pow_le; auto). assert (ST : p ^ n * INR (S j) <= p ^ n * INR (S (S j))) by (apply Rmult_le_compat_l; auto; apply le_INR; lia). split; apply (pow_mono_inv n Hn); auto; try lra.
  rewrite EB, S_INR, Rmult_plus_distr_l, <- EA. rewrite Rmult_1_r. rewrite !(pow_split n Hn). assert (a ^ (n - 1) <= (a + p) ^ (n - 1)) by (apply pow_incr; lra). assert (p ^ (n - 1) <= (a + p) ^ (n - 1)) by (apply pow_incr; lra). nra.
Qed.
(** The rows found by the code, without the first column, against the estimate. *)
Lemma rows_band : forall dims ps, pset_wf dims ps -> nonsingular dims (ps_cell ps) -> exists B, 0 <= B /\ forall p k fuel rows r j x,
  PPC ps = Done p -> nearest_neighbors fuel (ps_motif ps) (ps_cell ps) (points_of ps) (S k) = Done rows -> In r rows -> (j < k)%nat -> 0 <= x -> x ^ dims = p ^ dims * INR (S j) -> x - B <= nth j (tl r) 0 <= x + B.
Proof.
  intros dims ps Hwf NS. pose proof (wf_ok _ _ Hwf) as OK. pose proof (ok_dims _ _ _ OK) as HD. destruct (C24_ppc dims ps OK) as (p & EP & P0 & P1).
  destruct (within_bound dims (ps_motif ps) (ps_cell ps) OK NS) as (B & B0 & HB). destruct (max_distance (ps_motif ps)) as (b & Hb). pose proof (bound_nonneg (ps_motif ps) (ps_cell ps) b (ok_motif _ _ _ OK) Hb) as EB.
  exists (B + (edge_sum (ps_cell ps) + b) + p). split; [lra|]. intros p' k fuel rows r j x EP' En Hr Hj X0 X1. rewrite EP in EP'. injection EP' as <-.
  pose proof (C66_rows dims (ps_motif ps) (ps_cell ps) (points_of ps) k fuel rows b OK (points_incl _ _ Hwf) (points_nonempty _ _ Hwf) Hb En) as W.
  assert (X : exists q, In q (points_of ps) /\ nearest_within dims (ps_motif ps) (ps_cell ps) q (S k) (edge_sum (ps_cell ps) + b) r).
  { clear - W Hr. induction W as [|q s y rs H1 H2 IH]; [destruct Hr|]. destruct Hr as [<-|Hr]; [exists q; split; [left|]; auto|]. destruct (IH Hr) as (q' & H3 & H4). exists q'. split; [right|]; auto. }
  destruct X as (q & Hq & WQ). assert (Lq : length q = dims) by (pose proof (ok_motif_len _ _ _ OK) as H; rewrite Forall_forall in H; apply H, (points_incl _ _ Hwf); auto).
  set (x' := py_root (p ^ dims * INR (S (S j))) dims). destruct (py_root_spec (p ^ dims * INR (S (S j))) dims) as (Y0 & Y1); [apply Rmult_le_pos; [apply pow_le; auto|apply pos_INR]|auto|]. fold x' in Y0, Y1.
  pose proof (root_step dims x x' j p HD P0 X0 Y0 X1 Y1) as RS.
  pose proof (HB q (S k) _ r (S j) x' Lq EB WQ ltac:(lia) Y0 (density_root dims (ps_motif ps) (ps_cell ps) p (S j) x' OK NS P1 Y1)) as G. apply Rabs_def2' in G.
  assert (TL : forall l : list R, nth j (tl l) 0 = nth (S j) l 0) by (intros [|? ?]; [destruct j; auto|auto]). rewrite TL. lra.
Qed.

Theorem C65_amd : forall dims ps, pset_wf dims ps -> nonsingular dims (ps_cell ps) -> exists B, forall k fuel a est, AMD fuel ps k = Done a -> AMD_estimate ps k = Done est ->
  forall j, (j < k)%nat -> Rabs (nth j a 0 - nth j est 0) <= B.
Proof.
  intros dims ps Hwf NS. destruct (rows_band dims ps Hwf NS) as (B & B0 & HB). exists B. intros k fuel a est EA EE j Hj.
  destruct (C24_estimate dims ps k (wf_ok _ _ Hwf)) as (p & est' & EP & EE' & _ & HE). rewrite EE in EE'. injection EE' as <-. destruct (HE j Hj) as (E0 & E1).
  destruct (AMD_Done _ _ _ _ _ Hwf EA) as (rows & En & [Hr _] & ->). destruct (counts_INR_pos _ _ Hwf) as [Hw Hne]. pose proof (points_length _ _ Hwf) as PL.
  unfold amd_of. rewrite nth_map_seq by auto.
  set (x := nth j est 0) in *. assert (LR : length (map INR (counts_of ps)) = length (map (@tl R) rows)) by (rewrite !map_length; congruence).
  assert (SP : rsum (map INR (counts_of ps)) <> 0) by (apply Rgt_not_eq; apply rsum_pos; auto).
  rewrite <- (wmean_const (map INR (counts_of ps)) (map (fun _ => repeat x (S j)) rows) j x) at 1; auto.
  - apply Rabs_le. apply (wmean_band _ (map (fun _ => repeat x (S j)) rows) (map (@tl R) rows) j (- B) B); auto; [rewrite !map_length in *; auto|].
    intros r r' Hin. assert (I2 : In r' (map (@tl R) rows)) by (eapply in_combine_r; eauto). apply in_combine_l in Hin. apply in_map_iff in Hin. destruct Hin as (? & <- & _). apply in_map_iff in I2. destruct I2 as (r0 & <- & Hr0).
    rewrite nth_repeat_lt by lia. pose proof (HB p k fuel rows r0 j x EP En Hr0 Hj E0 E1). lra.
  - rewrite !map_length in *; auto.
  - intros r Hin. apply in_map_iff in Hin. destruct Hin as (? & <- & _). apply nth_repeat_lt. lia.
Qed.
Theorem C65_pdd : forall dims ps, pset_wf dims ps -> nonsingular dims (ps_cell ps) -> exists B, forall k fuel lexsort collapse tol pdd groups est, PDD fuel ps k lexsort collapse tol = Done (pdd, groups) -> AMD_estimate ps k = Done est ->
  forall row j, In row pdd -> (j < k)%nat -> Rabs (nth j (snd row) 0 - nth j est 0) <= B.
Proof.
  intros dims ps Hwf NS. destruct (rows_band dims ps Hwf NS) as (B & B0 & HB). exists B. intros k fuel lexsort collapse tol pdd groups est EA EE row j Hrow Hj.
  destruct (C24_estimate dims ps k (wf_ok _ _ Hwf)) as (p & est' & EP & EE' & _ & HE). rewrite EE in EE'. injection EE' as <-. destruct (HE j Hj) as (E0 & E1).
  destruct (PDD_Done _ _ _ _ _ _ _ _ Hwf EA) as (rows & En & Hr & Hl & Hk & Ea).
  destruct (assemble_spec _ _ _ Hl Hk lexsort collapse tol) as (g0 & g & E2 & _ & HG & HP & _). rewrite E2 in Ea. inversion Ea. subst pdd groups. clear Ea.
  apply in_map_iff in Hrow. destruct Hrow as (gr & <- & Hgr). unfold pdd_row. cbn [snd]. rewrite nth_map_seq by auto.
  set (x := nth j est 0) in *. assert (BD : x - B <= mean (rows_of (map (@tl R) rows) gr) j <= x + B); [|apply Rabs_le; lra].
  pose proof (group_ne _ _ _ _ _ HG HP gr Hgr) as GNE. pose proof (groups_perm _ _ _ _ _ HG HP) as GP.
  apply mean_band; [unfold rows_of; destruct gr; [congruence|discriminate]|]. intros r Hin. unfold rows_of in Hin. apply in_map_iff in Hin. destruct Hin as (i & <- & Hi).
  assert (Hlt : (i < length (map (@tl R) rows))%nat). { assert (I : In i (concat g)) by (apply in_concat; exists gr; auto). apply (Permutation_in i GP) in I. apply in_seq in I. lia. }
  rewrite (nth_indep _ [] (tl [])) by auto. rewrite (map_nth (@tl R)). rewrite map_length in Hlt. apply (HB p k fuel rows (nth i rows []) j x EP En); auto. apply nth_In. auto.
Qed.

(** [n]-th roots grow beyond every bound. *)
Lemma root_large : forall n c, (1 <= n)%nat -> exists J, forall j x, (J <= j)%nat -> is_root n (S j) x -> c < x.
Proof.
  intros n c Hn. destruct (nat_above (Rmax 0 c ^ n)) as (J & HJ). exists J. intros j x Hj (X0 & X1). assert (LE : INR J <= INR (S j)) by (apply le_INR; lia).
  destruct (Rlt_or_le c x) as [|G]; auto. exfalso. assert (x ^ n <= Rmax 0 c ^ n) by (apply pow_incr; split; auto; apply Rle_trans with c; auto; apply Rmax_r). lra.
Qed.
Lemma band_limit : forall dims B p eps, (1 <= dims)%nat -> 0 < eps -> exists J, forall j x d, (J <= j)%nat -> is_root dims (S j) x -> Rabs (d - p * x) <= B -> Rabs (d / x - p) < eps.
Proof.
  intros dims B p eps HD He. destruct (root_large dims (Rmax 1 (B / eps)) HD) as (J & HJ). exists J. intros j x d Hj Hx H. specialize (HJ j x Hj Hx).
  assert (X0 : 1 < x) by (eapply Rle_lt_trans; [apply Rmax_l|apply HJ]). assert (XB : B / eps < x) by (eapply Rle_lt_trans; [apply Rmax_r|apply HJ]).
  replace (d / x - p) with ((d - p * x) / x) by (field; lra). unfold Rdiv. rewrite Rabs_mult, (Rabs_right (/ x)) by (apply Rle_ge; left; apply Rinv_0_lt_compat; lra).
  apply (Rmult_lt_reg_r x); [lra|]. rewrite Rmult_assoc, Rinv_l, Rmult_1_r by lra. eapply Rle_lt_trans; [apply H|]. apply (Rmult_lt_reg_r (/ eps)); [apply Rinv_0_lt_compat; auto|]. unfold Rdiv in XB. replace (eps * x * / eps) with x by (field; lra). auto.
Qed.
Lemma estimate_root : forall dims ps k p est j x, pset_ok dims (ps_motif ps) (ps_cell ps) -> PPC ps = Done p -> AMD_estimate ps k = Done est -> (j < k)%nat -> is_root dims (S j) x -> nth j est 0 = p * x.
Proof.
  intros dims ps k p est j x OK EP EE Hj (X0 & X1). destruct (C24_estimate dims ps k OK) as (p' & est' & EP' & EE' & _ & HE). rewrite EP in EP'. injection EP' as <-. rewrite EE in EE'. injection EE' as <-. destruct (HE j Hj) as (E0 & E1).
  destruct (C24_ppc dims ps OK) as (p' & EP' & P0 & _). rewrite EP in EP'. injection EP' as <-.
  apply (pow_inj dims); auto; [apply OK|apply Rmult_le_pos; auto|]. rewrite E1, Rpow_mult_distr, X1. auto.
Qed.
Theorem C65_amd_limit : forall dims ps p eps, pset_wf dims ps -> nonsingular dims (ps_cell ps) -> PPC ps = Done p -> 0 < eps ->
  exists J, forall k fuel a j x, AMD fuel ps k = Done a -> (J <= j < k)%nat -> is_root dims (S j) x -> Rabs (nth j a 0 / x - p) < eps.
Proof.
  intros dims ps p eps Hwf NS EP He. pose proof (wf_ok _ _ Hwf) as OK. destruct (C65_amd dims ps Hwf NS) as (B & HB). destruct (band_limit dims B p eps (ok_dims _ _ _ OK) He) as (J & HJ). exists J. intros k fuel a j x EA Hj Hx.
  apply (HJ j x); [lia|auto|]. destruct (C24_estimate dims ps k OK) as (_ & est & _ & EE & _). rewrite <- (estimate_root dims ps k p est j x OK EP EE) by (auto; lia). apply (HB k fuel a est); auto. lia.
Qed.
Theorem C65_pdd_limit : forall dims ps p eps, pset_wf dims ps -> nonsingular dims (ps_cell ps) -> PPC ps = Done p -> 0 < eps ->
  exists J, forall k fuel lexsort collapse tol pdd groups row j x, PDD fuel ps k lexsort collapse tol = Done (pdd, groups) -> In row pdd -> (J <= j < k)%nat -> is_root dims (S j) x -> Rabs (nth j (snd row) 0 / x - p) < eps.
Proof.
  intros dims ps p eps Hwf NS EP He. pose proof (wf_ok _ _ Hwf) as OK. destruct (C65_pdd dims ps Hwf NS) as (B & HB). destruct (band_limit dims B p eps (ok_dims _ _ _ OK) He) as (J & HJ). exists J. intros k fuel lexsort collapse tol pdd groups row j x EA Hrow Hj Hx.
  apply (HJ j x); [lia|auto|]. destruct (C24_estimate dims ps k OK) as (_ & est & _ & EE & _). rewrite <- (estimate_root dims ps k p est j x OK EP EE) by (auto; lia). apply (HB k fuel lexsort collapse tol pdd groups est); auto. lia.
Qed.

(** The triclinic set of C24: AMD, PDD and the estimate are returned for every k, so the theorems speak of every column. *)
Example C65_case : pset_wf 3 ppc_example /\ nonsingular 3 (ps_cell ppc_example) /\
  forall k, exists fuel a pdd groups est, AMD fuel ppc_example k = Done a /\ PDD fuel ppc_example k true true (1 / 10000) = Done (pdd, groups) /\ AMD_estimate ppc_example k = Done est /\ length est = k.
Proof.
  destruct C24_case as (OK & NS & _). assert (WF : pset_wf 3 ppc_example) by (apply pset_wf_no_asym; exact OK). split; auto. split; auto. intros k.
  destruct (C09_terminates 3 _ _ (points_of ppc_example) k OK NS (points_incl _ _ WF) (points_nonempty _ _ WF)) as (rows & f0 & HF). destruct (HF f0) as [HD _]. specialize (HD (le_n _)).
  destruct (C24_estimate 3 ppc_example k OK) as (p & est & _ & EE & LE & _).
  exists f0. rewrite (AMD_run 3 ppc_example WF), (PDD_run 3 ppc_example WF), HD. cbn [obind].
  destruct (assemble (collapse_rows (weights_of ppc_example) (map (@tl R) rows) true (1 / 10000)) true) as [pdd groups]. do 4 eexists. split; [reflexivity|]. split; [reflexivity|]. split; [exact EE|exact LE].
Qed.
Example is_root_case : is_root 3 8 2.
Proof. split; [lra|]. cbn. lra. Qed.
(** The thin cell of C06: the distances returned are not the nearest ones, but are so up to 1 + sqrt (100^2 + 1/100^2). *)
Example C66_case : pset_ok 2 [[0; 0]] [[1; 0]; [100; / 100]] /\ motif_diameter [[0; 0]] 0 /\ edge_sum [[1; 0]; [100; / 100]] = 1 + sqrt (100 * 100 + / 100 * / 100) /\
  exists fuel rows, nearest_neighbors fuel [[0; 0]] [[1; 0]; [100; / 100]] [[0; 0]] 2 = Done rows /\ ~ Forall2 (fun p r => nearest_distances 2 [[0; 0]] [[1; 0]; [100; / 100]] p 2 r) [[0; 0]] rows.
Proof.
  split; [exact skew_ok|]. split; [|split; [|exact skew_wrong]].
  - intros p q [<-|[]] [<-|[]]. unfold edist, sq_dist, rsum. cbn. replace ((0 - 0) * (0 - 0) + ((0 - 0) * (0 - 0) + 0)) with 0 by ring. rewrite sqrt_0. lra.
  - unfold edge_sum, rsum, rdot. cbn. unfold rsum. cbn. replace (1 * 1 + (0 * 0 + 0)) with 1 by ring. rewrite sqrt_1, !Rplus_0_r. reflexivity.
Qed.
Print Assumptions C65_amd.
Print Assumptions C65_pdd.
Print Assumptions C65_amd_limit.
Print Assumptions C65_pdd_limit.
Print Assumptions C65_any_point.
Print Assumptions C66_rows.
Print Assumptions C66_exist.
Print Assumptions C66_entries.
Print Assumptions C66_amd.
