(** Entries of nearly nearest distances, and averages of rows in a band. *)
From Coq Require Import List ZArith Arith Bool Lia Reals Lra Sorted Permutation.
From Verif Require Import Num Base Outcome NNModel Spec SpecGeom SpecDet SpecCalc SpecAsym VecR NNProofs NNSpecProofs NNComplete CalcProofs Props_PPC BallProofs CountProofs GramProofs AsymProofs.
Import ListNotations.
Open Scope R_scope.

Lemma sorted_nth_le : forall l a b, StronglySorted Rle l -> (a <= b)%nat -> (b < length l)%nat -> nth a l 0 <= nth b l 0.
Proof.
  intros l a b H. revert a b. induction H as [|x l H IH HF]; intros a b Hab Hb; cbn in Hb; [lia|]. destruct b as [|b]; [replace a with 0%nat by lia; lra|]. destruct a as [|a]; [|apply IH; lia].
  cbn. rewrite Forall_forall in HF. apply HF, nth_In. lia.
Qed.
Lemma firstn_nth : forall A (l : list A) n a d, In a (firstn n l) -> exists i, (i < n)%nat /\ (i < length l)%nat /\ nth i l d = a.
Proof.
  intros A. induction l as [|b l IH]; intros [|n] a d H; cbn in H; try contradiction. destruct H as [<-|H]; [exists 0%nat; cbn; repeat split; lia|].
  destruct (IH n a d H) as (i & H1 & H2 & H3). exists (S i). cbn. repeat split; auto; lia.
Qed.
Lemma nth_firstn_In : forall A (l : list A) n i d, (i < n)%nat -> (i < length l)%nat -> In (nth i l d) (firstn n l).
Proof. intros A. induction l as [|b l IH]; intros [|n] [|i] d H1 H2; cbn in *; try lia; [left; auto|right; apply IH; lia]. Qed.

Section Rows.
  Variables (dims : nat) (motif cell : list (list R)) (p : list R).
  Let f (a : list Z * nat) := edist p (ppoint dims motif cell a).
  Lemma entry_dist : forall n ds ids j a0, neighbour_distances dims motif cell p n ds ids -> (j < n)%nat -> nth j ds 0 = f (nth j ids a0).
  Proof.
    intros n ds ids j a0 (H1 & _ & _ & -> & _) Hj. rewrite (nth_indep _ 0 (f a0)) by (rewrite map_length; lia). apply (map_nth f).
  Qed.
  (** Points nearer than the [j]-th entry are among the first [j]. *)
  Lemma nearer_first : forall n ds ids j a, neighbour_distances dims motif cell p n ds ids -> (j < n)%nat -> In a ids -> f a < nth j ds 0 -> In a (firstn j ids).
  Proof.
    intros n ds ids j a H Hj Ha L. destruct (In_nth ids a a Ha) as (i & Hi & Ei). pose proof H as (H1 & _ & _ & H4 & H5).
    destruct (Nat.lt_ge_cases i j) as [G|G]; [rewrite <- Ei; apply nth_firstn_In; auto|]. exfalso.
    assert (Q : nth j ds 0 <= nth i ds 0) by (apply sorted_nth_le; auto; rewrite H4, map_length; auto). rewrite (entry_dist n ds ids i a H) in Q by lia. rewrite Ei in Q. lra.
  Qed.
  (** The first [j + 1] points are at most as far as the [j]-th entry. *)
  Lemma first_nearer : forall n ds ids j a, neighbour_distances dims motif cell p n ds ids -> (j < n)%nat -> In a (firstn (S j) ids) -> f a <= nth j ds 0.
  Proof.
    intros n ds ids j a H Hj Ha. destruct (firstn_nth _ ids (S j) a a Ha) as (i & H1 & H2 & <-). rewrite <- (entry_dist n ds ids i a H) by lia. destruct H as (L & _ & _ & H4 & H5). apply sorted_nth_le; auto; [lia|]. rewrite H4, map_length. lia.
  Qed.
  Theorem entry_compare : forall n n' e ds ds' ids' j, 0 <= e -> nearest_within dims motif cell p n e ds -> neighbour_distances dims motif cell p n' ds' ids' -> (j < n)%nat -> (j < n')%nat ->
    nth j ds 0 <= nth j ds' 0 + e.
  Proof.
    intros n n' e ds ds' ids' j He (ids & H & W) H' Hj Hj'. destruct (Rle_or_lt (nth j ds 0) (nth j ds' 0 + e)) as [G|G]; auto. exfalso.
    pose proof H as (L & ND & _ & ED & _). pose proof H' as (L' & ND' & F' & _).
    assert (I : incl (firstn (S j) ids') (firstn j ids)).
    { intros a Ha. pose proof (first_nearer n' ds' ids' j a H' Hj' Ha) as D. apply (nearer_first n ds ids j a H Hj); [|lra].
      destruct (in_dec idx_eq_dec a ids) as [|N]; auto. exfalso. assert (PI : pindex dims motif a) by (rewrite Forall_forall in F'; apply F'; eapply firstn_In; eauto).
      assert (In (nth j ds 0) ds) by (apply nth_In; rewrite ED, map_length; lia). pose proof (W a _ PI N H0). unfold f in D. lra. }
    apply NoDup_incl_length in I; [|apply NoDup_firstn; auto]. rewrite !firstn_length in I. lia.
  Qed.
End Rows.

Lemma within_nearest : forall dims motif cell p n ds, nearest_distances dims motif cell p n ds <-> nearest_within dims motif cell p n 0 ds.
Proof. intros. split; intros (ids & H & W); exists ids; split; auto; intros a d H1 H2 H3; specialize (W a d H1 H2 H3); lra. Qed.

(** ** Distances in terms of the density *)
Section Bound.
  Variables (dims : nat) (motif cell : list (list R)).
  Hypothesis OK : pset_ok dims motif cell.
  Hypothesis NS : nonsingular dims cell.
  Theorem within_bound : exists B, 0 <= B /\ forall p n e ds j rho, length p = dims -> 0 <= e -> nearest_within dims motif cell p n e ds -> (j < n)%nat -> 0 <= rho -> density dims motif cell * rho ^ dims = INR (S j) ->
    Rabs (nth j ds 0 - rho) <= B + e.
  Proof.
    destruct (point_count dims motif cell OK NS) as (C & HC & PC). pose proof (density_pos dims motif cell OK NS) as DP. pose proof (ok_dims _ _ _ OK) as HD.
    set (c := density dims motif cell) in *. exists (slack dims c C). pose proof (slack_ge dims c C DP HC) as SG. split; [lra|].
    intros p n e ds j rho Hp He (ids & H & W) Hj Hrho E. pose proof H as (L & ND & F & ED & SS). rewrite Forall_forall in F.
    assert (Lds : length ds = n) by (rewrite ED, map_length; auto).
    assert (D0 : 0 <= nth j ds 0). { destruct ids as [|a0 ids']; [cbn in L; lia|]. rewrite (entry_dist dims motif cell p n ds _ j a0 H Hj). apply sqrt_pos. }
    assert (LO : rho <= nth j ds 0 + slack dims c C).
    { apply (below dims c C HD DP HC (nth j ds 0) (INR (S j)) rho); auto. destruct (PC p (nth j ds 0) Hp D0) as (N & N1 & N2 & N3). apply Rabs_def2' in N3.
      assert (LE : (S j <= length N)%nat).
      { replace (S j) with (length (firstn (S j) ids)) by (rewrite firstn_length; lia). apply NoDup_incl_length; [apply NoDup_firstn; auto|]. intros a Ha. apply N2. split; [apply F; eapply firstn_In; eauto|]. apply (first_nearer dims motif cell p n ds ids j a); auto. }
      apply le_INR in LE. lra. }
    assert (UP : nth j ds 0 - e <= rho + slack dims c C).
    { apply (above dims c C HD DP HC (nth j ds 0 - e) (INR (S j)) rho); auto. intros r Hr Lr. destruct (PC p r Hp Hr) as (N & N1 & N2 & N3). apply Rabs_def2' in N3.
      assert (LE : (length N <= j)%nat).
      { apply Nat.le_trans with (length (firstn j ids)); [|rewrite firstn_length; lia]. apply NoDup_incl_length; auto. intros a Ha. apply N2 in Ha. destruct Ha as (A1 & A2).
        apply (nearer_first dims motif cell p n ds ids j a); auto; [|lra]. destruct (in_dec idx_eq_dec a ids) as [|NI]; auto. exfalso. specialize (W a (nth j ds 0) A1 NI ltac:(apply nth_In; lia)). lra. }
      apply le_INR in LE. rewrite S_INR. lra. }
    apply Rabs_le. lra.
  Qed.
  (** The nearest distances exist. *)
  Theorem nearest_exist : forall p n, length p = dims -> exists ds, nearest_distances dims motif cell p n ds.
  Proof.
    intros p n Hp. destruct (point_count dims motif cell OK NS) as (C & HC & PC).
    assert (NE : motif <> []) by apply OK.
    destruct (nearest_neighbors_exact dims motif cell motif n 0 OK (fun a H => H) NE) as (s & _ & _ & LV & _). set (V := visited motif dims (s - 1)) in *.
    set (f := fun a => edist p (ppoint dims motif cell a)).
    destruct (exists_max _ f V) as (r & (a0 & _ & Er) & MX); [destruct V; [cbn in LV; lia|discriminate]|].
    assert (R0 : 0 <= r) by (rewrite Er; apply sqrt_pos). destruct (PC p r Hp R0) as (N & N1 & N2 & _).
    assert (LN : (n <= length N)%nat).
    { apply Nat.le_trans with (length V); [lia|]. apply NoDup_incl_length; [apply (visited_NoDup motif cell dims OK)|]. intros a Ha. apply N2. split; [apply (visited_pindex motif cell dims OK (s - 1)); auto|apply MX; auto]. }
    set (K := keysort f N). assert (PK : Permutation N K) by apply keysort_perm.
    exists (map f (firstn n K)), (firstn n K). pose proof (keysort_sorted _ f N) as SK. fold K in SK.
    split; [split; [|split; [|split; [|split]]]|].
    - rewrite firstn_length. rewrite <- (Permutation_length PK). lia.
    - apply NoDup_firstn. apply (Permutation_NoDup PK). auto.
    - apply Forall_forall. intros a Ha. apply firstn_In in Ha. apply (Permutation_in a (Permutation_sym PK)) in Ha. apply N2 in Ha. tauto.
    - auto.
    - apply StronglySorted_map. clear - SK. revert n. induction SK as [|a l SK IH HF]; intros [|n]; cbn; constructor; auto. rewrite Forall_forall in *. intros b Hb. apply HF. eapply firstn_In; eauto.
    - intros a d PA NA Hd. apply in_map_iff in Hd. destruct Hd as (b & <- & Hb). fold (f a).
      destruct (in_dec idx_eq_dec a N) as [IN|NIN].
      + assert (IK : In a K) by (apply (Permutation_in a PK); auto). rewrite <- (firstn_skipn n K) in IK. apply in_app_or in IK. destruct IK as [IK|IK]; [contradiction|].
        rewrite <- (firstn_skipn n K) in SK. clear - SK IK Hb. revert SK Hb. generalize (firstn n K). induction l as [|c l IH]; intros SK Hb; [destruct Hb|]. inversion SK as [|? ? S1 S2]; subst. destruct Hb as [<-|Hb]; auto. rewrite Forall_forall in S2. apply S2. apply in_or_app. auto.
      + assert (fb : f b <= r). { apply firstn_In in Hb. apply (Permutation_in b (Permutation_sym PK)) in Hb. apply N2 in Hb. tauto. }
        destruct (Rle_or_lt (f b) (f a)) as [|L]; auto. exfalso. apply NIN, N2. split; auto. unfold f in *. lra.
  Qed.
End Bound.

(** ** Averages of numbers in a band *)
Lemma mean_band : forall (rows : list (list R)) j lo hi, rows <> [] -> (forall r, In r rows -> lo <= nth j r 0 <= hi) -> lo <= mean rows j <= hi.
Proof.
  intros rows j lo hi NE H. unfold mean. assert (P : 0 < INR (length rows)) by (apply lt_0_INR; destruct rows; [congruence|cbn; lia]).
  assert (S1 : lo * INR (length rows) <= rsum (map (fun r => nth j r 0) rows) <= hi * INR (length rows)).
  { clear NE P. induction rows as [|r rows IH]; [cbn; lra|]. cbn [map length]. rewrite S_INR. unfold rsum in *. cbn [fold_right]. pose proof (H r (or_introl eq_refl)). specialize (IH (fun x Hx => H x (or_intror Hx))). lra. }
  split; (apply (Rmult_le_reg_r (INR (length rows))); auto); unfold Rdiv; rewrite Rmult_assoc, Rinv_l by lra; lra.
Qed.
Lemma wmean_band : forall ws (rows rows' : list (list R)) j lo hi, Forall (fun w => 0 < w) ws -> ws <> [] -> length ws = length rows -> length ws = length rows' ->
  (forall r r', In (r, r') (combine rows rows') -> lo <= nth j r' 0 - nth j r 0 <= hi) -> lo <= wmean ws rows' j - wmean ws rows j <= hi.
Proof.
  intros ws rows rows' j lo hi HW NE L1 L2 H. unfold wmean. assert (P : 0 < rsum ws).
  { clear - HW NE. destruct ws as [|w ws]; [congruence|]. clear NE. revert w HW. induction ws as [|v ws IH]; intros w HW; inversion HW; subst; unfold rsum in *; cbn in *; [lra|]. specialize (IH v H2). lra. }
  assert (S1 : lo * rsum ws <= rsum (map (fun p => fst p * nth j (snd p) 0) (combine ws rows')) - rsum (map (fun p => fst p * nth j (snd p) 0) (combine ws rows)) <= hi * rsum ws).
  { clear NE P. revert rows rows' L1 L2 H. induction ws as [|w ws IH]; intros [|r rows] [|r' rows'] L1 L2 H; try discriminate; [cbn; lra|]. cbn [combine map]. unfold rsum in *. cbn [fold_right fst snd].
    inversion HW; subst. specialize (IH H3 rows rows' ltac:(cbn in *; lia) ltac:(cbn in *; lia) (fun a b Hab => H a b (or_intror Hab))). pose proof (H r r' (or_introl eq_refl)). nra. }
  split; (apply (Rmult_le_reg_r (rsum ws)); auto); unfold Rdiv; rewrite Rmult_minus_distr_r, !Rmult_assoc, Rinv_l by lra; lra.
Qed.
Lemma wmean_const : forall ws (rows : list (list R)) j c, rsum ws <> 0 -> length ws = length rows -> (forall r, In r rows -> nth j r 0 = c) -> wmean ws rows j = c.
Proof.
  intros ws rows j c NZ L H. unfold wmean. assert (E : rsum (map (fun p => fst p * nth j (snd p) 0) (combine ws rows)) = c * rsum ws).
  { clear NZ. revert rows L H. induction ws as [|w ws IH]; intros [|r rows] L H; try discriminate; [cbn; ring|]. cbn [combine map]. unfold rsum in *. cbn [fold_right fst snd]. rewrite (H r) by (left; auto). rewrite (IH rows) by (try (cbn in L; lia); intros; apply H; right; auto). ring. }
  rewrite E. field. auto.
Qed.
