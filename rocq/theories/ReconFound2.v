(** Crystals in general position whose motif is determined by rows of distances. *)
From Coq Require Import List ZArith Reals Arith Bool Sorted Permutation Lia Lra.
From Verif Require Import Num Base Outcome Spec LatticeModel LatticeProofs2 VecR NNModel SpecGeom NNSpecProofs NNComplete SpecCell UtilsModel Props_Utils PSetModel Props_PSet SpecRecon SpecFound ReconModel Props_Recon Props_Search ReconFound.
Import ListNotations.
Open Scope R_scope.
Open Scope list_scope.

Lemma edist_ext : forall n u v u' v', length u = n -> length v = n -> length u' = n -> length v' = n ->
  (forall j, (j < n)%nat -> nth j u 0 - nth j v 0 = nth j u' 0 - nth j v' 0 \/ nth j u 0 - nth j v 0 = nth j v' 0 - nth j u' 0) -> edist u v = edist u' v'.
Proof.
  intros n u v u' v' L1 L2 L3 L4 H. unfold edist. f_equal. revert u v u' v' L1 L2 L3 L4 H.
  induction n as [|n IH]; intros [|a u] [|b v] [|c u'] [|d v'] L1 L2 L3 L4 H; try discriminate; auto. cbn [sq_dist]. cbn [length] in *.
  rewrite (IH u v u' v') by (auto; intros j Hj; apply (H (S j)); lia). specialize (H 0%nat ltac:(lia)). cbn [nth] in H.
  assert (E : (a - b) * (a - b) = (c - d) * (c - d)) by (destruct H as [H|H]; rewrite H; ring). nra.
Qed.
Lemma nth_coords : forall (f : nat -> R) n j, (j < n)%nat -> nth j (map f (seq 0 n)) 0 = f j.
Proof. intros f n j H. rewrite (nth_indep _ 0 (f 0%nat)) by (rewrite map_length, seq_length; auto). rewrite map_nth, seq_nth by auto. auto. Qed.
Lemma coords_length : forall (f : nat -> R) n, length (map f (seq 0 n)) = n.
Proof. intros. rewrite map_length, seq_length. auto. Qed.
Lemma vlen_origin : forall n u, length u = n -> vlen u = edist u (repeat 0 n).
Proof. intros n u <-. unfold vlen, edist. f_equal. induction u as [|a u IH]; cbn [length repeat rdot sq_dist]; auto. rewrite IH. ring. Qed.
Lemma nth_zeros : forall n j, nth j (repeat 0 n) 0 = 0.
Proof. induction n as [|n IH]; intros [|j]; cbn; auto. Qed.
Lemma lattice_coord_opp : forall cell l j, length l = length cell -> lattice_coord cell (map Z.opp l) j = - lattice_coord cell l j.
Proof.
  intros cell l j HL. unfold lattice_coord, comb_coord. rewrite <- HL. clear HL.
  assert (G : forall ks, rsum (map (fun r => nth r (map IZR (map Z.opp l)) 0 * nth j (nth r cell []) 0) ks) = - rsum (map (fun r => nth r (map IZR l) 0 * nth j (nth r cell []) 0) ks)).
  { induction ks as [|k ks IH]; cbn [map]; unfold rsum in *; cbn [fold_right]; [lra|]. rewrite IH.
    assert (E : nth k (map IZR (map Z.opp l)) 0 = - nth k (map IZR l) 0).
    { clear. revert k. induction l as [|z l IH]; intros [|k]; cbn [map nth]; try lra; auto. rewrite opp_IZR. auto. }
    rewrite E. ring. }
  apply G.
Qed.
Lemma lattice_coord_zero : forall cell n j, lattice_coord cell (repeat 0%Z n) j = 0.
Proof.
  intros cell n j. unfold lattice_coord, comb_coord. induction (seq 0 (length cell)) as [|k ks IH]; cbn [map]; unfold rsum in *; cbn [fold_right]; auto. rewrite IH.
  replace (nth k (map IZR (repeat 0%Z n)) 0) with 0; [lra|]. clear. revert k. induction n as [|n IH]; intros [|k]; cbn; auto.
Qed.
Lemma edist_nonneg : forall u v, 0 <= edist u v.
Proof. intros. apply sqrt_pos. Qed.
Lemma edist_comm : forall u v, edist u v = edist v u.
Proof. intros u v. unfold edist. f_equal. revert v. induction u as [|a u IH]; intros [|b v]; cbn [sq_dist]; auto. rewrite IH. ring. Qed.

Section Crystal.
  Variables (dims : nat) (cell m nn : list (list R)) (prec rho B diam : R) (D : nat) (vals : list R).
  Hypothesis HD : dims = 2%nat \/ dims = 3%nat.
  Hypothesis HS : square_matrix dims cell.
  Hypothesis HP : 0 < prec.
  Hypothesis HM : forall q, In q m -> length q = dims.
  Hypothesis HO : nth 0 m [] = repeat 0 dims.
  Hypothesis HN : forall v, In v nn -> exists l, length l = dims /\ v = lat dims cell l.
  Hypothesis GP : general_position dims cell m prec B.
  Hypothesis RB : rho <= B.
  Hypothesis DB : diam <= B.
  Hypothesis LL : lattice_lengths dims cell diam prec D vals.

  Lemma point_length : forall i, (i < length m)%nat -> length (nth i m []) = dims.
  Proof. intros i Hi. apply HM, nth_In. auto. Qed.
  Lemma gap_lattice : forall i l, (i < length m)%nat -> gap dims cell m i i l = vlen (lat dims cell l).
  Proof.
    intros i l Hi. rewrite (vlen_origin dims) by apply lat_length. apply (edist_ext dims); auto using point_length, coords_length, lat_length, repeat_length.
    - apply coords_length.
    - intros j Hj. right. unfold shift, lat. rewrite !nth_coords, nth_zeros by auto. lra.
  Qed.
  Lemma gap_sym : forall i j l, (i < length m)%nat -> (j < length m)%nat -> length l = dims -> gap dims cell m i j l = gap dims cell m j i (map Z.opp l).
  Proof.
    intros i j l Hi Hj HL. apply (edist_ext dims); auto using point_length, coords_length; try apply coords_length.
    intros k Hk. right. unfold shift. rewrite !nth_coords, lattice_coord_opp by (auto; rewrite (proj1 HS); auto). lra.
  Qed.
  Lemma gap_origin : forall i l, (i < length m)%nat -> length l = dims -> gap dims cell m 0 i l = edist (nth i m []) (lat dims cell (map Z.opp l)).
  Proof.
    intros i l Hi HL. unfold gap. rewrite HO. apply (edist_ext dims); auto using point_length, lat_length, repeat_length; try apply coords_length.
    intros k Hk. right. unfold shift, lat. rewrite !nth_coords, lattice_coord_opp, nth_zeros by (auto; rewrite (proj1 HS); auto). lra.
  Qed.
  Lemma gap_direct : forall i j, (i < length m)%nat -> (j < length m)%nat -> gap dims cell m i j (repeat 0%Z dims) = edist (nth i m []) (nth j m []).
  Proof.
    intros i j Hi Hj. apply (edist_ext dims); auto using point_length; try apply coords_length.
    intros k Hk. left. unfold shift. rewrite !nth_coords, lattice_coord_zero by auto. lra.
  Qed.
  Lemma opp_opp : forall l, map Z.opp (map Z.opp l) = l.
  Proof. intros l. rewrite map_map. rewrite <- (map_id l) at 2. apply map_ext. intros. lia. Qed.

  Lemma vals_lattice : forall v, In v vals -> exists l, length l = dims /\ (0 < zsq l)%Z /\ v = vlen (lat dims cell l) /\ v <= diam.
  Proof.
    intros v Hv. destruct LL as (lens & I & K). destruct (kept_in _ _ _ _ K Hv) as (k & Hk & _ & EV). rewrite EV in *. clear Hv EV v. assert (X : In (nth k lens 0) lens) by (apply nth_In; auto).
    apply I in X as [X (l & [X1 X2] & X3)]. exists l. split; auto. split; [lia|]. auto.
  Qed.
  Lemma vals_complete : forall l, below dims D l -> vlen (lat dims cell l) <= diam -> In (vlen (lat dims cell l)) vals.
  Proof.
    intros l Hl Q. destruct LL as (lens & I & ps & _ & K & ->). set (x := vlen _) in *.
    destruct (first_index x lens) as (k & H1 & H2 & H3); [apply I; split; eauto|]. apply in_map_iff. exists k. split; auto. apply K. split; auto. intros i Hi.
    destruct (Rle_lt_dec prec (Rabs (nth i lens 0 - nth k lens 0))) as [|C]; auto. exfalso. apply (H3 i Hi). assert (Y : In (nth i lens 0) lens) by (apply nth_In; lia).
    apply I in Y as [Y (l' & [Y1 _] & Y2)]. rewrite H2, <- Y2 in C. rewrite <- Y2. apply (gp_lattice _ _ _ _ _ GP); auto; [apply Hl|rewrite Y2; lra|fold x; lra].
  Qed.

  (** Shared distances are common ones, and conversely up to [rho]. *)
  Lemma shared_common : forall i j row row', (i < length m)%nat -> (j < length m)%nat -> i <> j ->
    has_distances dims cell m rho B i row -> has_distances dims cell m rho B j row' -> forall x, shared prec vals row row' x -> common dims cell m diam B D i j x.
  Proof.
    intros i j row row' Hi Hj NE (_ & R1 & _) (_ & R2 & _) x (X1 & X2 & y & Y1 & Y2 & XY). apply R1 in X1 as (XB & a & l & Ha & HL & NS & EX). apply R2 in Y1 as (YB & b & l' & Hb & HL' & _ & EY). split; auto.
    destruct (Nat.eq_dec a i) as [->|NA].
    - right. destruct NS as [NS|NS]; [contradiction|]. rewrite gap_lattice in EX by auto. exists l. split; auto. split; auto. split; auto.
      destruct (Rlt_le_dec diam x) as [|LE]; auto. right. intros BL. assert (I : In x vals) by (rewrite EX; apply vals_complete; auto; lra). apply X2 in I. rewrite Rminus_diag_eq in I by auto. rewrite Rabs_R0 in I. lra.
    - left. subst x y. destruct (gp_pairs _ _ _ _ _ GP i a l j b l') as [C _]; auto. exists l. split; auto. destruct C as [[C _]|[C _]]; [congruence|]. subst a. auto.
  Qed.
  Lemma common_shared : forall i j row row' l, (i < length m)%nat -> (j < length m)%nat -> i <> j -> length l = dims ->
    has_distances dims cell m rho B i row -> has_distances dims cell m rho B j row' -> gap dims cell m i j l <= rho -> shared prec vals row row' (gap dims cell m i j l).
  Proof.
    intros i j row row' l Hi Hj NE HL (_ & _ & R1) (_ & _ & R2) Q.
    assert (NV : forall v, In v vals -> prec <= Rabs (gap dims cell m i j l - v)).
    { intros v Hv. destruct (vals_lattice v Hv) as (l' & L1 & L2 & -> & L3). rewrite <- (gap_lattice i) by auto. rewrite <- (gap_lattice i) in L3 by auto. destruct (Rle_lt_dec prec (Rabs (gap dims cell m i j l - gap dims cell m i i l'))) as [|C]; auto. exfalso.
      apply (gp_pairs _ _ _ _ _ GP) in C as [[[_ C]|[C _]] _]; auto; lra. }
    split; [apply R1; auto|]. split; auto. exists (gap dims cell m i j l). split; [|split; [auto|]].
    - rewrite gap_sym in Q |- * by auto. apply R2; auto. rewrite map_length. auto.
    - rewrite Rminus_diag_eq by auto. rewrite Rabs_R0. auto.
  Qed.
  Lemma rows_resolved : forall i j row row', (i < length m)%nat -> (j < length m)%nat -> i <> j ->
    has_distances dims cell m rho B i row -> has_distances dims cell m rho B j row' -> resolved prec vals row row'.
  Proof.
    intros i j row row' Hi Hj NE R1 R2 x y HX HY Q. pose proof (shared_common i j row row' Hi Hj NE R1 R2) as SC.
    apply SC in HX as [XB [(l & HL & ->)|(l & HL & _ & EX & _)]]; apply SC in HY as [YB [(l' & HL' & ->)|(l' & HL' & _ & EY & _)]].
    - apply (gp_pairs _ _ _ _ _ GP) in Q as [_ Q]; auto.
    - subst y. rewrite <- (gap_lattice i) in * by auto. apply (gp_pairs _ _ _ _ _ GP) in Q as [_ Q]; auto.
    - subst x. rewrite <- (gap_lattice i) in * by auto. rewrite Rabs_minus_sym in Q. apply (gp_pairs _ _ _ _ _ GP) in Q as [_ Q]; auto.
    - subst x y. apply (gp_lattice _ _ _ _ _ GP); auto.
  Qed.

  (** The first distance shared with the origin. *)
  Variable row0 : list R.
  Hypothesis R0 : has_distances dims cell m rho B 0 row0.
  Hypothesis H0 : (0 < length m)%nat.
  Lemma vlen_gap : forall i, (i < length m)%nat -> vlen (nth i m []) = gap dims cell m 0 i (repeat 0%Z dims).
  Proof. intros i Hi. rewrite gap_direct, HO, edist_comm by auto. apply vlen_origin. apply point_length. auto. Qed.
  Lemma least_is_length : forall i row, (1 <= i < length m)%nat -> has_distances dims cell m rho B i row -> visible dims cell nn prec rho diam D (nth i m []) ->
    least_shared prec vals row0 row (vlen (nth i m [])).
  Proof.
    intros i row Hi RI [V1 [V2 V3] _]. split.
    - rewrite vlen_gap in * by lia. apply (common_shared 0 i); auto; try lia. apply repeat_length.
    - intros x Hx. apply (shared_common 0 i row0 row) in Hx as [_ [(l & HL & ->)|Hx]]; auto; try lia. rewrite gap_origin by (auto; lia). apply V1. rewrite map_length. auto.
  Qed.
  Lemma visible_locatable : forall i row, (1 <= i < length m)%nat -> has_distances dims cell m rho B i row -> visible dims cell nn prec rho diam D (nth i m []) ->
    locatable dims cell prec D vals nn row0 row (nth i m []).
  Proof.
    intros i row Hi RI VI. pose proof (least_is_length i row Hi RI VI) as LS. destruct VI as [V1 [V2 V3] (bs & B1 & B2 & B3 & B4 & B5 & B6 & B7)]. set (q := nth i m []) in *.
    exists (vlen q), bs. split; [|auto]. split; [apply point_length; lia|]. split; auto. split; [rewrite Rminus_diag_eq by auto; rewrite Rabs_R0; auto|]. split; auto. split; auto. split; auto. split; [|split; auto].
    - intros b Hb. destruct (HN b (B2 b Hb)) as (l & HL & E). assert (EG : edist q b = gap dims cell m 0 i (map Z.opp l)). { rewrite gap_origin, opp_opp by (auto; try rewrite map_length; auto; lia). rewrite E. auto. }
      specialize (B5 b Hb). rewrite EG in *. apply (common_shared 0 i); auto; try lia. rewrite map_length. auto.
    - intros l [Hl _]. specialize (V1 l Hl). rewrite edist_comm. lra.
  Qed.
  Lemma candidate_only : forall i row r, (1 <= i < length m)%nat -> has_distances dims cell m rho B i row -> visible dims cell nn prec rho diam D (nth i m []) ->
    unambiguous dims cell m nn prec diam B D i (nth i m []) -> candidate dims cell prec D vals nn row0 row r -> r = nth i m [] \/ r = invert (nth i m []).
  Proof.
    intros i row r Hi RI VI UN (d & bs & C1 & C2 & C3 & C4 & C5 & C6 & C7 & C8 & C9). pose proof (least_is_length i row Hi RI VI) as LS.
    assert (E : d = vlen (nth i m [])). { apply Rle_antisym; [apply C2; apply LS|apply LS; apply C2]. }
    subst d. apply (UN r bs); auto. intros b Hb. apply (shared_common 0 i row0 row); auto; lia.
  Qed.
  Lemma crystal_determined : forall row1 rows, (2 <= length m)%nat -> length rows = (length m - 2)%nat -> has_distances dims cell m rho B 1 row1 ->
    (forall i, (2 <= i < length m)%nat -> has_distances dims cell m rho B i (nth (i - 2) rows [])) ->
    (forall i, (1 <= i < length m)%nat -> visible dims cell nn prec rho diam D (nth i m []) /\ unambiguous dims cell m nn prec diam B D i (nth i m [])) ->
    (forall i, (2 <= i < length m)%nat -> oriented dims cell m prec rho diam B D i (nth 1 m []) (nth i m [])) ->
    determined dims cell prec D vals nn row0 row1 rows (nth 1 m []) (skipn 2 m).
  Proof.
    intros row1 rows L2 LR R1 RI VU OR. split.
    - apply (rows_resolved 0 1); auto; lia.
    - apply visible_locatable; auto; try lia. apply VU. lia.
    - intros r Hr. apply (candidate_only 1 row1); auto; try lia; apply VU; lia.
    - assert (F2 : forall (P : list R -> list R -> Prop) l l', length l = length l' -> (forall k, (k < length l)%nat -> P (nth k l []) (nth k l' [])) -> Forall2 P l l').
      { clear. induction l as [|a l IH]; intros [|b l'] H HP; try discriminate; constructor; [apply (HP 0%nat); cbn; lia|]. apply IH; auto. intros k Hk. apply (HP (S k)). cbn. lia. }
      apply F2; [rewrite skipn_length; auto|]. intros k Hk.
      assert (NS : nth k (skipn 2 m) [] = nth (S (S k)) m []). { destruct m as [|a [|b m']]; cbn [skipn nth length] in *; auto; lia. }
      rewrite NS. set (i := S (S k)). assert (Hi : (2 <= i < length m)%nat) by lia. pose proof (RI i Hi) as RIi. replace (i - 2)%nat with k in RIi by lia. set (row := nth k rows []) in *.
      destruct (VU i ltac:(lia)) as [VI UN]. destruct (OR i Hi) as [O1 O2].
      split; [apply (rows_resolved 0 i); auto; lia|]. split; [apply (rows_resolved 1 i); auto; lia|]. split; [apply visible_locatable; auto; lia|]. split.
      + exists (edist (nth 1 m []) (nth i m [])). split; [|rewrite Rminus_diag_eq by auto; rewrite Rabs_R0; auto]. rewrite <- gap_direct in * by lia. apply (common_shared 1 i); auto; try lia. apply repeat_length.
      + intros r Hr (e & He & Q). destruct (candidate_only i row r ltac:(lia) RIi VI UN Hr) as [->| ->]; auto. exfalso. apply (shared_common 1 i row1 row) in He; auto; try lia. apply O2 in He. lra.
  Qed.
End Crystal.
