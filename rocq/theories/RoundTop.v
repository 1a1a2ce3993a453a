(** The neighbour search with rounded operations returns distances close to the nearest ones. *)
From Coq Require Import List ZArith Arith Bool Lia Reals Lra Psatz Permutation Sorted.
From Verif Require Import Num Base Spec Outcome LatticeModel LatticeProofs LatticeProofs2 CacheModel CacheProofs MergeModel MergeProofs NNModel VecR SpecGeom NNProofs NNSpecProofs NNComplete
  RoundModel SpecRound RoundSearch RoundProofs RoundGeom.
Import ListNotations.
Open Scope R_scope.

(** ** Ranks *)
Lemma rank_exists : forall A (dec : forall a b : A, {a = b} + {a <> b}) (ids1 ids2 : list A) j, NoDup ids1 -> (j < length ids1)%nat ->
  exists a, In a (firstn (S j) ids1) /\ ~ In a (firstn j ids2).
Proof.
  intros A dec ids1 ids2 j ND Hj. destruct (Exists_dec (fun a => ~ In a (firstn j ids2)) (firstn (S j) ids1)) as [E|E].
  - intros a. destruct (in_dec dec a (firstn j ids2)); [right; tauto|left; auto].
  - apply Exists_exists in E. exact E.
  - exfalso. assert (HI : incl (firstn (S j) ids1) (firstn j ids2)).
    { intros a Ha. destruct (in_dec dec a (firstn j ids2)) as [I|I]; auto. exfalso. apply E. apply Exists_exists. eauto. }
    pose proof (NoDup_incl_length (NoDup_firstn _ (S j) ids1 ND) HI) as HL. rewrite !firstn_length in HL. lia.
Qed.
Lemma sorted_split : forall (f : idx -> R) ids j, StronglySorted Rle (map f ids) -> (j < length ids)%nat ->
  (forall a, In a (firstn (S j) ids) -> f a <= nth j (map f ids) 0) /\ (forall a, In a ids -> ~ In a (firstn j ids) -> nth j (map f ids) 0 <= f a).
Proof.
  intros f. induction ids as [|b ids IH]; intros j HS Hj; [cbn in Hj; lia|]. cbn [map] in HS. inversion HS as [|? ? HS' HF]; subst. rewrite Forall_forall in HF.
  destruct j as [|j].
  - cbn. split; [intros a [<-|[]]; lra|]. intros a [<-|Ha] _; [lra|]. apply HF, in_map; auto.
  - cbn in Hj. destruct (IH j HS' ltac:(lia)) as [I1 I2]. cbn [map nth]. split.
    + intros a [<-|Ha]; [apply HF, nth_In; rewrite map_length; lia|]. apply I1. exact Ha.
    + intros a [<-|Ha] Hn; [exfalso; apply Hn; left; auto|]. apply I2; auto. intros X. apply Hn. right. auto.
Qed.

Lemma pow_small : forall x n, 0 <= x -> INR n * x <= 1 / 12 -> (1 + x) ^ n <= 1 + 7 / 6 * (INR n * x).
Proof.
  intros x n Hx. induction n as [|n IH]; intros Hn; [simpl; lra|].
  rewrite S_INR in *. assert (H0 : 0 <= INR n * x) by (apply Rmult_le_pos; auto using pos_INR). specialize (IH ltac:(lra)).
  simpl. apply Rle_trans with ((1 + x) * (1 + 7 / 6 * (INR n * x))); [apply Rmult_le_compat_l; lra|].
  assert (INR n * x * x <= 1 / 12 * x) by (apply Rmult_le_compat_r; lra). nra.
Qed.

Section Top.
  Variables (ar : arith) (u eta B : R) (dims : nat) (motif cell : list (list R)).
  Hypothesis FL : float_like u eta ar.
  Hypothesis Hu : u <= 1 / 10000.
  Hypothesis OK : pset_ok dims motif cell.
  Hypothesis H4 : (dims <= 4)%nat.
  Hypothesis Hdom : half_dominant dims cell.
  Hypothesis Hin : spread_within (u / 8) dims cell motif.
  Hypothesis HB : 0 <= B.
  Hypothesis He1 : eta <= u * B.
  Hypothesis He2 : eta <= (u * B) * (u * B).
  Hypothesis Hm : motif_within ar B motif.
  Let u0 : 0 <= u := fl_u _ _ _ FL.
  Let P := pt dims motif cell.
  Let K := key ar motif cell dims.

  Lemma K_nonneg : forall p a, 0 <= K p a.
  Proof. intros p a. apply (sqd_nonneg_r ar u eta FL Hu). Qed.

  (** One step towards the origin. *)
  Lemma step_rounded : forall p l i, In p motif -> (i < length motif)%nat -> length l = dims -> (4 < zsq l)%Z ->
    exists l' : list Z, length l' = dims /\ (zsq l' < zsq l)%Z /\ (forall n, (1 <= n)%Z -> (n * n < zsq l -> (n - 1) * (n - 1) < zsq l')%Z) /\
      (dist p (P (l', i)) <= dist p (P (l, i)) \/ (zsq l <= 16)%Z /\ dist p (P (l', i)) <= (1 + u / 2) * dist p (P (l, i))).
  Proof.
    intros p l i Hpm Hi Hl Hz.
    destruct (step_within (u / 8) motif cell dims ltac:(lra) OK H4 Hin p l i Hpm Hi Hl Hz) as (j & s & Hj & Hs & Hsl & HC).
    assert (Ez : zsq (upd l j (nth j l 0 - s)%Z) = (zsq l - 2 * (s * nth j l 0) + 1)%Z).
    { replace (nth j l 0 - s)%Z with (nth j l 0 + - s)%Z by lia. rewrite zsq_upd by lia. destruct Hs as [-> | ->]; lia. }
    pose proof (zsq_nonneg l). pose proof (zsq_ge l j) as Hg.
    assert (Hg' : ((s * nth j l 0) * (s * nth j l 0) <= zsq l)%Z) by (destruct Hs as [-> | ->]; lia).
    exists (upd l j (nth j l 0 - s)%Z). split; [rewrite upd_length; auto|]. rewrite Ez. split; [lia|]. split.
    { intros n Hn Hnz. set (a := (s * nth j l 0)%Z) in *. destruct (Z_le_gt_dec a n); nia. }
    destruct HC as [Hle|(Hz16 & c & Lc & Ec & Hc & Hle)]; [left|right; split; [auto|]]; unfold P; rewrite <- !sqrt_sqd.
    - apply sqrt_le_1_alt. auto.
    - pose proof (dominant_lower dims cell c (ok_cell _ _ _ OK) (ok_cell_len _ _ _ OK) Hdom Lc) as DL. rewrite <- Ec in DL.
      set (D := vsub (pt dims motif cell (l, i)) p) in *.
      assert (ED : sqd p (pt dims motif cell (l, i)) = dot D D) by (rewrite sqd_sym, sqd_dot; auto).
      assert (Hv : nth j c 0 * nth j c 0 * dot (nth j cell []) (nth j cell []) <= 2 * dot D D).
      { eapply Rle_trans; [|exact DL]. rewrite (rsum_split dims j (fun i => nth i c 0 * nth i c 0 * dot (nth i cell []) (nth i cell []))) by auto.
        assert (0 <= rsum (map (fun i => if Nat.eqb i j then 0 else nth i c 0 * nth i c 0 * dot (nth i cell []) (nth i cell [])) (seq 0 dims))); [|lra].
        assert (Z0 : rsum (map (fun _ : nat => 0) (seq 0 dims)) = 0).
        { generalize (seq 0 dims). induction l0 as [|? ? IH]; [reflexivity|]. unfold rsum in *. simpl. lra. }
        rewrite <- Z0. apply rsum_le. intros r _. destruct (Nat.eqb r j); [lra|]. apply Rmult_le_pos; [apply Rle_0_sqr|apply dot_nonneg]. }
      assert (Hc2 : 1 / 4 <= nth j c 0 * nth j c 0).
      { replace (nth j c 0 * nth j c 0) with (Rabs (nth j c 0) * Rabs (nth j c 0)) by (rewrite <- Rabs_mult; apply Rabs_right, Rle_ge, Rle_0_sqr). nra. }
      pose proof (dot_nonneg (nth j cell [])) as V0. pose proof (dot_nonneg D) as D0.
      assert (HV : dot (nth j cell []) (nth j cell []) <= 8 * dot D D) by nra.
      assert (HS : sqd p (pt dims motif cell (upd l j (nth j l 0 - s)%Z, i)) <= (1 + u / 2) * (1 + u / 2) * sqd p (pt dims motif cell (l, i))).
      { unfold P in Hle. rewrite ED in *. eapply Rle_trans; [exact Hle|].
        assert (u / 8 * dot (nth j cell []) (nth j cell []) <= u / 8 * (8 * dot D D)) by (apply Rmult_le_compat_l; lra).
        assert (0 <= u * u * dot D D) by (apply Rmult_le_pos; [apply Rle_0_sqr|auto]). nra. }
      apply sqrt_le_1_alt in HS. rewrite sqrt_mult_alt in HS by (apply Rle_0_sqr). rewrite sqrt_square in HS by lra. exact HS.
  Qed.

  (** Points which the search did not account for are not nearer than its largest row entry,
      up to rounding. *)
  Lemma outside : forall x k n diam mxd V W mx, incl x motif -> (1 <= k)%nat -> (2 <= n)%nat ->
    diam = r_sqrt ar mxd -> 0 <= mxd -> (forall p i, In p x -> (i < length motif)%nat -> K p (repeat 0%Z dims, i) <= mxd) ->
    state_at ar motif cell x k dims n diam V W mx -> finished ar motif cell x dims n diam mx ->
    forall p a, In p x -> pindex dims motif a -> ~ In a V -> sqrt mx <= dist p (P a) + 98 * u * (dist p (P a) + B).
  Proof.
    intros x k n diam mxd V W mx Hx Hk Hn Ed Hd0 Hd HS HF p [l i] Hp [Hl Hi] NV. cbn [fst snd] in Hl, Hi.
    pose proof (ok_dims _ _ _ OK) as Hd1. assert (Hpm : In p motif) by auto.
    assert (FAR : forall l', length l' = dims -> far ar cell dims diam mx l' -> sqrt mx <= dist p (P (l', i)) + 90 * u * (dist p (P (l', i)) + B)).
    { intros l' Hl' F. apply (far_error ar u eta B dims motif cell FL Hu OK H4 Hdom HB He1 He2 Hm x k mx mxd diam p l' i); auto. }
    destruct (in_dec idx_eq_dec (l, i) (visited motif dims n)) as [IV|IV].
    - apply (Permutation_in _ (sa_all _ _ _ _ _ _ _ _ _ _ _ HS)) in IV. apply in_app_iff in IV. destruct IV as [IV|IV]; [contradiction|].
      eapply Rle_trans; [apply (FAR l); [auto|]|pose proof (dist_nonneg p (P (l, i))); assert (0 <= u * (dist p (P (l, i)) + B)) by (apply Rmult_le_pos; lra); lra]. apply (sa_far _ _ _ _ _ _ _ _ _ _ _ HS (l, i) IV).
    - (* move towards the origin until the layer n *)
      assert (Hind : forall c l, (Z.to_nat (zsq l) < c)%nat -> length l = dims -> ((Z.of_nat n - 1) * (Z.of_nat n - 1) < zsq l)%Z ->
         exists l', length l' = dims /\ In (l', i) (idxs (length motif) (layer dims n)) /\ dist p (P (l', i)) <= (1 + u / 2) ^ Z.to_nat (Z.min (zsq l) 16 - 4) * dist p (P (l, i))).
      { clear l Hl NV IV. induction c as [|c IH]; intros l Hc Hl Hz; [lia|].
        destruct (Z_le_gt_dec (zsq l) (Z.of_nat n * Z.of_nat n)) as [Hle|Hgt].
        - exists l. split; auto. split; [|rewrite <- (Rmult_1_l (dist p (P (l, i)))) at 1; apply Rmult_le_compat_r; [apply dist_nonneg|apply pow_R1_Rle; lra]]. apply idxs_In. split; auto. destruct (layer_spec dims n Hd1) as (_ & _ & Hin'). apply Hin'. unfold in_shell. auto.
        - destruct (step_rounded p l i Hpm Hi Hl ltac:(nia)) as (l1 & L1 & Z1 & Z2 & HC).
          pose proof (zsq_nonneg l). pose proof (zsq_nonneg l1).
          destruct (IH l1) as (l' & H1 & H2 & H3); [lia|auto|apply Z2; lia|].
          exists l'. split; auto. split; auto. eapply Rle_trans; [exact H3|]. pose proof (dist_nonneg p (P (l, i))). pose proof (dist_nonneg p (P (l1, i))).
          destruct HC as [HC|[Hz16 HC]].
          + apply Rmult_le_compat; auto; [apply pow_le; lra|]. apply Rle_pow; [lra|lia].
          + apply Rle_trans with ((1 + u / 2) ^ Z.to_nat (Z.min (zsq l1) 16 - 4) * ((1 + u / 2) * dist p (P (l, i)))).
            * apply Rmult_le_compat_l; [apply pow_le; lra|auto].
            * rewrite <- Rmult_assoc, (Rmult_comm _ (1 + u / 2)). apply Rmult_le_compat_r; [auto|].
              change ((1 + u / 2) * (1 + u / 2) ^ Z.to_nat (Z.min (zsq l1) 16 - 4)) with ((1 + u / 2) ^ S (Z.to_nat (Z.min (zsq l1) 16 - 4))).
              apply Rle_pow; [lra|nia]. }
      destruct (Hind (S (Z.to_nat (zsq l))) l) as (l' & Hl' & Il' & Dl'); auto.
      { apply Z.nle_gt. intro Hle. apply IV, idxs_In. split; auto.
        destruct n as [|n]; [lia|]. apply (layers_concat_In motif cell dims OK). split; auto. nia. }
      assert (S1 : sqrt mx <= dist p (P (l', i)) + 90 * u * (dist p (P (l', i)) + B)).
      { destruct (HF _ Il') as [Hc|Hc]; [|apply FAR; auto]. specialize (Hc p Hp). apply sqrt_le_1_alt in Hc.
        pose proof (key_error ar u eta B dims motif cell FL Hu OK H4 Hdom He1 He2 Hm p (l', i) Hpm (conj Hl' Hi)) as KE.
        fold K in KE. fold P in KE. pose proof (Rle_abs (sqrt (K p (l', i)) - dist p (P (l', i)))) as A. fold K in Hc.
        pose proof (dist_nonneg p (P (l', i))). assert (0 <= u * (dist p (P (l', i)) + B)) by (apply Rmult_le_pos; lra). lra. }
      eapply Rle_trans; [exact S1|].
      assert (PW : (1 + u / 2) ^ Z.to_nat (Z.min (zsq l) 16 - 4) <= 1 + 7 * u).
      { eapply Rle_trans; [apply (Rle_pow _ _ 12); [lra|lia]|]. eapply Rle_trans; [apply pow_small; simpl; lra|]. simpl. lra. }
      pose proof (dist_nonneg p (P (l, i))) as D0.
      assert (D1 : dist p (P (l', i)) <= (1 + 7 * u) * dist p (P (l, i))) by (eapply Rle_trans; [exact Dl'|apply Rmult_le_compat_r; auto]).
      set (d' := dist p (P (l', i))) in *. set (d := dist p (P (l, i))) in *.
      assert (u * d' <= u * ((1 + 7 * u) * d)) by (apply Rmult_le_compat_l; auto). assert (0 <= u * B) by (apply Rmult_le_pos; auto).
      assert (0 <= u * d) by (apply Rmult_le_pos; auto). assert (u * (u * d) <= 1 / 10000 * (u * d)) by (apply Rmult_le_compat_r; auto). lra.
  Qed.

  (** A row of the search against the nearest distances. *)
  Lemma row_close : forall x k n diam mxd V W mx p ds, incl x motif -> (1 <= k)%nat -> (2 <= n)%nat ->
    diam = r_sqrt ar mxd -> 0 <= mxd -> (forall p i, In p x -> (i < length motif)%nat -> K p (repeat 0%Z dims, i) <= mxd) ->
    state_at ar motif cell x k dims n diam V W mx -> finished ar motif cell x dims n diam mx ->
    In p x -> nearest_distances dims motif cell p k ds ->
    Forall2 (fun d e => Rabs (e - d) <= 100 * u * (d + B)) ds (map (r_sqrt ar) (row_of ar motif cell k dims V p)).
  Proof.
    intros x k n diam mxd V W mx p ds Hx Hk Hn Ed Hd0 Hd HS HF Hp (ids & (I1 & I2 & I3 & I4 & I5) & I6).
    pose proof (outside x k n diam mxd V W mx Hx Hk Hn Ed Hd0 Hd HS HF) as OUT. assert (Hpm : In p motif) by auto.
    assert (PV : forall a, In a V -> pindex dims motif a).
    { intros a Ha. apply (visited_pindex motif cell dims OK n). eapply Permutation_in; [apply Permutation_sym, (sa_all _ _ _ _ _ _ _ _ _ _ _ HS)|]. apply in_app_iff; auto. }
    assert (NDV : NoDup V).
    { pose proof (visited_NoDup motif cell dims OK n) as ND. apply (Permutation_NoDup (sa_all _ _ _ _ _ _ _ _ _ _ _ HS)) in ND. apply NoDup_app_iff in ND. tauto. }
    pose proof (sa_len _ _ _ _ _ _ _ _ _ _ _ HS) as LV. pose proof (sa_top _ _ _ _ _ _ _ _ _ _ _ HS) as [_ TOP]. specialize (TOP p Hp).
    set (f := K p). set (vids := firstn k (keysort f V)).
    assert (ER : row_of ar motif cell k dims V p = map f vids) by (unfold row_of; fold K; fold f; apply kmin_map).
    assert (SR : StronglySorted Rle (map f vids)) by (rewrite <- ER; apply kmin_sorted).
    assert (Lv : length vids = k) by (unfold vids; rewrite firstn_length, <- (Permutation_length (keysort_perm _ f V)); lia).
    assert (NDv : NoDup vids) by (unfold vids; apply NoDup_firstn; eapply Permutation_NoDup; [apply keysort_perm|auto]).
    assert (InV : forall a, In a vids -> In a V) by (intros a Ha; unfold vids in Ha; apply firstn_In in Ha; eapply Permutation_in; [apply Permutation_sym, keysort_perm|eauto]).
    assert (Far : forall a j, In a V -> ~ In a vids -> (j < k)%nat -> nth j (map f vids) 0 <= f a).
    { intros a j Ha Hna Hj. pose proof (keysort_sorted _ f V) as Hs. rewrite <- (firstn_skipn k (keysort f V)) in Hs. apply StronglySorted_app_iff in Hs as (_ & _ & Hs). fold vids in Hs.
      assert (Ha' : In a (skipn k (keysort f V))).
      { assert (H : In a (keysort f V)) by (eapply Permutation_in; [apply keysort_perm|auto]). rewrite <- (firstn_skipn k (keysort f V)) in H. apply in_app_iff in H. tauto. }
      assert (Hj' : In (nth j (map f vids) 0) (map f vids)) by (apply nth_In; rewrite map_length; lia). apply in_map_iff in Hj' as (b & Eb & Hb). rewrite <- Eb. apply Hs; auto. }
    set (g := fun a => edist p (ppoint dims motif cell a)) in *.
    assert (Eg : forall a, pindex dims motif a -> g a = dist p (P a)) by (intros a Ha; unfold g, P; rewrite dist_edist, (pt_ppoint dims motif cell a OK Ha); auto).
    assert (KE : forall a, pindex dims motif a -> Rabs (sqrt (f a) - g a) <= 54 * u * (g a + B)).
    { intros a Ha. rewrite (Eg a Ha). apply (key_error ar u eta B dims motif cell FL Hu OK H4 Hdom He1 He2 Hm p a Hpm Ha). }
    assert (G0 : forall a, 0 <= g a) by (intros a; apply sqrt_pos).
    rewrite ER. assert (Lds : length ds = k) by (rewrite I4, map_length; auto).
    assert (MAIN : forall j, (j < k)%nat -> Rabs (sqrt (nth j (map f vids) 0) - nth j ds 0) <= 98 * u * (nth j ds 0 + B)).
    { intros j Hj. rewrite I4. rewrite I4 in I5. destruct (sorted_split g ids j I5 ltac:(lia)) as [S1 S2]. destruct (sorted_split f vids j SR ltac:(lia)) as [T1 T2].
      set (d := nth j (map g ids) 0) in *. set (r := nth j (map f vids) 0) in *.
      assert (Hd0' : 0 <= d).
      { assert (X : In d (map g ids)) by (apply nth_In; rewrite map_length; lia). apply in_map_iff in X as (b & <- & _). auto. }
      rewrite Forall_forall in I3. apply Rabs_le. split.
      - (* not below *)
        destruct (rank_exists _ idx_eq_dec vids ids j NDv ltac:(lia)) as (a & A1 & A2). pose proof (firstn_In _ _ _ _ A1) as A3. specialize (T1 a A1).
        assert (Ia : pindex dims motif a) by auto. specialize (KE a Ia). assert (GA : d <= g a).
        { destruct (in_dec idx_eq_dec a ids) as [I|I]; [apply S2; auto|]. apply I6; auto. rewrite I4. apply nth_In. rewrite map_length. lia. }
        apply sqrt_le_1_alt in T1. pose proof (Rle_abs (- (sqrt (f a) - g a))) as AB. rewrite Rabs_Ropp in AB. specialize (G0 a).
        assert ((1 - 54 * u) * d <= (1 - 54 * u) * g a) by (apply Rmult_le_compat_l; lra). assert (0 <= u * (d + B)) by (apply Rmult_le_pos; lra). lra.
      - (* not above *)
        destruct (rank_exists _ idx_eq_dec ids vids j I2 ltac:(lia)) as (a & A1 & A2). pose proof (firstn_In _ _ _ _ A1) as A3. specialize (S1 a A1).
        assert (Ia : pindex dims motif a) by auto. specialize (KE a Ia). specialize (G0 a). assert (M : u * (g a + B) <= u * (d + B)) by (apply Rmult_le_compat_l; lra). assert (0 <= u * (g a + B)) by (apply Rmult_le_pos; lra).
        destruct (in_dec idx_eq_dec a V) as [IV|IV].
        + assert (RA : r <= f a) by (destruct (in_dec idx_eq_dec a vids) as [I|I]; [apply T2; auto|apply Far; auto]).
          apply sqrt_le_1_alt in RA. pose proof (Rle_abs (sqrt (f a) - g a)). lra.
        + specialize (OUT p a Hp Ia IV). rewrite <- (Eg a Ia) in OUT.
          assert (RM : r <= mx). { eapply Rle_trans; [|exact TOP]. rewrite ER. apply sorted_le_last; auto. apply nth_In. rewrite map_length. lia. }
          apply sqrt_le_1_alt in RM. lra. }
    assert (FIN : forall j, (j < k)%nat -> Rabs (nth j (map (r_sqrt ar) (map f vids)) 0 - nth j ds 0) <= 100 * u * (nth j ds 0 + B)).
    { intros j Hj. specialize (MAIN j Hj). rewrite (nth_indep _ 0 (r_sqrt ar 0)) by (rewrite !map_length; lia). rewrite (map_nth (r_sqrt ar)). set (r := nth j (map f vids) 0) in *. set (d := nth j ds 0) in *.
      assert (Hr0 : 0 <= r).
      { assert (X : In r (map f vids)) by (apply nth_In; rewrite map_length; lia). apply in_map_iff in X as (b & <- & _). apply K_nonneg. }
      assert (Hd0' : 0 <= d).
      { assert (X : In d ds) by (apply nth_In; lia). rewrite I4 in X. apply in_map_iff in X as (b & <- & _). auto. }
      pose proof (fl_sqrt _ _ _ FL r Hr0) as Q. replace (r_sqrt ar r - d) with ((r_sqrt ar r - sqrt r) + (sqrt r - d)) by ring. eapply Rle_trans; [apply Rabs_triang|].
      pose proof (Rle_abs (sqrt r - d)) as A. assert (u * sqrt r <= u * (d + 98 * u * (d + B))) by (apply Rmult_le_compat_l; lra).
      assert (W1 : 0 <= u * (d + B)) by (apply Rmult_le_pos; lra). assert (u * (u * (d + B)) <= 1 / 10000 * (u * (d + B))) by (apply Rmult_le_compat_r; auto). assert (0 <= u * B) by (apply Rmult_le_pos; auto). lra. }
    assert (LL : length (map (r_sqrt ar) (map f vids)) = length ds) by (rewrite !map_length; lia).
    revert FIN LL. rewrite <- Lds. generalize (map (r_sqrt ar) (map f vids)) as es. clear. induction ds as [|d ds IH]; intros [|e es] FIN LL; try discriminate; constructor.
    - apply (FIN 0%nat). cbn. lia.
    - apply IH; [|cbn in LL; lia]. intros j Hj. apply (FIN (S j)). cbn. lia.
  Qed.

  Theorem rounded_nearest : forall x k fuel rows, incl x motif -> x <> [] ->
    @nearest_neighbors R (num_of ar) fuel motif cell x (S k) = Done rows ->
    Forall2 (fun p r => forall ds, nearest_distances dims motif cell p (S k) ds -> Forall2 (fun d e => Rabs (e - d) <= 100 * u * (d + B)) ds r) x rows.
  Proof.
    intros x k fuel rows Hx Hne E. unfold nearest_neighbors in E. rewrite (hd_motif_length dims motif cell OK) in E.
    destruct (rnn_sq ar motif cell x (S k) dims (ok_dims _ _ _ OK) ltac:(lia) Hx Hne K_nonneg (fun i Hi => key_zero ar u eta B dims motif cell FL OK Hm i Hi) fuel)
      as (s & diam & mxd & mx0 & Hs & Ed & Hd0 & Hd & _ & _ & _ & [[E2 _]|(n & V & W & mx & Hsn & HS & HF & E2)]); rewrite E2 in E; [discriminate|].
    cbn [obind] in E. inversion E as [Er]. clear E Er rows. unfold rows_of. rewrite map_map. change (@nsqrt R (num_of ar)) with (r_sqrt ar).
    assert (G : forall y, incl y x -> Forall2 (fun p r => forall ds, nearest_distances dims motif cell p (S k) ds -> Forall2 (fun d e => Rabs (e - d) <= 100 * u * (d + B)) ds r) y
       (map (fun p => map (r_sqrt ar) (row_of ar motif cell (S k) dims V p)) y)).
    2: apply G; intros ?; auto.
    induction y as [|p y IH]; intros Hy; cbn [map]; constructor.
    - intros ds Hds. eapply (row_close x (S k) n diam mxd V W mx); eauto; try lia. apply Hy; left; auto.
    - apply IH. intros q Hq. apply Hy. right. auto.
  Qed.
End Top.
