(** Lemmas for C79: nearest distances of displaced sets and transport plans between them. *)
From Coq Require Import List ZArith Arith Bool Lia Reals Lra Permutation Sorted.
From Verif Require Import AsymProofs2 RoundSum.
From Verif Require Import Num Base Spec SpecGeom SpecCalc SpecCont Outcome Condensed CollapseModel CollapseProofs
  Props_Collapse NNModel VecR NNProofs NNSpecProofs NNComplete NNInvariance Props_NN CalcModel CalcProofs
  CalcProofs2 CalcCanon CalcInv Line Props_Calc Props_Inv Props_Geo.
From Verif Require Import Sums SpecEmd Props_EmdPdd.
Import ListNotations.
Open Scope R_scope.

(** ** Nearest distances under an injective map of the points *)
Lemma nearest_le_phi : forall dims motif cell motif' cell' p p' n ds ds' (phi : R -> R) (f : list Z * nat -> list Z * nat),
  nearest_distances dims motif cell p n ds -> nearest_distances dims motif' cell' p' n ds' ->
  (forall a b, pindex dims motif a -> pindex dims motif b -> f a = f b -> a = b) ->
  (forall a, pindex dims motif a -> pindex dims motif' (f a) /\
     edist p' (ppoint dims motif' cell' (f a)) <= phi (edist p (ppoint dims motif cell a))) ->
  (forall x y, x <= y -> phi x <= phi y) ->
  forall j, (j < n)%nat -> nth j ds' 0 <= phi (nth j ds 0).
Proof.
  intros dims motif cell motif' cell' p p' n ds ds' phi f
    (ids & (H1 & H2 & H3 & H4 & H5) & H6) (ids' & (H1' & H2' & H3' & H4' & H5') & H6') Hf He Hphi j Hj.
  apply Rnot_lt_le. intro Hlt. rewrite Forall_forall in H3.
  assert (Lds : length ds = n) by (rewrite H4, map_length; auto).
  assert (Lds' : length ds' = n) by (rewrite H4', map_length; auto).
  assert (Hincl : incl (map f (firstn (S j) ids)) (firstn j ids')).
  { intros b Hb. apply in_map_iff in Hb as (a & <- & Ha). assert (Hain : In a ids) by (eapply firstn_In; eauto).
    assert (Hd : edist p (ppoint dims motif cell a) <= nth j ds 0).
    { destruct (In_nth _ _ a Ha) as (r & Hr & Er). rewrite firstn_length in Hr.
      assert (Er' : nth r ids a = a).
      { rewrite <- Er at 2. rewrite <- (firstn_skipn (S j) ids) at 1.
        rewrite app_nth1; auto. rewrite firstn_length. auto. }
      assert (Ed : nth r ds 0 = edist p (ppoint dims motif cell a)).
      { rewrite H4. rewrite (nth_indep _ 0 (edist p (ppoint dims motif cell a))) by (rewrite map_length; lia).
        rewrite (map_nth (fun a => edist p (ppoint dims motif cell a))), Er'. auto. }
      rewrite <- Ed. destruct (Nat.eq_dec r j) as [->|Hn]; [lra|].
      apply sorted_nth_le; auto. lia. }
    destruct (He a (H3 a Hain)) as [Ha' Hle]. set (b := f a) in *.
    assert (Hd' : edist p' (ppoint dims motif' cell' b) < nth j ds' 0) by (pose proof (Hphi _ _ Hd); lra).
    destruct (in_dec idx_eq_dec b (firstn j ids')) as [Hi|Hni]; auto. exfalso.
    destruct (in_dec idx_eq_dec b ids') as [Hi|Hni'].
    - assert (Hsk : In b (skipn j ids')).
      { rewrite <- (firstn_skipn j ids') in Hi. apply in_app_or in Hi as [Hi|Hi]; [contradiction|auto]. }
      destruct (In_nth _ _ b Hsk) as (r & Hr & Er). rewrite skipn_length in Hr.
      assert (Er' : nth (j + r) ids' b = b).
      { rewrite <- (firstn_skipn j ids'). rewrite app_nth2; rewrite firstn_length; [|lia].
        replace (j + r - Nat.min j (length ids'))%nat with r by lia. auto. }
      assert (Ed : nth (j + r) ds' 0 = edist p' (ppoint dims motif' cell' b)).
      { rewrite H4'. rewrite (nth_indep _ 0 (edist p' (ppoint dims motif' cell' b))) by (rewrite map_length; lia).
        rewrite (map_nth (fun a => edist p' (ppoint dims motif' cell' a))), Er'. auto. }
      assert (nth j ds' 0 <= nth (j + r) ds' 0).
      { destruct r as [|r]; [rewrite Nat.add_0_r; lra|]. apply sorted_nth_le; auto. lia. }
      lra.
    - specialize (H6' b (nth j ds' 0) Ha' Hni' ltac:(apply nth_In; lia)). lra. }
  assert (ND : NoDup (map f (firstn (S j) ids))).
  { assert (N0 := NoDup_firstn _ (S j) ids H2).
    assert (HP : forall a, In a (firstn (S j) ids) -> pindex dims motif a).
    { intros a Ha. apply H3. eapply firstn_In; eauto. }
    clear - N0 HP Hf. induction N0 as [|a l Hn N0 IH]; simpl; constructor.
    - intros Hin. apply in_map_iff in Hin as (b & E & Hb). apply Hn.
      rewrite (Hf a b); auto; apply HP; simpl; auto.
    - apply IH. intros; apply HP; simpl; auto. }
  pose proof (NoDup_incl_length ND Hincl) as HL.
  rewrite map_length, !firstn_length in HL. lia.
Qed.

Lemma nearest_le_map : forall dims motif cell motif' cell' p p' n ds ds' e (f : list Z * nat -> list Z * nat),
  nearest_distances dims motif cell p n ds -> nearest_distances dims motif' cell' p' n ds' ->
  (forall a b, pindex dims motif a -> pindex dims motif b -> f a = f b -> a = b) ->
  (forall a, pindex dims motif a -> pindex dims motif' (f a) /\
     edist p' (ppoint dims motif' cell' (f a)) <= edist p (ppoint dims motif cell a) + e) ->
  forall j, (j < n)%nat -> nth j ds' 0 <= nth j ds 0 + e.
Proof.
  intros. apply (nearest_le_phi dims motif cell motif' cell' p p' n ds ds' (fun x => x + e) f); auto. intros; lra.
Qed.

(** ** Displacements *)
Lemma edist_shift2 : forall dims motif motif' cell l j a, pset_ok dims motif cell ->
  length l = dims -> (j < length motif)%nat -> length (fst a) = dims ->
  edist (ppoint dims motif cell (l, j)) (ppoint dims motif' cell a) =
  edist (nth j motif []) (ppoint dims motif' cell (map2 Z.sub (fst a) l, snd a)).
Proof.
  intros dims motif motif' cell l j [l' i] Hok Hl Hj Hl'. simpl in Hl'. simpl fst. simpl snd.
  assert (Hp : length (nth j motif []) = dims).
  { destruct Hok as [_ _ H _ _]. rewrite Forall_forall in H. apply H, nth_In; auto. }
  assert (Hcl : length cell = dims) by (destruct Hok; auto).
  unfold edist. f_equal.
  assert (G : forall n s (p : list R), length p = n ->
    sq_dist (map (fun r => nth (r - s) p 0 + lattice_coord cell l r) (seq s n))
            (map (fun r => nth r (nth i motif' []) 0 + lattice_coord cell l' r) (seq s n)) =
    sq_dist p (map (fun r => nth r (nth i motif' []) 0 + lattice_coord cell (map2 Z.sub l' l) r) (seq s n))).
  { induction n as [|n IH]; intros s p Hpn; destruct p as [|b p]; simpl in Hpn; try lia; auto.
    cbn [seq map sq_dist]. rewrite <- (IH (S s) p) by lia.
    rewrite lattice_coord_sub by lia. replace (s - s)%nat with 0%nat by lia. simpl nth.
    f_equal; [ring|]. f_equal. apply map_ext_in. intros r Hr. apply in_seq in Hr.
    replace (r - s)%nat with (S (r - S s)) by lia. auto. }
  unfold ppoint. simpl fst. simpl snd. rewrite <- (G dims 0%nat _ Hp). f_equal.
  apply map_ext. intros r. rewrite Nat.sub_0_r. auto.
Qed.

Lemma map2_add_inj : forall l l' s, length l = length s -> length l' = length s ->
  map2 Z.add l s = map2 Z.add l' s -> l = l'.
Proof.
  intros l l' s H H' E. rewrite <- (map2_sub_add l s), <- (map2_sub_add l' s), E; auto.
Qed.
Lemma map2_sub_inj : forall l l' s, length l = length s -> length l' = length s ->
  map2 Z.sub l s = map2 Z.sub l' s -> l = l'.
Proof.
  intros l l' s H H' E. rewrite <- (map2_add_sub l s), <- (map2_add_sub l' s), E; auto.
Qed.

Section Moved.
  Variables (dims : nat) (cell motif motif' : list (list R)) (eps : R) (sigma : nat -> nat) (shift : nat -> list Z).
  Hypothesis Hok : pset_ok dims motif cell.
  Hypothesis Hok' : pset_ok dims motif' cell.
  Hypothesis Hm : moved_by dims cell eps motif motif' sigma shift.

  Lemma moved_length : length motif = length motif'.
  Proof. destruct Hm as [P _]. apply Permutation_length in P. rewrite map_length, !seq_length in P. auto. Qed.

  Lemma moved_range : forall i, (i < length motif)%nat -> (sigma i < length motif')%nat.
  Proof.
    intros i Hi. destruct Hm as [P _]. assert (X : In (sigma i) (seq 0 (length motif'))).
    { eapply Permutation_in; [exact P|]. apply in_map, in_seq. lia. }
    apply in_seq in X. lia.
  Qed.

  Lemma moved_inj : forall i j, (i < length motif)%nat -> (j < length motif)%nat -> sigma i = sigma j -> i = j.
  Proof.
    intros i j Hi Hj E. destruct Hm as [P _].
    assert (N : NoDup (map sigma (seq 0 (length motif)))).
    { eapply Permutation_NoDup; [apply Permutation_sym; exact P|apply seq_NoDup]. }
    rewrite (NoDup_nth _ 0%nat) in N. rewrite map_length, seq_length in N.
    apply N; auto. rewrite !(nth_map_seq sigma) by auto. auto.
  Qed.

  Lemma moved_point : forall i l, (i < length motif)%nat -> length l = dims ->
    edist (ppoint dims motif cell (l, i)) (ppoint dims motif' cell (map2 Z.add l (shift i), sigma i)) <= eps.
  Proof.
    intros i l Hi Hl. destruct Hm as [_ H]. destruct (H i Hi) as [Hs He].
    assert (Hc : forall a b : list Z, map2 Z.add a b = map2 Z.add b a).
    { clear. induction a as [|x a IH]; intros [|y b]; simpl; auto. rewrite IH. f_equal. lia. }
    rewrite edist_shift2; auto; simpl; [|rewrite map2_length; lia].
    rewrite Hc, map2_sub_add by lia. auto.
  Qed.

  Definition follow_index (i : nat) (a : list Z * nat) : list Z * nat :=
    (map2 Z.sub (map2 Z.add (fst a) (shift (snd a))) (shift i), sigma (snd a)).

  Lemma follow_index_inj : forall i, (i < length motif)%nat ->
    forall a b, pindex dims motif a -> pindex dims motif b -> follow_index i a = follow_index i b -> a = b.
  Proof.
    intros i Hi [l a] [l' b] [Ha1 Ha2] [Hb1 Hb2] E.
    assert (Hs : forall r, (r < length motif)%nat -> length (shift r) = dims) by (intros r Hr; apply Hm; auto).
    unfold follow_index in E. simpl in *. injection E as E1 E2.
    apply moved_inj in E2; auto. subst b. f_equal.
    apply map2_sub_inj in E1; [|rewrite map2_length, !Hs by auto; lia|rewrite map2_length, !Hs by auto; lia].
    apply map2_add_inj in E1; auto; rewrite Hs; auto.
  Qed.

  Lemma follow_index_near : forall i, (i < length motif)%nat -> forall a, pindex dims motif a ->
    pindex dims motif' (follow_index i a) /\
    edist (nth (sigma i) motif' []) (ppoint dims motif' cell (follow_index i a)) <=
    edist (nth i motif []) (ppoint dims motif cell a) + 2 * eps.
  Proof.
    intros i Hi [l r] [Hl Hr]. simpl in Hl, Hr. unfold follow_index. cbn [fst snd].
    assert (Hs : forall r, (r < length motif)%nat -> length (shift r) = dims) by (intros r0 Hr0; apply Hm; auto). split.
    - split; simpl; [rewrite !map2_length, !Hs by auto; lia|apply moved_range; auto].
    - pose proof (edist_shift dims motif' cell (shift i) (sigma i) (map2 Z.add l (shift r), sigma r) Hok' (Hs i Hi)
        (moved_range i Hi)) as ES. simpl in ES. rewrite <- ES.
      2: { split; simpl; [rewrite map2_length, Hs by auto; lia|apply moved_range; auto]. }
      destruct Hm as [_ H]. destruct (H i Hi) as [_ He].
      pose proof (moved_point r l Hr Hl) as Mr.
      set (x := nth i motif []) in *. set (x' := ppoint dims motif' cell (shift i, sigma i)) in *.
      set (y := ppoint dims motif cell (l, r)) in *. set (y' := ppoint dims motif' cell (map2 Z.add l (shift r), sigma r)) in *.
      assert (Lx : length x = dims). { destruct Hok as [_ _ F _ _]. rewrite Forall_forall in F. apply F, nth_In; auto. }
      assert (Lx' : length x' = dims) by apply ppoint_length. assert (Ly : length y = dims) by apply ppoint_length.
      assert (Ly' : length y' = dims) by apply ppoint_length.
      pose proof (edist_triangle x' x y' ltac:(lia) ltac:(lia)) as T1.
      pose proof (edist_triangle x y y' ltac:(lia) ltac:(lia)) as T2.
      rewrite (edist_sym x' x) in T1. lra.
  Qed.

  Lemma moved_nearest : forall i n ds ds', (i < length motif)%nat ->
    nearest_distances dims motif cell (nth i motif []) n ds ->
    nearest_distances dims motif' cell (nth (sigma i) motif' []) n ds' ->
    forall j, (j < n)%nat -> nth j ds' 0 <= nth j ds 0 + 2 * eps.
  Proof.
    intros i n ds ds' Hi N N'.
    apply (nearest_le_map dims motif cell motif' cell _ _ n ds ds' (2 * eps) (follow_index i) N N').
    - apply follow_index_inj; auto.
    - apply follow_index_near; auto.
  Qed.
End Moved.

(** The displacement backwards. *)
Lemma moved_back : forall dims cell eps motif motif' sigma shift,
  pset_ok dims motif cell -> pset_ok dims motif' cell -> moved_by dims cell eps motif motif' sigma shift ->
  exists tau back, moved_by dims cell eps motif' motif tau back /\ forall i, (i < length motif)%nat -> tau (sigma i) = i.
Proof.
  intros dims cell eps motif motif' sigma shift Hok Hok' Hm.
  pose proof (moved_length _ _ _ _ _ _ _ Hm) as L. pose proof (moved_range _ _ _ _ _ _ _ Hm) as HR.
  pose proof (moved_inj _ _ _ _ _ _ _ Hm) as HI.
  set (tau := fun j => match find (fun i => Nat.eqb (sigma i) j) (seq 0 (length motif)) with Some i => i | None => 0%nat end).
  assert (T : forall i, (i < length motif)%nat -> tau (sigma i) = i).
  { intros i Hi. unfold tau. destruct (find _ _) as [r|] eqn:E.
    - apply find_some in E as [Hr E]. apply in_seq in Hr. apply Nat.eqb_eq in E. apply HI; auto; lia.
    - exfalso. pose proof (find_none _ _ E i) as X. cbv beta in X. rewrite Nat.eqb_refl in X.
      assert (In i (seq 0 (length motif))) by (apply in_seq; lia). intuition discriminate. }
  assert (S : forall j, (j < length motif')%nat -> exists i, (i < length motif)%nat /\ sigma i = j).
  { intros j Hj. destruct Hm as [P _]. assert (X : In j (map sigma (seq 0 (length motif)))).
    { eapply Permutation_in; [apply Permutation_sym; exact P|apply in_seq; lia]. }
    apply in_map_iff in X as (i & E & Hi). apply in_seq in Hi. exists i. split; auto. lia. }
  exists tau, (fun j => map2 Z.sub (repeat 0%Z dims) (shift (tau j))). split; auto. split.
  - destruct Hm as [P _]. rewrite <- L.
    transitivity (map tau (map sigma (seq 0 (length motif)))).
    + apply Permutation_map, Permutation_sym. rewrite L at 2. auto.
    + rewrite map_map, (map_ext_in _ (fun i => i)), map_id; auto. intros i Hi. apply in_seq in Hi. apply T. lia.
  - intros j Hj. destruct (S j Hj) as (i & Hi & <-). rewrite T by auto.
    destruct Hm as [_ H]. destruct (H i Hi) as [Hs He]. split.
    + rewrite map2_length, repeat_length. lia.
    + pose proof (edist_shift2 dims motif' motif cell (shift i) (sigma i) (repeat 0%Z dims, i) Hok' Hs (HR i Hi)
        (repeat_length _ _)) as E. cbn [fst snd] in E. rewrite <- E, ppoint_origin, edist_sym; auto.
Qed.

Lemma moved_nearest_both : forall dims cell eps motif motif' sigma shift i n ds ds',
  pset_ok dims motif cell -> pset_ok dims motif' cell -> moved_by dims cell eps motif motif' sigma shift ->
  (i < length motif)%nat ->
  nearest_distances dims motif cell (nth i motif []) n ds ->
  nearest_distances dims motif' cell (nth (sigma i) motif' []) n ds' ->
  forall j, (j < n)%nat -> Rabs (nth j ds 0 - nth j ds' 0) <= 2 * eps.
Proof.
  intros dims cell eps motif motif' sigma shift i n ds ds' Hok Hok' Hm Hi N N' j Hj.
  pose proof (moved_nearest dims cell motif motif' eps sigma shift Hok Hok' Hm i n ds ds' Hi N N' j Hj) as A.
  destruct (moved_back _ _ _ _ _ _ _ Hok Hok' Hm) as (tau & back & Hb & T).
  rewrite <- (T i Hi) in N.
  pose proof (moved_nearest dims cell motif' motif eps tau back Hok' Hok Hb (sigma i) n ds' ds
    (moved_range _ _ _ _ _ _ _ Hm i Hi) N' N j Hj) as B.
  apply Rabs_le. lra.
Qed.

(** ** The row of a PDD that stands for a motif point *)
Lemma count_through : forall (rho : nat -> nat) (g l : list nat) s, NoDup g ->
  (forall x, In x l -> (rho x = s <-> In x g)) ->
  count_occ Nat.eq_dec (map rho l) s = list_sum (map (count_occ Nat.eq_dec l) g).
Proof.
  intros rho g l s Hg. induction l as [|y l IH]; intros H.
  - simpl. clear. induction g; simpl; auto.
  - assert (E : forall h, list_sum (map (count_occ Nat.eq_dec (y :: l)) h) =
      (count_occ Nat.eq_dec h y + list_sum (map (count_occ Nat.eq_dec l) h))%nat).
    { induction h as [|a h IHh]; auto. cbn [map list_sum fold_right]. fold (list_sum (map (count_occ Nat.eq_dec (y :: l)) h)).
      fold (list_sum (map (count_occ Nat.eq_dec l) h)). rewrite IHh. simpl.
      destruct (Nat.eq_dec y a), (Nat.eq_dec a y); try congruence; lia. }
    rewrite E, <- IH by (intros; apply H; simpl; auto). simpl.
    destruct (Nat.eq_dec (rho y) s) as [Hs|Hs].
    + apply H in Hs; [|simpl; auto]. rewrite (proj1 (NoDup_count_occ' Nat.eq_dec g) Hg y Hs). auto.
    + assert (Hn : ~ In y g) by (rewrite <- H; simpl; auto).
      apply (count_occ_not_In Nat.eq_dec) in Hn. rewrite Hn. auto.
Qed.

Lemma nodup_concat_in : forall (gs : list (list nat)) s, NoDup (concat gs) -> (s < length gs)%nat -> NoDup (nth s gs []).
Proof.
  induction gs as [|g gs IH]; intros s N Hs; simpl in *; [lia|]. apply Base.NoDup_app_iff in N as (N1 & N2 & _).
  destruct s as [|s]; auto. apply IH; auto; lia.
Qed.

Lemma nodup_concat_once : forall (gs : list (list nat)) s t a, NoDup (concat gs) -> (s < length gs)%nat -> (t < length gs)%nat ->
  In a (nth s gs []) -> In a (nth t gs []) -> s = t.
Proof.
  induction gs as [|g gs IH]; intros s t a N Hs Ht Is It; simpl in *; [lia|]. apply Base.NoDup_app_iff in N as (N1 & N2 & N3).
  assert (D : forall r, In a g -> (r < length gs)%nat -> In a (nth r gs []) -> False).
  { intros r Hb Hr Hin. apply (N3 a Hb). apply in_concat. exists (nth r gs []). split; auto. apply nth_In; auto. }
  destruct s as [|s], t as [|t]; auto.
  - exfalso. apply (D t); auto. lia.
  - exfalso. apply (D s); auto. lia.
  - f_equal. apply (IH s t a); auto; lia.
Qed.

Definition group_at (groups : list (list nat)) (a : nat) : nat :=
  match find (fun s => existsb (Nat.eqb a) (nth s groups [])) (seq 0 (length groups)) with Some s => s | None => 0%nat end.

Lemma group_at_in : forall groups a, In a (concat groups) ->
  (group_at groups a < length groups)%nat /\ In a (nth (group_at groups a) groups []).
Proof.
  intros groups a Ha. unfold group_at. destruct (find _ _) as [s|] eqn:E.
  - apply find_some in E as [Hs E]. apply in_seq in Hs. split; [lia|].
    apply existsb_exists in E as (b & Hb & E). apply Nat.eqb_eq in E. subst. auto.
  - exfalso. apply in_concat in Ha as (g & Hg & Ha). destruct (In_nth _ _ [] Hg) as (s & Hs & <-).
    pose proof (find_none _ _ E s ltac:(apply in_seq; lia)) as X. cbv beta in X.
    assert (Y : existsb (Nat.eqb a) (nth s groups []) = true).
    { apply existsb_exists. exists a. split; auto. apply Nat.eqb_refl. }
    congruence.
Qed.

Lemma surroundings_sym : forall dims motif cell i j, same_surroundings dims motif cell i j -> same_surroundings dims motif cell j i.
Proof.
  intros dims motif cell i j (f & g & Hf & Hg & Hd). exists g, f. split; [auto|]. split; [auto|].
  intros a Ha. destruct (Hg a Ha) as [G1 G2]. rewrite (Hd (g a) G1), G2. auto.
Qed.

Lemma full_rows : forall dims ps k fuel tol full idx, pset_wf dims ps ->
  PDD fuel ps k false false tol = Done (full, idx) ->
  exists rows, nearest_neighbors fuel (ps_motif ps) (ps_cell ps) (points_of ps) (S k) = Done rows /\
    length rows = length (positions_of ps) /\
    forall i, (i < length rows)%nat -> snd (nth i full (0, [])) = tl (nth i rows []).
Proof.
  intros dims ps k fuel tol full idx Hwf E. pose proof E as E0.
  destruct (PDD_Done _ _ _ _ _ _ _ _ Hwf E) as (rows & En & Hr & Hl & Hk & _).
  exists rows. split; auto.
  assert (Ln : length rows = length (positions_of ps)).
  { destruct Hr as [Hr _]. rewrite Hr. unfold points_of. apply map_length. }
  split; auto. intros i Hi. rewrite (PDD_run dims ps Hwf), En in E0. simpl in E0. injection E0 as <- _.
  rewrite (nth_map_seq (fun i => (nth i (CalcProofs2.weights_of ps) 0, nth i (map (@tl R) rows) []))) by (rewrite map_length; auto).
  simpl. change (@nil R) with (tl (@nil R)) at 1. apply map_nth.
Qed.

Lemma pdd_rows_of_points : forall dims ps k fuel lexsort collapse tol pdd groups,
  pset_wf dims ps -> (dims <= 4)%nat -> spread dims (ps_cell ps) (ps_motif ps) ->
  stands_for dims (ps_motif ps) (ps_cell ps) (positions_of ps) (counts_of ps) -> 0 <= tol ->
  PDD fuel ps k lexsort collapse tol = Done (pdd, groups) ->
  exists (r : nat -> nat) (near : nat -> list R),
    (forall i, (i < length (ps_motif ps))%nat -> (r i < length pdd)%nat /\
      nearest_distances dims (ps_motif ps) (ps_cell ps) (nth i (ps_motif ps) []) (S k) (near i) /\
      forall j, (j < k)%nat -> Rabs (nth j (snd (nth (r i) pdd (0, []))) 0 - nth (S j) (near i) 0) <= slack collapse tol) /\
    (forall s, (s < length pdd)%nat -> fst (nth s pdd (0, [])) =
       INR (count_occ Nat.eq_dec (map r (seq 0 (length (ps_motif ps)))) s) / INR (length (ps_motif ps))).
Proof.
  intros dims ps k fuel lexsort collapse tol pdd groups Hwf H4 Hin (rep & Hrep & Hcount) Ht E.
  destruct (C19_groups_identify_rows _ _ _ _ _ _ _ _ _ Hwf E) as (full & idx & Ef & _ & Hlen & Hrow & HP & H2).
  destruct (C16_group_diameter _ _ _ _ _ _ _ _ _ Hwf Ht E) as (full' & idx' & Ef' & Hdiam).
  rewrite Ef in Ef'. injection Ef' as <- <-.
  destruct (full_rows _ _ _ _ _ _ _ Hwf Ef) as (rows & En & Ln & Hfull).
  pose proof (C05_rows_are_nearest dims _ _ _ k fuel rows (wf_ok _ _ Hwf) H4 Hin
    (points_incl _ _ Hwf) (points_nonempty _ _ Hwf) En) as F.
  destruct (Forall2_nth _ _ _ _ _ [] [] F) as [L N]. clear F.
  destruct (Forall2_nth _ _ _ _ _ (0, []) [] H2) as [Lg Hg]. clear H2.
  set (m := length (ps_motif ps)) in *. set (n := length (positions_of ps)) in *.
  assert (ND : NoDup (concat groups)) by (eapply Permutation_NoDup; [apply Permutation_sym; exact HP|apply seq_NoDup]).
  assert (Hcov : forall a, (a < n)%nat -> In a (concat groups)).
  { intros a Ha. eapply Permutation_in; [apply Permutation_sym; exact HP|apply in_seq; lia]. }
  assert (Hinv : forall s a, (s < length groups)%nat -> In a (nth s groups []) -> (a < n)%nat).
  { intros s a Hs Ha. assert (X : In a (seq 0 (length full))).
    { eapply Permutation_in; [exact HP|]. apply in_concat. exists (nth s groups []). split; auto. apply nth_In; auto. }
    apply in_seq in X. lia. }
  assert (NA : forall a, (a < n)%nat -> nearest_distances dims (ps_motif ps) (ps_cell ps)
     (nth (nth a (positions_of ps) 0%nat) (ps_motif ps) []) (S k) (nth a rows [])).
  { intros a Ha. specialize (N a ltac:(lia)). unfold points_of in N.
    rewrite (nth_indep _ [] ((fun i => nth i (ps_motif ps) []) 0%nat)) in N by (rewrite map_length; auto).
    rewrite (map_nth (fun i => nth i (ps_motif ps) [])) in N. auto. }
  assert (T : forall j (l : list R), nth (S j) l 0 = nth j (tl l) 0) by (intros j [|b l]; destruct j; auto).
  exists (fun i => group_at groups (rep i)), (fun i => nth (rep i) rows []). split.
  - intros i Hi. destruct (Hrep i Hi) as [R1 R2]. fold n in R1.
    destruct (group_at_in groups (rep i) (Hcov _ R1)) as [G1 G2]. set (s := group_at groups (rep i)) in *.
    split; [lia|]. split; [eapply nearest_transfer; [apply surroundings_sym; exact R2|apply NA; auto]|].
    intros j Hj. destruct (Hg s ltac:(lia)) as (Q1 & _ & Q3 & Q4 & _).
    rewrite Q3, (nth_map_seq) by auto. rewrite T, <- Hfull by lia.
    unfold slack. destruct collapse.
    + assert (B : nth j (snd (nth (rep i) full (0, []))) 0 - 2 * tol <=
        mean (map (fun i => snd (nth i full (0, []))) (nth s groups [])) j <= nth j (snd (nth (rep i) full (0, []))) 0 + 2 * tol).
      { apply mean_band; [intros X; apply Q1; destruct (nth s groups []); auto; discriminate|].
        intros r Hr. apply in_map_iff in Hr as (b & <- & Hb).
        assert (X := Hdiam (nth s groups []) (rep i) b ltac:(apply nth_In; auto) G2 Hb j).
        assert (Lr : length (snd (nth (rep i) full (0, []))) = k).
        { destruct (Hrow (rep i) ltac:(lia)) as (_ & ids & (L1 & _ & _ & L2 & _)).
          apply (f_equal (@length R)) in L2. rewrite map_length in L2. simpl in L2. lia. }
        rewrite Lr in X. specialize (X Hj). apply RoundSum.Rabs_le_both in X. lra. }
      apply Rabs_le. lra.
    + destruct (Q4 eq_refl) as (b & Eb). rewrite Eb in G2 |- *. destruct G2 as [->|[]]. unfold mean. cbn [map rsum fold_right length INR].
      match goal with |- Rabs ?x <= _ => replace x with 0 by lra end. rewrite Rabs_R0. lra.
  - intros s Hs. destruct (Hg s Hs) as (_ & Q2 & _). rewrite Q2.
    rewrite <- (map_map rep (group_at groups)).
    rewrite (count_through (group_at groups) (nth s groups [])).
    + rewrite <- sum_INR. unfold Rdiv. rewrite <- rsum_map_scale_r, !map_map. f_equal.
      apply map_ext_in. intros a Ha. pose proof (Hinv s a ltac:(lia) Ha) as Han.
      destruct (Hrow a ltac:(lia)) as [-> _]. rewrite Hcount by auto. auto.
    + apply nodup_concat_in; auto. lia.
    + intros a Ha. apply in_map_iff in Ha as (i & <- & Hi). apply in_seq in Hi.
      destruct (Hrep i (proj2 Hi)) as [R1 _]. fold n in R1.
      destruct (group_at_in groups (rep i) (Hcov _ R1)) as [G1 G2]. split.
      * intros <-. auto.
      * intros H. eapply nodup_concat_once; eauto. lia.
Qed.

(** ** Transport plan following the points *)
Section Follow.
  Variables (m n n' : nat) (r r' : nat -> nat).
  Hypothesis Hmpos : (0 < m)%nat.
  Hypothesis Hr : forall i, (i < m)%nat -> (r i < n)%nat.
  Hypothesis Hr' : forall i, (i < m)%nat -> (r' i < n')%nat.

  Definition ind (a b : nat) : R := if Nat.eqb a b then 1 else 0.
  Definition follow (s t : nat) : R := Sum m (fun i => ind (r i) s * ind (r' i) t) / INR m.

  Lemma ind_sum : forall k a f, (a < k)%nat -> Sum k (fun s => f s * ind a s) = f a.
  Proof.
    intros k a f Ha. rewrite (Sum_single k _ a); auto.
    - unfold ind. rewrite Nat.eqb_refl. lra.
    - intros j _ Hj. unfold ind. destruct (Nat.eqb_spec a j); [congruence|lra].
  Qed.

  Lemma ind_count : forall f s, Sum m (fun i => ind (f i) s) = INR (count_occ Nat.eq_dec (map f (seq 0 m)) s).
  Proof.
    intros f s. clear. induction m as [|k IH]; [reflexivity|].
    rewrite seq_S, map_app, count_occ_app, plus_INR, <- IH. cbn [Sum]. f_equal.
    simpl. unfold ind. destruct (Nat.eq_dec (f k) s) as [<-|H]; [now rewrite Nat.eqb_refl|].
    destruct (Nat.eqb_spec (f k) s); [congruence|reflexivity].
  Qed.

  Lemma follow_coupling : coupling n n'
    (fun s => INR (count_occ Nat.eq_dec (map r (seq 0 m)) s) / INR m)
    (fun t => INR (count_occ Nat.eq_dec (map r' (seq 0 m)) t) / INR m) follow.
  Proof.
    assert (M : 0 < INR m) by (apply lt_0_INR; auto). split; [|split].
    - intros s t _ _. unfold follow. apply Rmult_le_pos; [|left; apply Rinv_0_lt_compat; auto].
      apply Sum_nonneg. intros i _. unfold ind. destruct (Nat.eqb (r i) s), (Nat.eqb (r' i) t); lra.
    - intros s Hs. unfold row_total, follow, Rdiv. rewrite Sum_scal_r. f_equal. rewrite Sum_swap, <- ind_count.
      apply Sum_ext. intros i Hi. apply (ind_sum n' (r' i) (fun _ => ind (r i) s)). auto.
    - intros t Ht. unfold col_total, follow, Rdiv. rewrite Sum_scal_r. f_equal. rewrite Sum_swap, <- ind_count.
      apply Sum_ext. intros i Hi. rewrite (Sum_ext _ _ (fun s => ind (r' i) t * ind (r i) s)) by (intros; ring).
      apply (ind_sum n (r i) (fun _ => ind (r' i) t)). auto.
  Qed.

  Lemma follow_cost_eq : forall d, transport_cost n n' d follow = Sum m (fun i => d (r i) (r' i)) / INR m.
  Proof.
    intros d. unfold transport_cost, follow, Rdiv. rewrite <- Sum_scal_r.
    transitivity (Sum n (fun s => Sum n' (fun t => Sum m (fun i => d s t * (ind (r i) s * ind (r' i) t) * / INR m)))).
    { apply Sum_ext; intros s _; apply Sum_ext; intros t _. rewrite <- Rmult_assoc, Sum_scal_r. f_equal. now rewrite Sum_scal. }
    transitivity (Sum m (fun i => Sum n (fun s => Sum n' (fun t => d s t * (ind (r i) s * ind (r' i) t) * / INR m)))).
    { rewrite (Sum_ext n _ (fun s => Sum m (fun i => Sum n' (fun t => d s t * (ind (r i) s * ind (r' i) t) * / INR m))))
        by (intros; apply Sum_swap). apply Sum_swap. }
    apply Sum_ext. intros i Hi.
    transitivity (Sum n (fun s => (d s (r' i) * / INR m) * ind (r i) s)).
    - apply Sum_ext. intros s _. rewrite (Sum_ext _ _ (fun t => (d s t * ind (r i) s * / INR m) * ind (r' i) t)) by (intros; ring).
      rewrite (ind_sum n' (r' i) (fun t => d s t * ind (r i) s * / INR m)) by auto. ring.
    - apply (ind_sum n (r i) (fun s => d s (r' i) * / INR m)). auto.
  Qed.

  Lemma follow_cost_mean : forall d B, (forall i, (i < m)%nat -> d (r i) (r' i) <= B i) -> transport_cost n n' d follow <= Sum m B / INR m.
  Proof.
    intros d B HB. assert (M : 0 < INR m) by (apply lt_0_INR; auto). rewrite follow_cost_eq.
    apply Rmult_le_compat_r; [left; apply Rinv_0_lt_compat; auto|]. apply Sum_le. auto.
  Qed.

  Lemma follow_cost : forall d B, (forall i, (i < m)%nat -> d (r i) (r' i) <= B) -> transport_cost n n' d follow <= B.
  Proof.
    intros d B HB. assert (M : 0 < INR m) by (apply lt_0_INR; auto).
    eapply Rle_trans; [apply follow_cost_mean with (B := fun _ => B); auto|]. rewrite Sum_const. right. field. lra.
  Qed.
End Follow.

Lemma count_perm : forall f (l l' : list nat) s, Permutation l l' ->
  count_occ Nat.eq_dec (map f l) s = count_occ Nat.eq_dec (map f l') s.
Proof.
  intros f l l' s P. apply (Permutation_count_occ Nat.eq_dec), Permutation_map. auto.
Qed.
