(** Properties C21 (asymmetric units), C22 (finite sets) and C23 (continuity). *)
From Coq Require Import List ZArith Arith Bool Lia Reals Lra Permutation Sorted.
From Verif Require Import Num Base Spec SpecGeom SpecCalc Outcome Condensed CollapseModel CollapseProofs
  Props_Collapse NNModel VecR NNProofs NNSpecProofs NNComplete NNInvariance Props_NN CalcModel CalcProofs
  CalcProofs2 CalcCanon CalcInv Line Props_Calc Props_Inv.
Import ListNotations.
Open Scope R_scope.

(** ** C21 *)
Lemma nearest_transfer : forall dims motif cell i j n ds,
  same_surroundings dims motif cell i j ->
  nearest_distances dims motif cell (nth i motif []) n ds ->
  nearest_distances dims motif cell (nth j motif []) n ds.
Proof.
  intros dims motif cell i j n ds (f & g & Hf & Hg & Hd) (ids & (H1 & H2 & H3 & H4 & H5) & H6).
  rewrite Forall_forall in H3. exists (map f ids). split; [split; [|split; [|split; [|split]]]|].
  - rewrite map_length. auto.
  - clear - H2 H3 Hf. induction H2 as [|a l Hn H2 IH]; simpl; constructor.
    + intros Hin. apply in_map_iff in Hin as (b & E & Hb). apply Hn.
      destruct (Hf a) as [_ Ea]; [apply H3; simpl; auto|].
      destruct (Hf b) as [_ Eb]; [apply H3; simpl; auto|]. congruence.
    + apply IH. intros; apply H3; simpl; auto.
  - apply Forall_forall. intros a Ha. apply in_map_iff in Ha as (b & <- & Hb). apply Hf; auto.
  - rewrite H4, map_map. apply map_ext_in. intros a Ha. apply Hd; auto.
  - auto.
  - intros a d Ha Hn Hin. destruct (Hg a Ha) as [Hga Efg]. rewrite <- Efg, <- Hd by auto.
    apply H6; auto. intros Hin'. apply Hn. rewrite <- Efg. apply in_map. auto.
Qed.

Lemma ppoint_origin : forall dims motif cell i, pset_ok dims motif cell -> (i < length motif)%nat ->
  ppoint dims motif cell (repeat 0%Z dims, i) = nth i motif [].
Proof.
  intros dims mo ce i Hok Hi. rewrite <- pt_ppoint.
  - unfold pt. simpl. rewrite latvec_zero by (destruct Hok; auto). apply vadd_zero_r.
    destruct Hok as [_ _ H _ _]. rewrite Forall_forall in H. apply H, nth_In; auto.
  - auto.
  - split; simpl; auto. apply repeat_length.
Qed.

Lemma lattice_coord_sub : forall cell l l' j, length l = length cell -> length l' = length cell ->
  lattice_coord cell (map2 Z.sub l l') j = lattice_coord cell l j - lattice_coord cell l' j.
Proof.
  intros cell l l' j Hl Hl'. unfold lattice_coord, comb_coord.
  replace (rsum (map (fun r => nth r (map IZR l) 0 * nth j (nth r cell []) 0) (seq 0 (length cell))) -
           rsum (map (fun r => nth r (map IZR l') 0 * nth j (nth r cell []) 0) (seq 0 (length cell))))
    with (rsum (map (fun r => nth r (map IZR l) 0 * nth j (nth r cell []) 0 -
       nth r (map IZR l') 0 * nth j (nth r cell []) 0) (seq 0 (length cell)))) by (symmetry; apply rsum_sub).
  f_equal. apply map_ext_in. intros r Hr. apply in_seq in Hr.
  assert (E : forall m : list Z, nth r (map IZR m) 0 = IZR (nth r m 0%Z)).
  { intros m. apply (map_nth IZR). }
  rewrite !E. rewrite (map2_nth _ _ _ _ _ _ _ 0%Z 0%Z) by lia. rewrite minus_IZR. ring.
Qed.

Lemma edist_shift : forall dims motif cell l j a, pset_ok dims motif cell ->
  length l = dims -> (j < length motif)%nat -> pindex dims motif a ->
  edist (ppoint dims motif cell (l, j)) (ppoint dims motif cell a) =
  edist (nth j motif []) (ppoint dims motif cell (map2 Z.sub (fst a) l, snd a)).
Proof.
  intros dims motif cell l j [l' i] Hok Hl Hj [Hl' Hi]. simpl in Hl', Hi. simpl fst. simpl snd.
  assert (Hp : length (nth j motif []) = dims).
  { destruct Hok as [_ _ H _ _]. rewrite Forall_forall in H. apply H, nth_In; auto. }
  assert (Hcl : length cell = dims) by (destruct Hok; auto).
  unfold edist. f_equal.
  assert (G : forall n s (p : list R), length p = n ->
    sq_dist (map (fun r => nth (r - s) p 0 + lattice_coord cell l r) (seq s n))
            (map (fun r => nth r (nth i motif []) 0 + lattice_coord cell l' r) (seq s n)) =
    sq_dist p (map (fun r => nth r (nth i motif []) 0 + lattice_coord cell (map2 Z.sub l' l) r) (seq s n))).
  { induction n as [|n IH]; intros s p Hpn; destruct p as [|b p]; simpl in Hpn; try lia; auto.
    cbn [seq map sq_dist]. rewrite <- (IH (S s) p) by lia.
    rewrite lattice_coord_sub by lia. replace (s - s)%nat with 0%nat by lia. simpl nth.
    f_equal; [ring|]. f_equal. apply map_ext_in. intros r Hr. apply in_seq in Hr.
    replace (r - s)%nat with (S (r - S s)) by lia. auto. }
  unfold ppoint. simpl fst. simpl snd. rewrite <- (G dims 0%nat _ Hp). f_equal.
  apply map_ext. intros r. rewrite Nat.sub_0_r. auto.
Qed.

Lemma map2_sub_add : forall l l', length l = length l' -> map2 Z.sub (map2 Z.add l l') l' = l.
Proof. induction l as [|a l IH]; intros [|b l'] H; simpl in *; try lia; auto. f_equal; [lia|]. apply IH. lia. Qed.
Lemma map2_add_sub : forall l l', length l = length l' -> map2 Z.add (map2 Z.sub l l') l' = l.
Proof. induction l as [|a l IH]; intros [|b l'] H; simpl in *; try lia; auto. f_equal; [lia|]. apply IH. lia. Qed.

(** A symmetry of the periodic set (an isometry permuting its points) that takes motif
    point [i] to a lattice translate of motif point [j]. *)
Theorem symmetry_surroundings : forall dims motif cell cols t f g i j l,
  pset_ok dims motif cell -> length cols = dims -> dual_basis dims cols cols -> length t = dims ->
  (i < length motif)%nat ->
  (forall a, pindex dims motif a -> pindex dims motif (f a) /\ g (f a) = a /\
     rigid dims cols t (ppoint dims motif cell a) = ppoint dims motif cell (f a)) ->
  (forall a, pindex dims motif a -> pindex dims motif (g a) /\ f (g a) = a) ->
  f (repeat 0%Z dims, i) = (l, j) ->
  same_surroundings dims motif cell i j.
Proof.
  intros dims motif cell cols t f g i j l Hok Hcols Hdual Ht Hi Hf Hg E.
  assert (H0 : pindex dims motif (repeat 0%Z dims, i)) by (split; simpl; auto; apply repeat_length).
  destruct (Hf _ H0) as ([Hl Hj] & _ & _). rewrite E in Hl, Hj. simpl in Hl, Hj.
  exists (fun a => (map2 Z.sub (fst (f a)) l, snd (f a))), (fun b => g (map2 Z.add (fst b) l, snd b)).
  split; [|split].
  - intros a Ha. destruct (Hf a Ha) as ([F1 F2] & F3 & _). split.
    + split; simpl; auto. rewrite map2_length, F1, Hl. lia.
    + simpl. rewrite map2_add_sub by congruence. rewrite <- surjective_pairing. auto.
  - intros [m r] [Hm Hr]. simpl in Hm, Hr. simpl fst. simpl snd.
    destruct (Hg (map2 Z.add m l, r)) as [G1 G2].
    { split; simpl; auto. rewrite map2_length. lia. }
    split; auto. rewrite G2. simpl. rewrite map2_sub_add by congruence. auto.
  - intros a Ha. rewrite <- (edist_shift dims motif cell l j (f a)); auto; [|apply Hf; auto].
    rewrite <- E. destruct (Hf a Ha) as (_ & _ & <-). destruct (Hf _ H0) as (_ & _ & <-).
    rewrite rigid_isometry; auto using ppoint_length. rewrite ppoint_origin; auto.
Qed.

Lemma rsum_by_value : forall n F l, Forall (fun a => (a < n)%nat) l ->
  rsum (map F l) = rsum (map (fun a => INR (count_occ Nat.eq_dec l a) * F a) (seq 0 n)).
Proof.
  intros n F l H. induction H as [|b l Hb H IH].
  - simpl. rewrite (map_ext _ (fun _ => 0)) by (intros; lra). rewrite rsum_map_const. lra.
  - cbn [map rsum fold_right]. fold (rsum (map F l)). rewrite IH.
    rewrite (rsum_split n b) by auto. rewrite (rsum_split n b (fun a => INR (count_occ _ (b :: l) a) * F a)) by auto.
    rewrite (rsum_ext _ (fun j => if Nat.eqb j b then 0 else INR (count_occ Nat.eq_dec l j) * F j)
      (fun j => if Nat.eqb j b then 0 else INR (count_occ Nat.eq_dec (b :: l) j) * F j)).
    + rewrite count_occ_cons_eq by auto. rewrite S_INR. lra.
    + intros j Hj. destruct (Nat.eqb_spec j b); auto. rewrite count_occ_cons_neq; auto.
Qed.

Lemma Forall2_nth : forall A B (P : A -> B -> Prop) l l' da db, Forall2 P l l' ->
  length l = length l' /\ forall i, (i < length l)%nat -> P (nth i l da) (nth i l' db).
Proof.
  induction 1 as [|a b l l' Hab H IH]; simpl; [split; auto; intros; lia|].
  destruct IH as [I1 I2]. split; auto. intros [|i] Hi; auto. apply I2. lia.
Qed.

Section Asym.
  Variables (dims : nat) (motif cell : list (list R)) (asym mult : list nat) (rep : nat -> nat).
  Hypothesis Hok : pset_ok dims motif cell.
  Hypothesis H4 : (dims <= 4)%nat.
  Hypothesis Hin : spread dims cell motif.
  Definition with_asym : pset R :=
    {| ps_motif := motif; ps_cell := cell; ps_asym := Some asym; ps_mult := Some mult |}.
  Definition whole_motif : pset R :=
    {| ps_motif := motif; ps_cell := cell; ps_asym := None; ps_mult := None |}.
  Hypothesis Hwf : pset_wf dims with_asym.
  (** [rep i] is the position in the asymmetric unit of the representative of motif point [i]. *)
  Hypothesis Hrep : forall i, (i < length motif)%nat -> (rep i < length asym)%nat /\
    same_surroundings dims motif cell i (nth (rep i) asym 0%nat).
  Hypothesis Hcount : forall a, (a < length asym)%nat ->
    nth a mult 0%nat = count_occ Nat.eq_dec (map rep (seq 0 (length motif))) a.

  Let Hwf0 : pset_wf dims whole_motif. Proof. apply pset_wf_no_asym. exact Hok. Qed.


  Lemma asym_rows : forall fuel fuel' k rows rows',
    nearest_neighbors fuel motif cell (points_of whole_motif) (S k) = Done rows ->
    nearest_neighbors fuel' motif cell (points_of with_asym) (S k) = Done rows' ->
    exists rho, map (@tl R) rows = map rho (map rep (seq 0 (length motif))) /\
                map (@tl R) rows' = map rho (seq 0 (length asym)).
  Proof.
    intros fuel fuel' k rows rows' E E'.
    pose proof (C05_rows_are_nearest dims motif cell _ k fuel rows Hok H4 Hin
      (points_incl _ _ Hwf0) (points_nonempty _ _ Hwf0) E) as F.
    pose proof (C05_rows_are_nearest dims motif cell _ k fuel' rows' Hok H4 Hin
      (points_incl _ _ Hwf) (points_nonempty _ _ Hwf) E') as F'.
    destruct (Forall2_nth _ _ _ _ _ [] [] F) as [L N]. destruct (Forall2_nth _ _ _ _ _ [] [] F') as [L' N'].
    clear F F'.
    assert (P0 : forall i, (i < length motif)%nat -> nth i (points_of whole_motif) [] = nth i motif []).
    { intros i Hi. unfold points_of, positions_of. simpl. rewrite map_nth_seq. auto. }
    assert (PA : forall a, (a < length asym)%nat -> nth a (points_of with_asym) [] = nth (nth a asym 0%nat) motif []).
    { intros a Ha. unfold points_of, positions_of. simpl.
      rewrite (nth_indep _ [] ((fun i => nth i motif []) 0%nat)) by (rewrite map_length; auto).
      apply (map_nth (fun i => nth i motif [])). }
    assert (LF : length (points_of whole_motif) = length motif).
    { unfold points_of, positions_of. simpl. rewrite map_length, seq_length. auto. }
    assert (LA : length (points_of with_asym) = length asym).
    { unfold points_of, positions_of. simpl. apply map_length. }
    exists (fun a => tl (nth a rows' [])). split.
    - rewrite map_map. rewrite <- (map_nth_seq rows []), map_map. rewrite <- L, LF.
      apply map_ext_in. intros i Hi. apply in_seq in Hi. f_equal.
      destruct (Hrep i ltac:(lia)) as [R1 R2].
      specialize (N i ltac:(lia)). rewrite P0 in N by lia.
      specialize (N' (rep i) ltac:(lia)). rewrite PA in N' by lia.
      eapply C05_nearest_unique; [|exact N']. eapply nearest_transfer; eauto.
    - rewrite <- (map_nth_seq rows' []) at 1. rewrite map_map. rewrite <- L', LA. auto.
  Qed.

  Lemma rep_range : Forall (fun a => (a < length asym)%nat) (map rep (seq 0 (length motif))).
  Proof.
    apply Forall_forall. intros a Ha. apply in_map_iff in Ha as (i & <- & Hi). apply in_seq in Hi.
    apply Hrep. lia.
  Qed.

  Lemma mult_length : length mult = length asym.
  Proof. pose proof (wf_len _ _ Hwf) as H. unfold positions_of, counts_of in H. simpl in H. auto. Qed.

  (** Sums over the motif are weighted sums over the asymmetric unit. *)
  Lemma sum_by_asym : forall F : nat -> R,
    rsum (map F (map rep (seq 0 (length motif)))) =
    rsum (map (fun p => INR (fst p) * F (snd p)) (combine mult (seq 0 (length asym)))).
  Proof.
    intros F. rewrite (rsum_by_value (length asym) F) by apply rep_range. f_equal.
    rewrite <- (map_nth_seq mult 0%nat) at 1. rewrite mult_length.
    assert (G : forall l, incl l (seq 0 (length asym)) -> map (fun a => INR (count_occ Nat.eq_dec (map rep (seq 0 (length motif))) a) * F a) l =
       map (fun p => INR (fst p) * F (snd p)) (combine (map (fun a => nth a mult 0%nat) l) l)).
    { induction l as [|a l IH]; intros Hl; auto. simpl. rewrite Hcount.
      - f_equal. apply IH. intros b Hb. apply Hl. simpl; auto.
      - assert (Ha : In a (seq 0 (length asym))) by (apply Hl; simpl; auto). apply in_seq in Ha. lia. }
    apply G. intros ?; auto.
  Qed.

  Lemma combine_repeat_l : forall A B (c : A) (l : list B) n, n = length l ->
    combine (repeat c n) l = map (fun b => (c, b)) l.
  Proof. intros A B c l n ->. induction l; simpl; congruence. Qed.

  (** The AMD from the asymmetric unit is the AMD of the whole motif. *)
  Theorem C21_asym_amd : forall fuel fuel' k a a',
    AMD fuel whole_motif k = Done a -> AMD fuel' with_asym k = Done a' -> a = a'.
  Proof.
    intros fuel fuel' k a a' E E'.
    destruct (AMD_Done _ _ _ _ _ Hwf0 E) as (rows & En & _ & ->).
    destruct (AMD_Done _ _ _ _ _ Hwf E') as (rows' & En' & _ & ->).
    destruct (asym_rows fuel fuel' k rows rows' En En') as (rho & R1 & R2).
    unfold amd_of. rewrite R1, R2. apply map_ext. intros j. unfold wmean.
    rewrite !sum_INR, (wf_sum _ _ Hwf), (wf_sum _ _ Hwf0). simpl ps_motif. f_equal.
    unfold counts_of. simpl.
    rewrite map_repeat, combine_map_r, combine_repeat_l by (rewrite map_length, seq_length; auto). rewrite !map_map. cbn [fst snd].
    transitivity (rsum (map (fun a => nth j (rho a) 0) (map rep (seq 0 (length motif))))).
    { rewrite !map_map. f_equal. apply map_ext. intros i. simpl. lra. }
    rewrite (sum_by_asym (fun a => nth j (rho a) 0)). f_equal.
    rewrite combine_map_l, combine_map_r, !map_map. apply map_ext. intros [c b]. auto.
  Qed.

  Lemma asym_weights : forall (rho : nat -> list R) r,
    row_weight (combine (weights_of whole_motif) (map rho (map rep (seq 0 (length motif))))) r =
    row_weight (combine (weights_of with_asym) (map rho (seq 0 (length asym)))) r.
  Proof.
    intros rho r. unfold row_weight, weights_of, counts_of. simpl.
    set (M := INR (length motif)).
    rewrite map_repeat, combine_map_r, combine_repeat_l by (rewrite map_length, seq_length; auto). rewrite !map_map. cbn [fst snd].
    transitivity (rsum (map (fun a => if row_dec (rho a) r then 1 / M else 0) (map rep (seq 0 (length motif))))).
    { rewrite !map_map. f_equal. }
    rewrite (sum_by_asym (fun a => if row_dec (rho a) r then 1 / M else 0)). f_equal.
    rewrite combine_map_l, combine_map_r, !map_map. apply map_ext. intros [c b]. simpl.
    destruct (row_dec (rho b) r); [unfold Rdiv; rewrite Rmult_1_l; reflexivity|ring].
  Qed.

  (** The uncollapsed PDDs carry the same weight on every row value; when rows within the
      tolerance are equal, the collapsed and sorted PDDs are the same. *)
  Theorem C21_asym_pdd_weights : forall fuel fuel' k lexsort lexsort' tol pdd g pdd' g' r,
    PDD fuel whole_motif k lexsort false tol = Done (pdd, g) ->
    PDD fuel' with_asym k lexsort' false tol = Done (pdd', g') ->
    row_weight pdd r = row_weight pdd' r.
  Proof.
    intros fuel fuel' k lexsort lexsort' tol pdd g pdd' g' r E E'.
    destruct (PDD_Done _ _ _ _ _ _ _ _ Hwf0 E) as (rows & En & _ & L & K & Ea).
    destruct (PDD_Done _ _ _ _ _ _ _ _ Hwf E') as (rows' & En' & _ & L' & K' & Ea').
    destruct (asym_rows fuel fuel' k rows rows' En En') as (rho & R1 & R2).
    destruct (assemble_plain _ _ _ lexsort tol L K) as [P _].
    destruct (assemble_plain _ _ _ lexsort' tol L' K') as [P' _].
    rewrite <- Ea in P. rewrite <- Ea' in P'. simpl in P, P'.
    rewrite <- (row_weight_perm _ _ r P), <- (row_weight_perm _ _ r P'), R1, R2.
    apply asym_weights.
  Qed.

  Theorem C21_asym_pdd : forall fuel fuel' k tol pdd g pdd' g' full idx,
    0 <= tol ->
    PDD fuel whole_motif k true true tol = Done (pdd, g) ->
    PDD fuel' with_asym k true true tol = Done (pdd', g') ->
    PDD fuel whole_motif k false false tol = Done (full, idx) ->
    (forall u v, In u (map snd full) -> In v (map snd full) -> close_rows tol u v -> u = v) ->
    pdd = pdd'.
  Proof.
    intros fuel fuel' k tol pdd g pdd' g' full idx Ht E E' Ef Hsep.
    destruct (PDD_Done _ _ _ _ _ _ _ _ Hwf0 E) as (rows & En & _ & L & K & Ea).
    destruct (PDD_Done _ _ _ _ _ _ _ _ Hwf E') as (rows' & En' & _ & L' & K' & Ea').
    destruct (PDD_Done _ _ _ _ _ _ _ _ Hwf0 Ef) as (rows'' & En'' & _ & _ & _ & Eaf).
    rewrite En in En''. injection En'' as <-.
    destruct (assemble_plain _ _ _ false tol L K) as [P _]. rewrite <- Eaf in P. simpl in P.
    destruct (asym_rows fuel fuel' k rows rows' En En') as (rho & R1 & R2).
    change pdd with (fst (pdd, g)). change pdd' with (fst (pdd', g')). rewrite Ea, Ea'.
    apply (canonical_unique k); auto.
    - apply (weights_pos dims _ Hwf0).
    - apply (weights_pos dims _ Hwf).
    - intros u v Hu Hv. apply Hsep; (eapply Permutation_in; [apply Permutation_map; exact P|]);
        rewrite map_snd_combine; auto.
    - intros r. rewrite R1, R2. apply asym_weights.
  Qed.
End Asym.

(** ** A case for C21: the symmetric set of Props_Calc.v *)
Lemma same_surroundings_refl : forall dims motif cell i, same_surroundings dims motif cell i i.
Proof. intros. exists (fun a => a), (fun a => a). split; [auto|]. split; auto. Qed.

Section Case21.
  Let motif := line [0; 1; 3].
  Let cell := [[5 : R]].
  Let refl (a : list Z * nat) : list Z * nat :=
    let z := hd 0%Z (fst a) in
    match snd a with 0 => ([- z]%Z, 1) | 1 => ([- z]%Z, 0) | n => ([-1 - z]%Z, n) end%nat.

  Lemma case21_surroundings : same_surroundings 1 motif cell 1 0.
  Proof.
    assert (Hinv : forall a, pindex 1 motif a -> pindex 1 motif (refl a) /\ refl (refl a) = a).
    { intros [[|z [|? ?]] i] [Hl Hi]; simpl in Hl, Hi; try lia.
      destruct i as [|[|[|i]]]; try lia; unfold refl; cbn [fst snd hd]; (split; [split; cbn [fst snd length]; auto with arith|]); do 2 f_equal; lia. }
    exists refl, refl. split; [auto|]. split; [auto|].
    intros [[|z [|? ?]] i] [Hl Hi]; simpl in Hl, Hi; try lia.
    unfold motif, cell. destruct i as [|[|[|i]]]; try lia; unfold refl; simpl hd; simpl snd; cbv iota;
      rewrite !ppoint1; simpl nth; rewrite !edist1, ?opp_IZR, ?minus_IZR, Rabs_minus_sym; f_equal; try lra.
  Qed.

  Example case21 : let rep := fun i => match i with 2 => 1 | _ => 0 end%nat in
    pset_wf 1 (with_asym motif cell [0; 2]%nat [2; 1]%nat) /\ half_dominant 1 cell /\
    Forall (in_cell 1 cell) motif /\
    (forall i, (i < length motif)%nat -> (rep i < 2)%nat /\
       same_surroundings 1 motif cell i (nth (rep i) [0; 2]%nat 0%nat)) /\
    (forall a, (a < 2)%nat -> nth a [2; 1]%nat 0%nat = count_occ Nat.eq_dec (map rep (seq 0 (length motif))) a).
  Proof.
    intros rep.
    assert (Hx : Forall (fun x => 0 <= x < 5) [0; 1; 3]) by (repeat constructor; lra).
    split; [|split; [|split; [|split]]].
    - split; unfold positions_of, counts_of; simpl; auto; try (repeat constructor; fail).
      apply (line_ok _ _ Hx). discriminate.
    - apply line_dominant.
    - apply line_in_cell; auto. lra.
    - intros [|[|[|i]]] Hi; simpl in Hi; try lia; simpl; split; try lia; auto using same_surroundings_refl.
      apply case21_surroundings.
    - intros [|[|a]] Ha; try lia; reflexivity.
  Qed.
End Case21.

(** ** C23 *)
Lemma edist_triangle : forall p q r, length p = length q -> length q = length r ->
  edist p r <= edist p q + edist q r.
Proof. intros. rewrite <- !dist_edist. apply dist_triangle; auto. Qed.

Lemma edist_sym : forall p q, edist p q = edist q p.
Proof. intros. rewrite <- !dist_edist. apply dist_sym. Qed.

Lemma edist_vadd : forall n p q v, length p = n -> length q = n -> length v = n ->
  edist (vadd p v) (vadd q v) = edist p q.
Proof.
  intros n p q v Hp Hq Hv. rewrite <- !dist_edist. unfold dist. rewrite vsub_vadd_r by lia. auto.
Qed.

(** Moving the points of the motif by at most [eps] moves every point of the periodic set
    by at most [eps]. *)
Lemma ppoint_moved : forall dims motif motif' cell eps a,
  pset_ok dims motif cell -> pset_ok dims motif' cell -> length motif = length motif' ->
  (forall i, (i < length motif)%nat -> edist (nth i motif []) (nth i motif' []) <= eps) ->
  pindex dims motif a -> edist (ppoint dims motif cell a) (ppoint dims motif' cell a) <= eps.
Proof.
  intros dims motif motif' cell eps [l i] Hok Hok' Hl He Ha.
  assert (Ha' : pindex dims motif' (l, i)) by (destruct Ha; split; simpl in *; auto; lia).
  rewrite <- !pt_ppoint by auto. unfold pt. simpl. destruct Ha as [Ha1 Ha2]. simpl in Ha1, Ha2.
  rewrite (edist_vadd dims).
  - apply He. auto.
  - destruct Hok as [_ _ H _ _]. rewrite Forall_forall in H. apply H, nth_In; auto.
  - destruct Hok' as [_ _ H _ _]. rewrite Forall_forall in H. apply H, nth_In; lia.
  - destruct Hok as [_ _ _ H1 H2]. apply latvec_length; auto.
Qed.

Lemma nearest_le : forall dims motif cell motif' cell' p p' n ds ds' e,
  nearest_distances dims motif cell p n ds -> nearest_distances dims motif' cell' p' n ds' ->
  (forall a, pindex dims motif a -> pindex dims motif' a /\
     edist p' (ppoint dims motif' cell' a) <= edist p (ppoint dims motif cell a) + e) ->
  forall j, (j < n)%nat -> nth j ds' 0 <= nth j ds 0 + e.
Proof.
  intros dims motif cell motif' cell' p p' n ds ds' e
    (ids & (H1 & H2 & H3 & H4 & H5) & H6) (ids' & (H1' & H2' & H3' & H4' & H5') & H6') He j Hj.
  apply Rnot_lt_le. intro Hlt. rewrite Forall_forall in H3.
  assert (Lds : length ds = n) by (rewrite H4, map_length; auto).
  assert (Lds' : length ds' = n) by (rewrite H4', map_length; auto).
  assert (Hincl : incl (firstn (S j) ids) (firstn j ids')).
  { intros a Ha. assert (Hain : In a ids) by (eapply firstn_In; eauto).
    assert (Hd : edist p (ppoint dims motif cell a) <= nth j ds 0).
    { destruct (In_nth _ _ a Ha) as (r & Hr & Er). rewrite firstn_length in Hr.
      assert (Er' : nth r ids a = a).
      { rewrite <- Er at 2. rewrite <- (firstn_skipn (S j) ids) at 1.
        rewrite app_nth1; auto. rewrite firstn_length. auto. }
      assert (Ed : nth r ds 0 = edist p (ppoint dims motif cell a)).
      { rewrite H4. rewrite (nth_indep _ 0 (edist p (ppoint dims motif cell a))) by (rewrite map_length; lia).
        rewrite (map_nth (fun a => edist p (ppoint dims motif cell a))), Er'. auto. }
      rewrite <- Ed. destruct (Nat.eq_dec r j) as [->|Hn]; [lra|].
      apply sorted_nth_le; auto. lia. }
    destruct (He a (H3 a Hain)) as [Ha' Hle].
    assert (Hd' : edist p' (ppoint dims motif' cell' a) < nth j ds' 0) by lra.
    destruct (in_dec idx_eq_dec a (firstn j ids')) as [Hi|Hni]; auto. exfalso.
    destruct (in_dec idx_eq_dec a ids') as [Hi|Hni'].
    - assert (Hsk : In a (skipn j ids')).
      { rewrite <- (firstn_skipn j ids') in Hi. apply in_app_or in Hi as [Hi|Hi]; [contradiction|auto]. }
      destruct (In_nth _ _ a Hsk) as (r & Hr & Er). rewrite skipn_length in Hr.
      assert (Er' : nth (j + r) ids' a = a).
      { rewrite <- (firstn_skipn j ids'). rewrite app_nth2; rewrite firstn_length; [|lia].
        replace (j + r - Nat.min j (length ids'))%nat with r by lia. auto. }
      assert (Ed : nth (j + r) ds' 0 = edist p' (ppoint dims motif' cell' a)).
      { rewrite H4'. rewrite (nth_indep _ 0 (edist p' (ppoint dims motif' cell' a))) by (rewrite map_length; lia).
        rewrite (map_nth (fun a => edist p' (ppoint dims motif' cell' a))), Er'. auto. }
      assert (nth j ds' 0 <= nth (j + r) ds' 0).
      { destruct r as [|r]; [rewrite Nat.add_0_r; lra|]. apply sorted_nth_le; auto. lia. }
      lra.
    - specialize (H6' a (nth j ds' 0) Ha' Hni' ltac:(apply nth_In; lia)). lra. }
  pose proof (NoDup_incl_length (NoDup_firstn _ (S j) ids H2) Hincl) as HL.
  rewrite !firstn_length in HL. lia.
Qed.

(** The nearest distances of a motif point change by at most [2 eps], whatever the cell. *)
Theorem C23_nearest_continuous : forall dims motif motif' cell eps i n ds ds',
  pset_ok dims motif cell -> pset_ok dims motif' cell -> length motif = length motif' ->
  (forall i, (i < length motif)%nat -> edist (nth i motif []) (nth i motif' []) <= eps) ->
  (i < length motif)%nat ->
  nearest_distances dims motif cell (nth i motif []) n ds ->
  nearest_distances dims motif' cell (nth i motif' []) n ds' ->
  forall j, (j < n)%nat -> Rabs (nth j ds 0 - nth j ds' 0) <= 2 * eps.
Proof.
  intros dims motif motif' cell eps i n ds ds' Hok Hok' Hl He Hi N N' j Hj.
  assert (Lp : forall mo k, pset_ok dims mo cell -> (k < length mo)%nat -> length (nth k mo []) = dims).
  { intros mo k [_ _ H _ _] Hk. rewrite Forall_forall in H. apply H, nth_In; auto. }
  assert (He' : forall i, (i < length motif')%nat -> edist (nth i motif' []) (nth i motif []) <= eps).
  { intros r Hr. rewrite edist_sym. apply He. lia. }
  assert (Hix : forall a, pindex dims motif a <-> pindex dims motif' a).
  { intros a. unfold pindex. rewrite Hl. tauto. }
  assert (A : nth j ds' 0 <= nth j ds 0 + 2 * eps).
  { apply (nearest_le dims motif cell motif' cell (nth i motif []) (nth i motif' []) n); auto.
    intros a Ha. split; [apply Hix; auto|].
    pose proof (ppoint_moved dims motif motif' cell eps a Hok Hok' Hl He Ha) as M.
    pose proof (He' i ltac:(lia)) as M2.
    pose proof (edist_triangle (nth i motif' []) (nth i motif []) (ppoint dims motif' cell a)) as T1.
    pose proof (edist_triangle (nth i motif []) (ppoint dims motif cell a) (ppoint dims motif' cell a)) as T2.
    rewrite ?ppoint_length in T1; rewrite ?ppoint_length in T2; rewrite ?ppoint_length in T2. rewrite (Lp motif i), (Lp motif' i) in T1 by (auto; lia).
    first [rewrite (Lp motif i) in T2 by (auto; lia) | rewrite (Lp motif' i) in T2 by (auto; lia)].
    specialize (T1 eq_refl eq_refl). specialize (T2 eq_refl eq_refl). lra. }
  assert (B : nth j ds 0 <= nth j ds' 0 + 2 * eps).
  { apply (nearest_le dims motif' cell motif cell (nth i motif' []) (nth i motif []) n); auto.
    intros a Ha. split; [apply Hix; auto|].
    pose proof (ppoint_moved dims motif' motif cell eps a Hok' Hok (eq_sym Hl) He' Ha) as M.
    pose proof (He i ltac:(lia)) as M2.
    pose proof (edist_triangle (nth i motif []) (nth i motif' []) (ppoint dims motif cell a)) as T1.
    pose proof (edist_triangle (nth i motif' []) (ppoint dims motif' cell a) (ppoint dims motif cell a)) as T2.
    rewrite ?ppoint_length in T1; rewrite ?ppoint_length in T2; rewrite ?ppoint_length in T2. rewrite (Lp motif i), (Lp motif' i) in T1 by (auto; lia).
    first [rewrite (Lp motif i) in T2 by (auto; lia) | rewrite (Lp motif' i) in T2 by (auto; lia)].
    specialize (T1 eq_refl eq_refl). specialize (T2 eq_refl eq_refl). lra. }
  unfold Rabs. destruct Rcase_abs; lra.
Qed.

(** Hence every AMD entry changes by at most [2 eps], for the cells of C05. *)
Theorem C23_amd_continuous : forall dims motif motif' cell asym mult eps k fuel fuel' a a',
  let ps := {| ps_motif := motif; ps_cell := cell; ps_asym := asym; ps_mult := mult |} in
  let ps' := {| ps_motif := motif'; ps_cell := cell; ps_asym := asym; ps_mult := mult |} in
  pset_wf dims ps -> pset_wf dims ps' -> length motif = length motif' ->
  (dims <= 4)%nat ->
  spread dims cell motif -> spread dims cell motif' ->
  (forall i, (i < length motif)%nat -> edist (nth i motif []) (nth i motif' []) <= eps) ->
  AMD fuel ps k = Done a -> AMD fuel' ps' k = Done a' ->
  forall j, (j < k)%nat -> Rabs (nth j a 0 - nth j a' 0) <= 2 * eps.
Proof.
  intros dims motif motif' cell asym mult eps k fuel fuel' a a' ps ps' Hwf Hwf' Hl H4 Hin Hin' He E E' j Hj.
  destruct (AMD_Done _ _ _ _ _ Hwf E) as (rows & En & Hr & ->).
  destruct (AMD_Done _ _ _ _ _ Hwf' E') as (rows' & En' & Hr' & ->).
  assert (Ec : counts_of ps' = counts_of ps) by (unfold counts_of; simpl; rewrite Hl; auto).
  assert (Ep : positions_of ps' = positions_of ps) by (unfold positions_of; simpl; rewrite Hl; auto).
  pose proof (C05_rows_are_nearest dims motif cell _ k fuel rows (wf_ok _ _ Hwf) H4 Hin
      (points_incl _ _ Hwf) (points_nonempty _ _ Hwf) En) as F.
  pose proof (C05_rows_are_nearest dims motif' cell _ k fuel' rows' (wf_ok _ _ Hwf') H4 Hin'
      (points_incl _ _ Hwf') (points_nonempty _ _ Hwf') En') as F'.
  destruct (Forall2_nth _ _ _ _ _ [] [] F) as [L N]. destruct (Forall2_nth _ _ _ _ _ [] [] F') as [L' N'].
  clear F F'.
  set (n := length (positions_of ps)).
  assert (Lr : length rows = n) by (rewrite <- L; unfold points_of; apply map_length).
  assert (Lr' : length rows' = n) by (rewrite <- L'; unfold points_of; rewrite map_length, Ep; auto).
  assert (Hrow : forall r, (r < n)%nat -> Rabs (nth j (tl (nth r rows [])) 0 - nth j (tl (nth r rows' [])) 0) <= 2 * eps).
  { intros r Hrn. specialize (N r ltac:(lia)). specialize (N' r ltac:(lia)).
    assert (Pt : forall mo, nth r (map (fun i => nth i mo []) (positions_of ps)) [] = nth (nth r (positions_of ps) 0%nat) mo ([] : list R)).
    { intros mo. rewrite (nth_indep _ [] ((fun i => nth i mo []) 0%nat)) by (rewrite map_length; auto).
      apply (map_nth (fun i => nth i mo [])). }
    unfold points_of in N, N'. rewrite Ep in N'. simpl ps_motif in N, N'. rewrite Pt in N, N'.
    set (i := nth r (positions_of ps) 0%nat) in *.
    assert (Hi : (i < length motif)%nat).
    { pose proof (wf_range _ _ Hwf) as HR. rewrite Forall_forall in HR. apply HR, nth_In. auto. }
    pose proof (C23_nearest_continuous dims motif motif' cell eps i (S k) _ _ (wf_ok _ _ Hwf) (wf_ok _ _ Hwf')
      Hl He Hi N N' (S j) ltac:(lia)) as X.
    assert (T : forall l : list R, nth (S j) l 0 = nth j (tl l) 0) by (intros [|b l]; destruct j; auto).
    rewrite <- !T. auto. }
  unfold amd_of. rewrite Ec, !(nth_map_seq) by auto. unfold wmean.
  assert (Hw : Forall (fun a => 0 < a) (map INR (counts_of ps))).
  { pose proof (wf_pos _ _ Hwf) as H. apply Forall_forall. intros b Hb.
    apply in_map_iff in Hb as (c & <- & Hc). rewrite Forall_forall in H. specialize (H c Hc). apply lt_0_INR. lia. }
  assert (Hpos : 0 < rsum (map INR (counts_of ps))).
  { rewrite sum_INR, (wf_sum _ _ Hwf). apply (motif_pos _ _ Hwf). }
  set (W := map INR (counts_of ps)) in *.
  assert (LW : length W = n) by (unfold W; rewrite map_length, <- (wf_len _ _ Hwf); auto).
  assert (ES : forall rs : list (list R), length rs = n ->
    rsum (map (fun p => fst p * nth j (snd p) 0) (combine W (map (@tl R) rs))) =
    rsum (map (fun r => nth r W 0 * nth j (tl (nth r rs [])) 0) (seq 0 n))).
  { intros rs Ls. f_equal. rewrite combine_map_r, map_map.
    rewrite <- (map_nth_seq (combine W rs) (0, [])), map_map, combine_length, LW, Ls, Nat.min_id.
    apply map_ext. intros r. rewrite combine_nth by lia. auto. }
  rewrite !ES by auto. unfold Rdiv. rewrite <- Rmult_minus_distr_r, Rabs_mult, (Rabs_right (/ rsum W)).
  2: { left. apply Rinv_0_lt_compat; auto. }
  apply Rmult_le_reg_r with (rsum W); auto. rewrite Rmult_assoc, Rinv_l, Rmult_1_r by lra.
  rewrite rsum_sub.
  eapply Rle_trans; [apply Rabs_rsum_le with (g := fun r => nth r W 0 * (2 * eps))|].
  - intros r Hr0. apply in_seq in Hr0. rewrite <- Rmult_minus_distr_l, Rabs_mult, (Rabs_right (nth r W 0)).
    + apply Rmult_le_compat_l; [|apply Hrow; lia]. rewrite Forall_forall in Hw. left. apply Hw, nth_In. lia.
    + rewrite Forall_forall in Hw. apply Rle_ge. left. apply Hw, nth_In. lia.
  - rewrite rsum_map_scale_r. rewrite <- LW, map_nth_seq. lra.
Qed.

(** The middle point of three moves by 1/10. *)
Example case23 :
  let a := {| ps_motif := line [0; 1; 3]; ps_cell := [[5]]; ps_asym := None; ps_mult := None |} in
  let b := {| ps_motif := line [0; 1 + 1/10; 3]; ps_cell := [[5]]; ps_asym := None; ps_mult := None |} in
  pset_wf 1 a /\ pset_wf 1 b /\ half_dominant 1 [[5]] /\ Forall (in_cell 1 [[5]]) (ps_motif a) /\
  Forall (in_cell 1 [[5]]) (ps_motif b) /\
  forall i, (i < 3)%nat -> edist (nth i (ps_motif a) []) (nth i (ps_motif b) []) <= 1/10.
Proof.
  intros a b.
  assert (X1 : Forall (fun x => 0 <= x < 5) [0; 1; 3]) by (repeat constructor; lra).
  assert (X2 : Forall (fun x => 0 <= x < 5) [0; 1 + 1/10; 3]) by (repeat constructor; lra).
  split; [apply pset_wf_no_asym, (line_ok _ _ X1); discriminate|].
  split; [apply pset_wf_no_asym, (line_ok _ _ X2); discriminate|].
  split; [apply line_dominant|].
  split; [apply line_in_cell; auto; lra|]. split; [apply line_in_cell; auto; lra|].
  intros [|[|[|i]]] Hi; try lia; simpl; rewrite edist1; rabs.
Qed.

Print Assumptions C21_asym_amd.
Print Assumptions C21_asym_pdd_weights.
Print Assumptions C21_asym_pdd.
Print Assumptions C23_nearest_continuous.
Print Assumptions C23_amd_continuous.
