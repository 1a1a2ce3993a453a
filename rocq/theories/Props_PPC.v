(** C24: the point packing coefficient and the estimate of AMD. *)
From Coq Require Import List ZArith Reals Arith Bool Lia Lra.
From Verif Require Import Num Base Outcome NNModel CalcModel SpecGeom SpecDet SpecPPC DetProofs PPCModel.
Import ListNotations.
Open Scope R_scope.
Open Scope list_scope.

Lemma ball_pos : forall n, 0 < ball n.
Proof.
  assert (G : forall n, 0 < ball n /\ 0 < ball (S n)).
  { induction n as [|n [I1 I2]]; [cbn; lra|]. split; auto. change (ball (S (S n))) with (2 * PI / INR (S (S n)) * ball n).
    apply Rmult_lt_0_compat; auto. apply Rdiv_lt_0_compat; [pose proof PI_RGT_0; lra|apply lt_0_INR; lia]. }
  intros n. apply G.
Qed.
Lemma sphere_even : forall t, sphere_vol (2 * t) = PI ^ t / INR (fact t).
Proof. intros t. unfold sphere_vol. replace (2 * t mod 2)%nat with 0%nat by (symmetry; rewrite Nat.mul_comm; apply Nat.mod_mul; lia). cbn [Nat.eqb]. rewrite Nat.mul_comm, Nat.div_mul by lia. auto. Qed.
Lemma sphere_odd : forall t, sphere_vol (S (2 * t)) = (2 * INR (fact t) * (4 * PI) ^ t) / INR (fact (S (2 * t))).
Proof.
  intros t. unfold sphere_vol. replace (S (2 * t) mod 2)%nat with 1%nat. 2:{ symmetry. replace (S (2 * t)) with (1 + t * 2)%nat by lia. rewrite Nat.mod_add by lia. auto. }
  cbn [Nat.eqb]. replace (S (2 * t) / 2)%nat with t; auto. replace (S (2 * t)) with (1 + t * 2)%nat by lia. rewrite Nat.div_add by lia. auto.
Qed.
Lemma INR_fact_pos : forall n, 0 < INR (fact n).
Proof. intros. apply lt_0_INR, lt_O_fact. Qed.
Lemma sphere_ball : forall n, sphere_vol n = ball n.
Proof.
  assert (E : forall t, sphere_vol (2 * t) = ball (2 * t)).
  { induction t as [|t IH]; [rewrite sphere_even; cbn; field|]. rewrite sphere_even in *. replace (2 * S t)%nat with (S (S (2 * t))) by lia.
    change (ball (S (S (2 * t)))) with (2 * PI / INR (S (S (2 * t))) * ball (2 * t)). rewrite <- IH. rewrite fact_simpl, mult_INR. rewrite !S_INR, mult_INR. cbn [pow].
    change (INR 2) with 2. pose proof (INR_fact_pos t). pose proof (pos_INR t). field. repeat split; lra. }
  assert (O : forall t, sphere_vol (S (2 * t)) = ball (S (2 * t))).
  { induction t as [|t IH]; [rewrite sphere_odd; cbn; field|]. rewrite sphere_odd in *. replace (S (2 * S t))%nat with (S (S (S (2 * t)))) by lia.
    change (ball (S (S (S (2 * t))))) with (2 * PI / INR (S (S (S (2 * t)))) * ball (S (2 * t))). rewrite <- IH. rewrite (fact_simpl (S (S (2 * t)))), (fact_simpl (S (2 * t))), (fact_simpl t), !mult_INR. rewrite !S_INR, mult_INR. cbn [pow].
    change (INR 2) with 2. pose proof (INR_fact_pos t). pose proof (INR_fact_pos (S (2 * t))). pose proof (pos_INR t). field. repeat split; lra. }
  intros n. destruct (Nat.Even_or_Odd n) as [[t ->]|[t ->]]; [apply E|]. replace (2 * t + 1)%nat with (S (2 * t)) by lia. apply O.
Qed.

Lemma py_root_spec : forall x n, 0 <= x -> (1 <= n)%nat -> 0 <= py_root x n /\ py_root x n ^ n = x.
Proof.
  intros x n Hx Hn. unfold py_root. destruct (Rleb x 0) eqn:E.
  - apply Rleb_true in E. split; [lra|]. rewrite pow_i by lia. lra.
  - apply Rleb_false in E. split; [unfold Rpower; left; apply exp_pos|]. rewrite <- Rpower_pow by (unfold Rpower; apply exp_pos). rewrite Rpower_mult.
    replace (1 / INR n * INR n) with 1 by (field; apply not_0_INR; lia). apply Rpower_1. lra.
Qed.
Lemma pow_inj : forall n a b, (1 <= n)%nat -> 0 <= a -> 0 <= b -> a ^ n = b ^ n -> a = b.
Proof.
  intros n a b Hn Ha Hb H. assert (L : forall x y, 0 <= x -> x < y -> x ^ n < y ^ n).
  { intros x y Hx Hxy. clear - Hn Hx Hxy. induction n as [|n IH]; [lia|]. cbn. destruct n as [|n]; [cbn; lra|]. specialize (IH ltac:(lia)).
    apply Rmult_le_0_lt_compat; auto. apply pow_le; auto. }
  destruct (Rtotal_order a b) as [X|[X|X]]; auto; [specialize (L a b Ha X)|specialize (L b a Hb X)]; lra.
Qed.

(** PPC is the non-negative number with PPC^n * m * V_n = volume of the cell. *)
Definition is_ppc (dims m : nat) (cell : list (list R)) (p : R) : Prop := 0 <= p /\ p ^ dims * INR m * ball dims = volume_of dims cell.
Lemma is_ppc_unique : forall dims m cell p q, (1 <= dims)%nat -> (1 <= m)%nat -> is_ppc dims m cell p -> is_ppc dims m cell q -> p = q.
Proof.
  intros dims m cell p q Hd Hm [P1 P2] [Q1 Q2]. apply (pow_inj dims); auto. pose proof (ball_pos dims). assert (0 < INR m) by (apply lt_0_INR; lia).
  apply (Rmult_eq_reg_r (INR m * ball dims)); [lra|]. apply Rgt_not_eq. apply Rmult_lt_0_compat; auto.
Qed.
Lemma ok_size : forall dims motif cell, pset_ok dims motif cell -> (1 <= length motif)%nat /\ length (hd [] motif) = dims.
Proof.
  intros dims motif cell OK. pose proof (ok_motif _ _ _ OK) as N. pose proof (ok_motif_len _ _ _ OK) as L. destruct motif as [|x motif]; [congruence|]. inversion L; subst. cbn. split; auto. lia.
Qed.
Lemma cell_size : forall dims (ps : pset R), pset_ok dims (ps_motif ps) (ps_cell ps) -> length (ps_cell ps) = dims.
Proof. intros dims ps OK. apply (ok_cell _ _ _ OK). Qed.
Theorem C24_ppc : forall dims ps, pset_ok dims (ps_motif ps) (ps_cell ps) ->
  exists p, PPC ps = Done p /\ 0 <= p /\ p ^ dims * INR (length (ps_motif ps)) * ball dims = volume_of dims (ps_cell ps).
Proof.
  intros dims ps OK. pose proof (ok_size _ _ _ OK) as [Hm Hn]. pose proof (ok_dims _ _ _ OK) as Hd. unfold PPC, motif_shape. rewrite Hn. cbv beta iota.
  destruct (Nat.eqb_spec dims 0); [lia|]. rewrite (cell_size _ _ OK), sphere_ball. fold (volume_of dims (ps_cell ps)).
  pose proof (ball_pos dims) as B. assert (M : 0 < INR (length (ps_motif ps))) by (apply lt_0_INR; exact Hm).
  destruct (py_root_spec (volume_of dims (ps_cell ps) / (INR (length (ps_motif ps)) * ball dims)) dims) as [R1 R2]; auto.
  { apply Rmult_le_pos; [apply Rabs_pos|]. left. apply Rinv_0_lt_compat, Rmult_lt_0_compat; auto. }
  eexists. split; [reflexivity|]. split; auto. rewrite R2. field. split; apply Rgt_not_eq; auto.
Qed.
Lemma ppc_from : forall dims ps p, pset_ok dims (ps_motif ps) (ps_cell ps) -> is_ppc dims (length (ps_motif ps)) (ps_cell ps) p -> PPC ps = Done p.
Proof.
  intros dims ps p OK H. destruct (C24_ppc dims ps OK) as (q & E & H1 & H2). rewrite E. f_equal. eapply is_ppc_unique; [| |split; eassumption|eassumption]; [eapply ok_dims; eauto|eapply ok_size; eauto].
Qed.

(** Determinants of matrices given by rows. *)
Lemma rsum_seq : forall n f, rsum (map f (seq 0 n)) = sigma n f.
Proof.
  induction n as [|n IH]; intros f; auto. rewrite seq_S, map_app. cbn [map sigma]. rewrite <- IH. unfold rsum. rewrite fold_right_app. cbn. rewrite Rplus_0_r.
  generalize (map f (seq 0 n)). induction l as [|a l IHl]; cbn; [ring|]. rewrite IHl. ring.
Qed.
Lemma rdot_sigma : forall n u v, length u = n -> length v = n -> rdot u v = sigma n (fun k => nth k u 0 * nth k v 0).
Proof.
  intros n u v Hu Hv. rewrite <- rsum_seq. subst n. revert v Hv. induction u as [|a u IH]; intros [|b v] Hv; try discriminate; auto.
  cbn [length seq map rdot rsum fold_right nth]. rewrite <- seq_shift, map_map. rewrite IH by (cbn in Hv; lia). reflexivity.
Qed.
Lemma row_len : forall dims (m : list (list R)) i, length m = dims -> Forall (fun r => length r = dims) m -> (i < dims)%nat -> length (nth i m []) = dims.
Proof. intros dims m i Hm H Hi. rewrite Forall_forall in H. apply H, nth_In. lia. Qed.
Theorem nonsingular_det : forall dims cell, length cell = dims -> Forall (fun r => length r = dims) cell ->
  (nonsingular dims cell <-> det dims (entries cell) <> 0).
Proof.
  intros dims cell Hc Hr. split.
  - intros (dual & D1 & D2 & D3) Z. assert (E : det dims (product dims (entries cell) (transpose (entries dual))) = 1).
    { rewrite <- (det_unit dims). apply det_ext. intros i j Hi Hj. specialize (D3 i j Hi Hj). rewrite (rdot_sigma dims) in D3 by (apply row_len; auto). exact D3. }
    rewrite det_product, Z in E. lra.
  - intros N. exists (map (fun j => map (fun k => inverse_of dims (entries cell) k j) (seq 0 dims)) (seq 0 dims)).
    split; [rewrite map_length, seq_length; auto|]. split.
    { apply Forall_forall. intros w Hw. apply in_map_iff in Hw as (j & <- & _). rewrite map_length, seq_length. auto. }
    intros i j Hi Hj. rewrite (nth_indep (map (fun j => map (fun k => inverse_of dims (entries cell) k j) (seq 0 dims)) (seq 0 dims)) [] (map (fun k => inverse_of dims (entries cell) k 0%nat) (seq 0 dims))) by (rewrite map_length, seq_length; auto).
    rewrite (map_nth (fun j => map (fun k => inverse_of dims (entries cell) k j) (seq 0 dims)) (seq 0 dims) 0%nat j), seq_nth by auto. cbn [plus].
    rewrite (rdot_sigma dims) by (try apply row_len; auto; rewrite map_length, seq_length; auto).
    transitivity (product dims (entries cell) (inverse_of dims (entries cell)) i j); [|apply inverse_right; auto].
    apply sigma_ext. intros k Hk. f_equal. rewrite (nth_indep (map (fun k => inverse_of dims (entries cell) k j) (seq 0 dims)) 0 (inverse_of dims (entries cell) 0%nat j)) by (rewrite map_length, seq_length; auto).
    rewrite (map_nth (fun k => inverse_of dims (entries cell) k j) (seq 0 dims) 0%nat k), seq_nth by auto. auto.
Qed.
Theorem C24_positive : forall dims ps, pset_ok dims (ps_motif ps) (ps_cell ps) -> nonsingular dims (ps_cell ps) -> exists p, PPC ps = Done p /\ 0 < p.
Proof.
  intros dims ps OK NS. destruct (C24_ppc dims ps OK) as (p & E & P1 & P2). exists p. split; auto. destruct P1 as [|<-]; auto.
  rewrite pow_i in P2 by (apply (ok_dims _ _ _ OK)). exfalso. apply nonsingular_det in NS; [|apply (ok_cell _ _ _ OK)|apply (ok_cell_len _ _ _ OK)].
  unfold volume_of in P2. pose proof (Rabs_pos_lt _ NS). lra.
Qed.

Lemma nth_scaled : forall c m i j, nth j (nth i (scaled c m) []) 0 = c * nth j (nth i m []) 0.
Proof.
  intros c m i j. unfold scaled. change (@nil R) with (map (Rmult c) []) at 1. rewrite map_nth. replace 0 with (c * 0) at 1 by ring. apply map_nth.
Qed.
Lemma scaled_ok : forall dims motif cell c, pset_ok dims motif cell -> pset_ok dims (scaled c motif) (scaled c cell).
Proof.
  intros dims motif cell c OK. assert (L : forall m, Forall (fun r => length r = dims) m -> Forall (fun r => length r = dims) (scaled c m)).
  { intros m H. unfold scaled. apply Forall_map. eapply Forall_impl; [|exact H]. intros a Ha. rewrite map_length. auto. }
  split; [apply (ok_dims _ _ _ OK)| |apply L, (ok_motif_len _ _ _ OK)|unfold scaled; rewrite map_length; apply (ok_cell _ _ _ OK)|apply L, (ok_cell_len _ _ _ OK)].
  pose proof (ok_motif _ _ _ OK). destruct motif; [congruence|discriminate].
Qed.
(** Scaling the crystal scales the coefficient. *)
Theorem C24_scaling : forall dims ps ps' c p, pset_ok dims (ps_motif ps) (ps_cell ps) ->
  ps_motif ps' = scaled c (ps_motif ps) -> ps_cell ps' = scaled c (ps_cell ps) ->
  PPC ps = Done p -> PPC ps' = Done (Rabs c * p).
Proof.
  intros dims ps ps' c p OK Em Ec E. destruct (C24_ppc dims ps OK) as (q & E' & P1 & P2). rewrite E in E'. injection E' as <-.
  apply (ppc_from dims); rewrite Em, Ec; [apply scaled_ok; auto|]. split; [apply Rmult_le_pos; auto; apply Rabs_pos|].
  unfold scaled at 1. rewrite map_length. unfold volume_of. rewrite (det_ext dims _ (fun i j => c * entries (ps_cell ps) i j)) by (intros; unfold entries; apply nth_scaled).
  rewrite det_scale, Rabs_mult, <- RPow_abs. rewrite Rpow_mult_distr. fold (volume_of dims (ps_cell ps)). rewrite <- P2. unfold vec. ring.
Qed.

(** The coefficient depends only on the volume of the cell per point. *)
Lemma ppc_ratio : forall dims ps ps' p k, pset_ok dims (ps_motif ps) (ps_cell ps) -> pset_ok dims (ps_motif ps') (ps_cell ps') ->
  INR (length (ps_motif ps')) = k * INR (length (ps_motif ps)) -> volume_of dims (ps_cell ps') = k * volume_of dims (ps_cell ps) ->
  PPC ps = Done p -> PPC ps' = Done p.
Proof.
  intros dims ps ps' p k OK OK' L V E. destruct (C24_ppc dims ps OK) as (q & E' & P1 & P2). rewrite E in E'. injection E' as <-.
  apply (ppc_from dims); auto. split; auto. rewrite L, V, <- P2. ring.
Qed.
Lemma combined_det : forall dims cell U cell', length cell = dims -> combined dims cell U cell' ->
  det dims (entries cell') = det dims (int_entries U) * det dims (entries cell).
Proof.
  intros dims cell U cell' Hc (U1 & U2 & C1 & C2 & H). rewrite <- det_product. apply det_ext. intros i j Hi Hj. unfold entries at 1. rewrite H by auto.
  unfold lattice_coord, comb_coord. rewrite Hc, rsum_seq. apply sigma_ext. intros k Hk. unfold int_entries, entries. f_equal. apply (map_nth IZR (nth i U []) 0%Z k).
Qed.
Lemma int_det : forall dims U, exists z, det dims (int_entries U) = IZR z.
Proof. intros. apply det_integer. intros i j _ _. eexists. reflexivity. Qed.
Theorem C24_cell_choice : forall dims ps ps' p, pset_ok dims (ps_motif ps) (ps_cell ps) -> pset_ok dims (ps_motif ps') (ps_cell ps') ->
  same_lattice dims (ps_cell ps) (ps_cell ps') -> length (ps_motif ps') = length (ps_motif ps) ->
  PPC ps = Done p -> PPC ps' = Done p.
Proof.
  intros dims ps ps' p OK OK' [[U HU] [V HV]] L. apply (ppc_ratio dims ps ps' p 1); auto; [rewrite L; ring|]. rewrite Rmult_1_l.
  apply combined_det in HU; [|apply (ok_cell _ _ _ OK)]. apply combined_det in HV; [|apply (ok_cell _ _ _ OK')]. unfold volume_of.
  destruct (int_det dims U) as (u & Eu), (int_det dims V) as (v & Ev). rewrite Eu in HU. rewrite Ev in HV.
  destruct (Req_dec (det dims (entries (ps_cell ps))) 0) as [Z|N]; [rewrite HU, Z, Rmult_0_r; auto|].
  assert (UV : (v * u = 1)%Z). { apply eq_IZR. rewrite mult_IZR. apply (Rmult_eq_reg_r (det dims (entries (ps_cell ps)))); auto. rewrite HU in HV. lra. }
  rewrite HU, Rabs_mult. assert (X : Rabs (IZR u) = 1). { rewrite <- abs_IZR. f_equal. assert (u = 1 \/ u = -1)%Z by (apply (Z.eq_mul_1 u v); lia). lia. }
  rewrite X. ring.
Qed.
(** A cell whose lattice is a sublattice of index k, with k times as many points. *)
Theorem C24_supercell : forall dims ps ps' U p, pset_ok dims (ps_motif ps) (ps_cell ps) -> pset_ok dims (ps_motif ps') (ps_cell ps') ->
  combined dims (ps_cell ps) U (ps_cell ps') -> INR (length (ps_motif ps')) = Rabs (det dims (int_entries U)) * INR (length (ps_motif ps)) ->
  PPC ps = Done p -> PPC ps' = Done p.
Proof.
  intros dims ps ps' U p OK OK' HU L. apply (ppc_ratio dims ps ps' p _ OK OK' L). unfold volume_of. rewrite (combined_det _ _ _ _ (ok_cell _ _ _ OK) HU). apply Rabs_mult.
Qed.
Lemma det_diagonal : forall n d, det n (fun i j => if (i =? j)%nat then d i else 0) = fold_right Rmult 1 (map d (seq 0 n)).
Proof.
  induction n as [|n IH]; intros d; auto. cbn [det]. rewrite (sigma_one (S n) _ 0%nat); [|lia|].
  - cbn [Nat.eqb seq map fold_right pow]. rewrite <- seq_shift, map_map. rewrite <- (IH (fun i => d (S i))). rewrite (det_ext n _ (fun i j => if (i =? j)%nat then d (S i) else 0)); [ring|]. intros i j _ _. unfold minor. cbn. auto.
  - intros i Hi N. destruct (Nat.eqb_spec i 0); [lia|]. ring.
Qed.
Lemma box_length : forall ns, INR (length (box ns)) = fold_right Rmult 1 (map INR ns).
Proof.
  induction ns as [|n t IH]; [reflexivity|]. cbn [box map fold_right]. rewrite <- IH, <- mult_INR. f_equal. generalize 0%nat. induction n as [|n IHn]; intros s; auto. cbn [seq flat_map]. rewrite app_length, map_length, IHn. lia.
Qed.
Lemma flat_len : forall {A B} (f : A -> list B) k l, (forall a, In a l -> length (f a) = k) -> length (flat_map f l) = (length l * k)%nat.
Proof. induction l as [|a l IH]; intros H; auto. cbn. rewrite app_length, IH, H; auto; [left; auto|intros; apply H; right; auto]. Qed.
Lemma super_ok : forall dims motif cell ns, pset_ok dims motif cell -> length ns = dims -> Forall (fun n => (1 <= n)%nat) ns -> pset_ok dims (super_motif dims motif cell ns) (super_cell cell ns).
Proof.
  intros dims motif cell ns OK Hn Hp. pose proof (ok_size _ _ _ OK) as [Hm _]. split; [apply (ok_dims _ _ _ OK)| | | |].
  - assert (B : (1 <= length (box ns))%nat).
    { clear - Hp. induction Hp as [|n t Hn _ IH]; cbn; auto. rewrite (flat_len _ (length (box t))) by (intros; apply map_length). rewrite seq_length. nia. }
    intros Z. assert (Q : length (super_motif dims motif cell ns) = 0%nat) by (rewrite Z; auto). unfold super_motif in Q. rewrite (flat_len _ (length motif)) in Q by (intros; rewrite map_length, seq_length; auto). nia.
  - apply Forall_forall. intros x Hx. unfold super_motif in Hx. apply in_flat_map in Hx as (l & _ & Hx). apply in_map_iff in Hx as (i & <- & _). unfold ppoint. rewrite map_length, seq_length. auto.
  - unfold super_cell. rewrite map_length, seq_length. apply (ok_cell _ _ _ OK).
  - apply Forall_forall. intros x Hx. unfold super_cell in Hx. apply in_map_iff in Hx as (i & <- & Hi). apply in_seq in Hi. rewrite map_length. apply row_len; [apply (ok_cell _ _ _ OK)|apply (ok_cell_len _ _ _ OK)|]. rewrite (ok_cell _ _ _ OK) in Hi. lia.
Qed.
Lemma super_entry : forall cell ns i j, (i < length cell)%nat -> nth j (nth i (super_cell cell ns) []) 0 = INR (nth i ns 0%nat) * nth j (nth i cell []) 0.
Proof.
  intros cell ns i j Hi. unfold super_cell. set (f := fun i => map (Rmult (INR (nth i ns 0%nat))) (nth i cell [])).
  rewrite (nth_indep (map f (seq 0 (length cell))) [] (f 0%nat)) by (rewrite map_length, seq_length; auto).
  rewrite (map_nth f (seq 0 (length cell)) 0%nat i), seq_nth by auto. unfold f. cbn [plus]. replace 0 with (INR (nth i ns 0%nat) * 0) at 1 by ring. apply map_nth.
Qed.
Theorem C24_box_supercell : forall dims ps ps' ns p, pset_ok dims (ps_motif ps) (ps_cell ps) -> length ns = dims -> Forall (fun n => (1 <= n)%nat) ns ->
  ps_motif ps' = super_motif dims (ps_motif ps) (ps_cell ps) ns -> ps_cell ps' = super_cell (ps_cell ps) ns ->
  PPC ps = Done p -> PPC ps' = Done p.
Proof.
  intros dims ps ps' ns p OK Hn Hp Em Ec. assert (OK' : pset_ok dims (ps_motif ps') (ps_cell ps')) by (rewrite Em, Ec; apply super_ok; auto).
  apply (ppc_ratio dims ps ps' p (fold_right Rmult 1 (map INR ns)) OK OK').
  - rewrite Em. unfold super_motif. rewrite (flat_len _ (length (ps_motif ps))) by (intros; rewrite map_length, seq_length; auto). rewrite mult_INR, box_length. auto.
  - rewrite Ec. unfold volume_of. rewrite (det_ext dims _ (product dims (fun i j => if (i =? j)%nat then INR (nth i ns 0%nat) else 0) (entries (ps_cell ps)))).
    + rewrite det_product, det_diagonal, Rabs_mult. f_equal. assert (E : map (fun i => INR (nth i ns 0%nat)) (seq 0 dims) = map INR ns).
      { rewrite <- (map_map (fun i => nth i ns 0%nat) INR). f_equal. subst dims. clear. induction ns as [|n t IH]; auto. cbn [length seq map nth]. f_equal. rewrite <- seq_shift, map_map. auto. }
      rewrite E. rewrite Rabs_right; auto. apply Rle_ge. clear. induction ns as [|n t IH]; cbn; [lra|]. apply Rmult_le_pos; auto. apply pos_INR.
    + intros i j Hi Hj. unfold product. rewrite (sigma_one dims _ i); auto; [|intros k Hk N; destruct (Nat.eqb_spec i k); [congruence|ring]]. rewrite Nat.eqb_refl.
      apply super_entry. rewrite (ok_cell _ _ _ OK). auto.
Qed.

(** Rotations and reflections do not change the coefficient. *)
Lemma lin_entry : forall dims cols m i j, length cols = dims -> (i < length m)%nat -> (j < dims)%nat -> nth j (nth i (map (lin_map dims cols) m) []) 0 = product dims (entries m) (entries cols) i j.
Proof.
  intros dims cols m i j Hc Hi Hj. rewrite (nth_indep _ [] (lin_map dims cols [])) by (rewrite map_length; auto). rewrite (map_nth (lin_map dims cols)). unfold lin_map.
  rewrite (nth_indep _ 0 (comb_coord cols (nth i m []) 0%nat)) by (rewrite map_length, seq_length; auto). rewrite (map_nth (comb_coord cols (nth i m []))), seq_nth by auto.
  unfold comb_coord. rewrite Hc, rsum_seq. reflexivity.
Qed.
Theorem C24_isometry : forall dims ps ps' cols t p, pset_ok dims (ps_motif ps) (ps_cell ps) -> dual_basis dims cols cols ->
  ps_motif ps' = map (rigid dims cols t) (ps_motif ps) -> ps_cell ps' = map (lin_map dims cols) (ps_cell ps) ->
  PPC ps = Done p -> PPC ps' = Done p.
Proof.
  intros dims ps ps' cols t p OK (D1 & D2 & D3) Em Ec. assert (OK' : pset_ok dims (ps_motif ps') (ps_cell ps')).
  { rewrite Em, Ec. split; [apply (ok_dims _ _ _ OK)| | |rewrite map_length; apply (ok_cell _ _ _ OK)|].
    - intros Z. apply map_eq_nil in Z. apply (ok_motif _ _ _ OK Z).
    - apply Forall_map, Forall_forall. intros x _. unfold rigid. rewrite map_length, seq_length. auto.
    - apply Forall_map, Forall_forall. intros x _. unfold lin_map. rewrite map_length, seq_length. auto. }
  apply (ppc_ratio dims ps ps' p 1 OK OK'); [rewrite Em, map_length; unfold vec; ring|]. rewrite Rmult_1_l, Ec. unfold volume_of.
  rewrite (det_ext dims _ (product dims (entries (ps_cell ps)) (entries cols))) by (intros; apply lin_entry; auto; rewrite (ok_cell _ _ _ OK); auto).
  rewrite det_product, Rabs_mult. assert (E : det dims (product dims (entries cols) (transpose (entries cols))) = 1).
  { rewrite <- (det_unit dims). apply det_ext. intros i j Hi Hj. specialize (D3 i j Hi Hj). rewrite (rdot_sigma dims) in D3 by (apply row_len; auto). exact D3. }
  rewrite det_product, det_transpose in E. assert (A : Rabs (det dims (entries cols)) = 1).
  { assert ((det dims (entries cols) - 1) * (det dims (entries cols) + 1) = 0) by lra. apply Rmult_integral in H as [H|H]; unfold Rabs; destruct (Rcase_abs _); lra. }
  rewrite A. ring.
Qed.

(** AMD_estimate. *)
Theorem C24_estimate : forall dims ps k, pset_ok dims (ps_motif ps) (ps_cell ps) ->
  exists p est, PPC ps = Done p /\ AMD_estimate ps k = Done est /\ length est = k /\
  forall i, (i < k)%nat -> 0 <= nth i est 0 /\ nth i est 0 ^ dims = p ^ dims * INR (S i).
Proof.
  intros dims ps k OK. destruct (C24_ppc dims ps OK) as (p & E & P1 & P2). exists p. unfold AMD_estimate. rewrite E. cbn [obind]. rewrite (cell_size _ _ OK). pose proof (ok_dims _ _ _ OK) as Hd.
  destruct (Nat.eqb_spec dims 0); [lia|]. eexists. split; auto. split; [reflexivity|]. split; [rewrite map_length, seq_length; auto|]. intros i Hi.
  set (f := fun i => p * Rpower (INR i) (1 / INR dims)). rewrite (nth_indep _ 0 (f 0%nat)) by (rewrite map_length, seq_length; auto). rewrite (map_nth f (seq 1 k) 0%nat i), seq_nth by auto. unfold f. cbn [plus].
  split; [apply Rmult_le_pos; auto; unfold Rpower; left; apply exp_pos|]. rewrite Rpow_mult_distr. f_equal. rewrite <- Rpower_pow by (unfold Rpower; apply exp_pos). rewrite Rpower_mult.
  replace (1 / INR dims * INR dims) with 1 by (field; apply not_0_INR; lia). apply Rpower_1. apply lt_0_INR. lia.
Qed.

(** A triclinic cell with two points, and a second basis of its lattice. *)
Definition ppc_example : pset R := {| ps_motif := [[0; 0; 0]; [1; 1; 1]]; ps_cell := [[2; 0; 0]; [1; 3; 0]; [0; 1; 4]]; ps_asym := None; ps_mult := None |}.
Example C24_case : pset_ok 3 (ps_motif ppc_example) (ps_cell ppc_example) /\ nonsingular 3 (ps_cell ppc_example) /\ volume_of 3 (ps_cell ppc_example) = 24 /\ ball 3 = 4 / 3 * PI /\
  same_lattice 3 (ps_cell ppc_example) [[2; 0; 0]; [3; 3; 0]; [0; 1; 4]].
Proof.
  assert (V : det 3 (entries (ps_cell ppc_example)) = 24) by (unfold entries, ppc_example; cbn; ring).
  split; [split; cbn; [lia|discriminate|repeat constructor|auto|repeat constructor]|]. split; [apply nonsingular_det; [auto|repeat constructor|rewrite V; lra]|].
  split; [unfold volume_of; rewrite V; apply Rabs_right; lra|]. split; [cbn; field|].
  assert (G : forall (P : nat -> nat -> Prop), P 0%nat 0%nat -> P 0%nat 1%nat -> P 0%nat 2%nat -> P 1%nat 0%nat -> P 1%nat 1%nat -> P 1%nat 2%nat -> P 2%nat 0%nat -> P 2%nat 1%nat -> P 2%nat 2%nat -> forall i j, (i < 3)%nat -> (j < 3)%nat -> P i j).
  { intros P ? ? ? ? ? ? ? ? ? i j Hi Hj. destruct i as [|[|[|]]], j as [|[|[|]]]; auto; lia. }
  split.
  - exists [[1; 0; 0]; [1; 1; 0]; [0; 0; 1]]%Z. split; [auto|split; [repeat constructor|split; [auto|split; [repeat constructor|]]]]. apply G; unfold lattice_coord, comb_coord, rsum; cbn; ring.
  - exists [[1; 0; 0]; [-1; 1; 0]; [0; 0; 1]]%Z. split; [auto|split; [repeat constructor|split; [auto|split; [repeat constructor|]]]]. apply G; unfold lattice_coord, comb_coord, rsum; cbn; ring.
Qed.
Print Assumptions C24_ppc.
Print Assumptions C24_positive.
Print Assumptions C24_scaling.
Print Assumptions C24_cell_choice.
Print Assumptions C24_supercell.
Print Assumptions C24_box_supercell.
Print Assumptions C24_isometry.
Print Assumptions C24_estimate.
