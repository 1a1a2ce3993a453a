(** C23 for cells which are not half-dominant: AMD as computed jumps. *)
From Coq Require Import List ZArith Arith Bool Lia Reals Lra Psatz Permutation Sorted.
From Verif Require Import Num Base Spec SpecGeom SpecCalc Outcome CacheModel CacheProofs LatticeModel LatticeProofs NNModel VecR NNProofs NNSpecProofs NNComplete Props_NN
  CalcModel CalcProofs CalcProofs2 Props_Calc.
Import ListNotations.
Open Scope R_scope.

Lemma filter_map_len : forall A (g : A -> R) f l, length (filter f (map g l)) = length (filter (fun a => f (g a)) l).
Proof. induction l as [|a l IH]; simpl; auto. destruct (f (g a)); simpl; lia. Qed.

Lemma two_in : forall A (f : A -> bool) l a b, In a l -> In b l -> a <> b -> f a = true -> f b = true -> (2 <= length (filter f l))%nat.
Proof.
  intros A f l a b Ha Hb Hn Fa Fb. assert (Ia : In a (filter f l)) by (apply filter_In; auto). assert (Ib : In b (filter f l)) by (apply filter_In; auto).
  destruct (filter f l) as [|x [|y t]]; simpl in *; try lia; intuition congruence.
Qed.

Lemma one_in : forall A (f : A -> bool) l a, NoDup l -> (forall b, In b l -> f b = true -> b = a) -> (length (filter f l) <= 1)%nat.
Proof.
  intros A f l a ND H. pose proof (NoDup_filter f ND) as ND'. assert (H' : forall b, In b (filter f l) -> b = a) by (intros b Hb; apply filter_In in Hb; apply H; tauto).
  destruct (filter f l) as [|x [|y t]]; simpl in *; try lia. exfalso. inversion ND' as [|? ? Hni _]; subst. apply Hni. left. rewrite (H' x), (H' y) by auto. auto.
Qed.

Section Jump.
  (** Cell (1, 0), (15, 3), that is, the lattice with basis (1, 0), (0, 3); points (0, 0) and
      (19/5 - e, 3/5). *)
  Variable e : R.
  Hypothesis He : 0 <= e <= 1 / 10.
  Let motif : list (list R) := [[0; 0]; [19 / 5 - e; 3 / 5]].
  Let cell : list (list R) := [[1; 0]; [15; 3]].
  Let zero : list Z := [0; 0]%Z.

  Lemma jump_ok : pset_ok 2 motif cell.
  Proof. split; simpl; auto; try discriminate; repeat constructor. Qed.
  Lemma jump_in : Forall (in_cell 2 cell) motif.
  Proof.
    constructor; [|constructor; [|constructor]].
    - exists [0; 0]. split; auto. split; [repeat constructor; lra|]. unfold comb_coord. simpl. leq.
    - exists [4 / 5 - e; 1 / 5]. split; auto. split; [repeat constructor; lra|]. unfold comb_coord. simpl. leq.
  Qed.
  Lemma jump_ns : nonsingular 2 cell.
  Proof. exists [[1; -5]; [0; 1 / 3]]. split; [auto|]. split; [repeat constructor|]. intros [|[|i]] [|[|j]] Hi Hj; try lia; simpl; lra. Qed.

  Let off (j : nat) : R * R := match j with O => (0, 0) | _ => (19 / 5 - e, 3 / 5) end.

  Lemma jump_sqd : forall j i a b, (j < 2)%nat -> (i < 2)%nat -> sqd (nth j motif []) (pt 2 motif cell ([a; b], i)) =
    (fst (off j) - fst (off i) - IZR (a + 15 * b)) * (fst (off j) - fst (off i) - IZR (a + 15 * b)) + (snd (off j) - snd (off i) - IZR (3 * b)) * (snd (off j) - snd (off i) - IZR (3 * b)).
  Proof. intros [|[|j]] [|[|i]] a b Hj Hi; try lia; rewrite plus_IZR, !mult_IZR; unfold pt, latvec, sqd, vadd, vscale, vzero, motif, cell, off; cbn; field. Qed.

  Let g : R := (4 / 5 - e) * (4 / 5 - e) + 9 / 25.

  (** Distances to points of other lattice vectors of norm at most 3, and at most 2. *)
  Lemma jump_far : forall j i a b, (j < 2)%nat -> (i < 2)%nat -> (a * a + b * b <= 9)%Z -> ([a; b], i) <> (zero, j) ->
    g <= sqd (nth j motif []) (pt 2 motif cell ([a; b], i)) /\ ((a * a + b * b <= 4)%Z -> 1 <= sqd (nth j motif []) (pt 2 motif cell ([a; b], i))).
  Proof.
    intros j i a b Hj Hi Hab Hne. rewrite jump_sqd by auto. assert (Hg : g <= 1) by (unfold g; nra).
    destruct (Z.eq_dec b 0) as [->|Hb].
    - replace (a + 15 * 0)%Z with a by lia. simpl (IZR (3 * 0)). assert (Ha : (-3 <= a <= 3)%Z) by nia.
      destruct j as [|[|j]], i as [|[|i]]; try lia; unfold off; cbn [fst snd].
      1, 4: (assert (a <> 0%Z) by (intros ->; apply Hne; reflexivity); assert (IZR (a * a) >= 1) by (apply Rle_ge, IZR_le; nia); rewrite mult_IZR in H0; split; [|intros _]; nra).
      + assert (A1 : -3 <= IZR a) by (apply (IZR_le (-3)); lia). split; [unfold g; nra|]. intros H4. assert (A2 : -2 <= IZR a) by (apply (IZR_le (-2)); nia). nra.
      + assert (A1 : IZR a <= 3) by (apply (IZR_le _ 3); lia). split; [unfold g; nra|]. intros H4. assert (A2 : IZR a <= 2) by (apply (IZR_le _ 2); nia). nra.
    - assert (X : 1 <= (snd (off j) - snd (off i) - IZR (3 * b)) * (snd (off j) - snd (off i) - IZR (3 * b))).
      { rewrite mult_IZR. destruct (Z_lt_le_dec b 0) as [Hn|Hp].
        - assert (IZR b <= -1) by (apply (IZR_le _ (-1)); lia). destruct j as [|[|j]], i as [|[|i]]; try lia; unfold off; cbn [fst snd]; nra.
        - assert (1 <= IZR b) by (apply (IZR_le 1); lia). destruct j as [|[|j]], i as [|[|i]]; try lia; unfold off; cbn [fst snd]; nra. }
      set (t := fst (off j) - fst (off i) - IZR (a + 15 * b)). pose proof (Rle_0_sqr t) as T. unfold Rsqr in T. split; [|intros _]; lra.
  Qed.

  Lemma jump_index : forall n l i, In (l, i) (visited motif 2 (S n)) -> exists a b, l = [a; b] /\ (a * a + b * b <= Z.of_nat n * Z.of_nat n)%Z /\ (i < 2)%nat.
  Proof.
    intros n l i H. unfold visited in H. apply idxs_In in H as [H Hi]. apply (layers_concat_In motif cell 2 jump_ok) in H as [Hl Hz].
    destruct l as [|a [|b [|? ?]]]; simpl in Hl; try lia. exists a, b. rewrite skew_zsq in Hz. auto.
  Qed.
  Lemma jump_visited : forall n a b i, (a * a + b * b <= Z.of_nat n * Z.of_nat n)%Z -> (i < 2)%nat -> In ([a; b], i) (visited motif 2 (S n)).
  Proof. intros n a b i H Hi. unfold visited. apply idxs_In. split; [|auto]. apply (layers_concat_In motif cell 2 jump_ok). split; auto. rewrite skew_zsq. auto. Qed.

  Lemma jump_last : forall n p, (1 <= n)%nat -> last (row_at motif cell 2 2 (S n) p) 0 = nth 1 (row_at motif cell 2 2 (S n) p) 0.
  Proof.
    intros n p Hn. unfold row_at. pose proof (kmin_length 2 (map (fun a => sqd p (pt 2 motif cell a)) (visited motif 2 (S n)))) as HL. rewrite map_length in HL.
    assert (2 <= length (visited motif 2 (S n)))%nat.
    { eapply Nat.le_trans; [|apply (visited_mono motif 2 1); lia]. vm_compute. lia. }
    destruct (kmin 2 _) as [|a [|b [|? ?]]]; cbn [length] in HL; try lia; auto.
  Qed.

  Lemma jump_row_ge : forall n j z, (1 <= n)%nat -> (j < 2)%nat -> 
    (forall a b i, (i < 2)%nat -> (a * a + b * b <= Z.of_nat n * Z.of_nat n)%Z -> ([a; b], i) <> (zero, j) -> z <= sqd (nth j motif []) (pt 2 motif cell ([a; b], i))) ->
    z <= last (row_at motif cell 2 2 (S n) (nth j motif [])) 0.
  Proof.
    intros n j z Hn Hj H. rewrite jump_last by auto. unfold row_at. apply kmin_nth_ge; [lia| |].
    - rewrite map_length. eapply Nat.lt_le_trans; [|apply (visited_mono motif 2 1); lia]. vm_compute. lia.
    - rewrite filter_map_len. apply (one_in _ _ _ (zero, j)); [apply (visited_NoDup motif cell 2 jump_ok)|]. intros [l i] Hb F. apply Rltb_true in F.
      destruct (jump_index n l i Hb) as (a & b & -> & Hab & Hi). destruct (idx_eq_dec ([a; b], i) (zero, j)) as [E|E]; auto. specialize (H a b i Hi Hab E). lra.
  Qed.
  Lemma jump_row_le : forall n j a b i z, (1 <= n)%nat -> (j < 2)%nat -> (i < 2)%nat -> (a * a + b * b <= Z.of_nat n * Z.of_nat n)%Z -> ([a; b], i) <> (zero, j) -> 0 <= z ->
    sqd (nth j motif []) (pt 2 motif cell ([a; b], i)) <= z -> last (row_at motif cell 2 2 (S n) (nth j motif [])) 0 <= z.
  Proof.
    intros n j a b i z Hn Hj Hi Hab Hne Hz H. unfold row_at. apply kmin_last_le; [lia|]. rewrite filter_map_len. apply (two_in _ _ _ ([a; b], i) (zero, j)); auto.
    - apply jump_visited; auto.
    - apply jump_visited; auto. lia.
    - apply Rleb_true. auto.
    - apply Rleb_true. unfold zero. rewrite jump_sqd by auto. simpl. lra.
  Qed.

  (** The rows after the layers of norm at most 2 end with 1. *)
  Lemma jump_row3 : forall p, In p motif -> last (row_at motif cell 2 2 3 p) 0 = 1.
  Proof.
    intros p Hp. assert (exists j, (j < 2)%nat /\ p = nth j motif []) as (j & Hj & ->) by (destruct Hp as [<-|[<-|[]]]; [exists 0%nat|exists 1%nat]; simpl; auto).
    apply Rle_antisym.
    - apply (jump_row_le 2 j 1 0 j); try lia; try lra; [discriminate|]. rewrite jump_sqd by auto. simpl. lra.
    - apply jump_row_ge; try lia. intros a b i Hi Hab Hne. apply jump_far; auto; simpl in Hab; lia.
  Qed.

  Lemma jump_stop : stop 2 2 2 1.
  Proof. split; [vm_compute; lia|]. intros [|j] Hj; [vm_compute; lia|lia]. Qed.

  Lemma jump_max : is_max motif cell motif 2 2 3 1.
  Proof. split; [exists [0; 0]; split; [simpl; auto|symmetry; apply jump_row3; simpl; auto]|]. intros p Hp. rewrite jump_row3 by auto. lra. Qed.

  Lemma jump_nth1 : forall r : list R, nth 1 (map sqrt r) 0 = sqrt (nth 1 r 0).
  Proof. intros r. rewrite <- sqrt_0 at 1. apply map_nth. Qed.

  (** Where the second point is exactly on the circle the search ends with the distance 1. *)
  Lemma jump_stays : e = 0 -> forall fuel, (3 < fuel)%nat -> exists r1 r2, nearest_neighbors fuel motif cell motif 2 = Done [r1; r2] /\ nth 1 r1 0 = 1 /\ nth 1 r2 0 = 1.
  Proof.
    intros E0 fuel Hf. assert (Hset : settled motif cell motif 2 2 3).
    { exists 1. split; [apply jump_max|]. intros [l i] p Ha Hp. apply idxs_In in Ha as [Hl Hi]. destruct (layer_spec 2 3 ltac:(lia)) as (_ & _ & Hin). apply Hin in Hl as (Hll & Hz & [H3|H3]); [discriminate|].
      destruct l as [|a [|b [|? ?]]]; simpl in Hll; try lia. rewrite skew_zsq in *. change (Z.of_nat 3) with 3%Z in *.
      assert (exists j, (j < 2)%nat /\ p = nth j motif []) as (j & Hj & ->) by (destruct Hp as [<-|[<-|[]]]; [exists 0%nat|exists 1%nat]; simpl; auto).
      replace 1 with g by (unfold g; rewrite E0; lra). apply jump_far; auto; try lia. intros X. inversion X; subst. lia. }
    destruct (nn_upto 2 motif cell motif 1 1 3 jump_ok (fun p H => H) ltac:(discriminate) jump_stop ltac:(lia) Hset) as (n & Hn & E). assert (n = 3)%nat by lia. subst n.
    eexists _, _. split; [apply E; auto|]. rewrite !jump_nth1, <- !(jump_last 2) by lia. rewrite !jump_row3 by (simpl; auto). rewrite sqrt_1. auto.
  Qed.

  (** Inside of the circle it goes on and finds a point much nearer. *)
  Lemma jump_falls : 0 < e -> exists fuel0, forall fuel, (fuel0 <= fuel)%nat -> exists r1 r2, nearest_neighbors fuel motif cell motif 2 = Done [r1; r2] /\ nth 1 r1 0 <= 7 / 10 /\ nth 1 r2 0 <= 7 / 10.
  Proof.
    intros E0. assert (N3 : ~ settled motif cell motif 2 2 3).
    { intros (mx & Hmx & H). rewrite (is_max_unique _ _ _ _ _ _ _ _ Hmx jump_max) in H.
      assert (L : 1 <= sqd [0; 0] (pt 2 motif cell ([-3; 0]%Z, 1%nat))).
      { apply H; [|simpl; auto]. apply idxs_In. split; [|simpl; lia]. apply layer_spec; [lia|]. vm_compute. intuition congruence. }
      change [0; 0] with (nth 0 motif []) in L. rewrite jump_sqd in L by auto. unfold off in L. simpl in L. nra. }
    assert (N4 : ~ settled motif cell motif 2 2 4).
    { intros (mx & Hmx & H). destruct Hmx as [_ Hmx]. specialize (Hmx [0; 0] ltac:(simpl; auto)). change [0; 0] with (nth 0 motif []) in Hmx.
      assert (G : g <= last (row_at motif cell 2 2 4 (nth 0 motif [])) 0) by (apply jump_row_ge; try lia; intros; apply jump_far; auto).
      assert (L : mx <= sqd [0; 0] (pt 2 motif cell ([-4; 0]%Z, 1%nat))).
      { apply H; [|simpl; auto]. apply idxs_In. split; [|simpl; lia]. apply layer_spec; [lia|]. vm_compute. intuition congruence. }
      change [0; 0] with (nth 0 motif []) in L. rewrite jump_sqd in L by auto. unfold off in L. simpl in L. unfold g in G. nra. }
    destruct (nearest_neighbors_terminates 2 motif cell motif 1 jump_ok jump_ns (fun p H => H) ltac:(discriminate)) as (rows & fuel0 & H0). exists fuel0. intros fuel Hf. destruct (H0 fuel) as [E1 _]. specialize (E1 Hf).
    destruct (nearest_neighbors_exact 2 motif cell motif 1 fuel jump_ok (fun p H => H) ltac:(discriminate)) as (s & Hs & Hst & _ & [[E _]|(n & Hn & (Hsn & Hset & _) & E)]); [congruence|].
    assert (s = 3)%nat by (assert ((s - 2)%nat = 1%nat); [eapply stop_unique; [exact Hst|exact jump_stop]|lia]). subst s.
    assert (Hn5 : (5 <= n)%nat). { destruct (Nat.eq_dec n 3) as [->|]; [contradiction|]. destruct (Nat.eq_dec n 4) as [->|]; [contradiction|]. lia. }
    destruct n as [|n]; [lia|]. eexists _, _. split; [exact E|]. rewrite !jump_nth1, <- !(jump_last n) by lia. 
    assert (S7 : sqrt (49 / 100) = 7 / 10) by (replace (49 / 100) with (7 / 10 * (7 / 10)) by lra; apply sqrt_square; lra).
    split; rewrite <- S7; apply sqrt_le_1_alt.
    - apply (jump_row_le n 0 (-4) 0 1); try lia; try lra; [discriminate|]. rewrite jump_sqd by auto. unfold off. simpl. nra.
    - apply (jump_row_le n 1 4 0 0); try lia; try lra; [discriminate|]. rewrite jump_sqd by auto. unfold off. simpl. nra.
  Qed.
End Jump.

Definition jump_set (e : R) : pset R := {| ps_motif := [[0; 0]; [19 / 5 - e; 3 / 5]]; ps_cell := [[1; 0]; [15; 3]]; ps_asym := None; ps_mult := None |}.

Lemma jump_amd : forall e fuel r1 r2, 0 <= e <= 1 / 10 -> nearest_neighbors fuel (ps_motif (jump_set e)) (ps_cell (jump_set e)) (ps_motif (jump_set e)) 2 = Done [r1; r2] ->
  AMD fuel (jump_set e) 1 = Done [(nth 1 r1 0 + nth 1 r2 0) / 2].
Proof.
  intros e fuel r1 r2 He E. rewrite (AMD_run 2 (jump_set e)) by (apply pset_wf_no_asym, jump_ok).
  change (points_of (jump_set e)) with (ps_motif (jump_set e)). rewrite E. cbn [obind]. unfold amd_of. simpl seq. cbn [map]. do 2 f_equal. unfold wmean. simpl.
  assert (T : forall r : list R, nth 0 (tl r) 0 = nth 1 r 0) by (intros [|x r]; auto). rewrite !T. unfold rsum. simpl. field.
Qed.

(** AMD of a set in its cell is 1; moving a point by as little as one likes gives at most 7/10. *)
Theorem C23_any_cell_refuted : exists dims ps, pset_wf dims ps /\ nonsingular dims (ps_cell ps) /\ Forall (in_cell dims (ps_cell ps)) (ps_motif ps) /\
  forall delta, 0 < delta -> exists ps' fuel0 a a', pset_wf dims ps' /\ ps_cell ps' = ps_cell ps /\ Forall (in_cell dims (ps_cell ps)) (ps_motif ps') /\
    Forall2 (fun p q => edist p q <= delta) (ps_motif ps) (ps_motif ps') /\
    (forall fuel, (fuel0 <= fuel)%nat -> AMD fuel ps 1 = Done [a] /\ AMD fuel ps' 1 = Done [a']) /\ a = 1 /\ a' <= 7 / 10.
Proof.
  exists 2%nat, (jump_set 0). assert (H0 : 0 <= 0 <= 1 / 10) by lra. split; [apply pset_wf_no_asym, jump_ok|]. split; [apply jump_ns|]. split; [apply (jump_in 0 H0)|].
  intros delta Hd. set (e := Rmin delta (1 / 10)). assert (He : 0 < e <= 1 / 10 /\ e <= delta) by (unfold e, Rmin; destruct (Rle_dec delta (1 / 10)); lra). assert (He' : 0 <= e <= 1 / 10) by lra. clearbody e.
  destruct (jump_falls e He' ltac:(lra)) as (f1 & H1). destruct (H1 (Nat.max f1 4) ltac:(lia)) as (r1 & r2 & E & L1 & L2).
  destruct (jump_stays 0 H0 eq_refl (Nat.max f1 4) ltac:(lia)) as (s1 & s2 & F & M1 & M2).
  exists (jump_set e), (Nat.max f1 4), 1, ((nth 1 r1 0 + nth 1 r2 0) / 2).
  split; [apply pset_wf_no_asym, jump_ok|]. split; [reflexivity|]. split; [apply (jump_in e He')|]. split; [|split; [|split; [reflexivity|lra]]].
  - constructor; [|constructor; [|constructor]].
    + unfold edist. simpl. match goal with |- sqrt ?z <= _ => replace z with 0 by lra end. rewrite sqrt_0. lra.
    + unfold edist. simpl. match goal with |- sqrt ?z <= _ => replace z with (e * e) by lra end. rewrite sqrt_square by lra. lra.
  - intros fuel Hf. split.
    + destruct (jump_stays 0 H0 eq_refl fuel ltac:(lia)) as (t1 & t2 & Ft & N1 & N2). rewrite (jump_amd 0 fuel t1 t2 H0 Ft), N1, N2. do 2 f_equal. lra.
    + destruct (H1 fuel ltac:(lia)) as (t1 & t2 & Et & _). destruct (nearest_neighbors_terminates 2 (ps_motif (jump_set e)) (ps_cell (jump_set e)) (ps_motif (jump_set e)) 1 (jump_ok e) jump_ns (fun p H => H) ltac:(discriminate)) as (rows & f0 & HT).
      assert (X : forall fu r, nearest_neighbors fu (ps_motif (jump_set e)) (ps_cell (jump_set e)) (ps_motif (jump_set e)) 2 = Done r -> r = rows).
      { intros fu r Er. destruct (HT fu) as [A C]. destruct (le_lt_dec f0 fu) as [Lf|Lf]; [rewrite (A Lf) in Er|rewrite (C Lf) in Er; discriminate]. injection Er; auto. }
      apply jump_amd; auto. pose proof (X _ _ E) as X1. pose proof (X _ _ Et) as X2. rewrite X1, <- X2. exact Et.
Qed.
Print Assumptions C23_any_cell_refuted.
