(** Gram-Schmidt orthogonalisation of a basis, from the last vector to the first: the squared length of a
    combination is a form in triangular shape, and the product of the heights is the volume. *)
From Coq Require Import List ZArith Arith Bool Lia Reals Lra.
From Verif Require Import Num Base NNModel SpecGeom SpecDet VecR NNSpecProofs CalcProofs DetProofs Props_PPC BallProofs CountProofs.
Import ListNotations.
Open Scope R_scope.

Definition rlin (t : R) (b a : list R) : list R := map2 (fun x y => x + t * y) b a.
Lemma rlin_length : forall t b a, length b = length a -> length (rlin t b a) = length a.
Proof. intros. unfold rlin. rewrite map2_length. lia. Qed.
Lemma rdot_rlin : forall t b a x, length b = length a -> length x = length a -> rdot (rlin t b a) x = rdot b x + t * rdot a x.
Proof.
  intros t b. induction b as [|u b IH]; intros [|v a] [|w x] H1 H2; try discriminate; [cbn; ring|]. change (rlin t (u :: b) (v :: a)) with ((u + t * v) :: rlin t b a). cbn [rdot]. rewrite (IH a x) by (cbn in *; lia). ring.
Qed.
Lemma rdot_zero : forall a x, Forall (fun y => y = 0) x -> rdot a x = 0.
Proof. intros a x. revert a. induction x as [|y x IH]; intros [|b a] H; auto. inversion H; subst. cbn. rewrite IH by auto. ring. Qed.
Lemma rdot_map : forall a (f g : list R -> R) cs, (forall c, In c cs -> f c = g c) -> rdot a (map f cs) = rdot a (map g cs).
Proof. intros a f g cs H. f_equal. apply map_ext_in. auto. Qed.

Section Vectors.
  Variable d : nat.
  Definition vecs (cs : list (list R)) : Prop := Forall (fun c => length c = d) cs.
  Lemma comb_cons : forall x a c cs, latvecR d (c :: cs) (x :: a) = vadd (vscale x c) (latvecR d cs a).
  Proof. reflexivity. Qed.
  Lemma dot_comb : forall cs a w, vecs cs -> length a = length cs -> dot (latvecR d cs a) w = rdot a (map (fun c => dot c w) cs).
  Proof.
    induction cs as [|c cs IH]; intros [|x a] w HV HL; try discriminate; [apply dot_vzero_l|]. inversion HV; subst.
    rewrite comb_cons, dot_vadd_l, dot_vscale_l, IH by (auto; rewrite vscale_length, latvecR_length; auto). auto.
  Qed.
  Definition residual (v : list R) (a : list R) (cs : list (list R)) : list R := vsub v (latvecR d cs a).
  Lemma residual_length : forall v a cs, vecs cs -> length v = d -> length (residual v a cs) = d.
  Proof. intros. unfold residual. rewrite vsub_length, latvecR_length by auto. lia. Qed.
  Lemma dot_residual : forall v a cs w, vecs cs -> length v = d -> length a = length cs ->
    dot (residual v a cs) w = dot v w - rdot a (map (fun c => dot c w) cs).
  Proof. intros. unfold residual. rewrite dot_vsub_l, dot_comb by (auto; rewrite latvecR_length; auto). auto. Qed.
  Lemma dot_perp : forall w v a cs, vecs cs -> length v = d -> length a = length cs -> (forall c, In c cs -> dot w c = 0) -> dot w (residual v a cs) = dot w v.
  Proof.
    intros w v a cs HV Hv HL H. rewrite dot_comm, dot_residual by auto. rewrite (dot_comm v w). rewrite rdot_zero; [ring|].
    apply Forall_forall. intros y Hy. apply in_map_iff in Hy. destruct Hy as (c & <- & Hc). rewrite dot_comm. auto.
  Qed.
  Lemma dot_null : forall u v, dot u u = 0 -> dot u v = 0.
  Proof. intros u v H. pose proof (cauchy_schwarz u v). rewrite H in H0. nra. Qed.

  Lemma project : forall cs v, vecs cs -> length v = d -> exists a, length a = length cs /\ forall c, In c cs -> dot (residual v a cs) c = 0.
  Proof.
    induction cs as [|c cs IH]; intros v HV Hv; [exists []; split; auto; intros c []|]. inversion HV as [|? ? Hc HV']; subst.
    destruct (IH c HV' Hc) as (a & La & Pa). destruct (IH v HV' Hv) as (b & Lb & Pb). set (c' := residual c a cs) in *. set (v' := residual v b cs) in *.
    assert (GEN : forall t, (t * dot c' c' = dot v' c') -> forall x, In x (c :: cs) -> dot (residual v (t :: rlin (- t) b a) (c :: cs)) x = 0).
    { intros t Ht. assert (W : forall x, dot (residual v (t :: rlin (- t) b a) (c :: cs)) x = dot v' x - t * dot c' x).
      { intros x. rewrite dot_residual by (auto; cbn; rewrite rlin_length; lia). unfold v', c'. rewrite !dot_residual by auto. cbn [map rdot]. rewrite rdot_rlin by (rewrite ?map_length; lia). ring. }
      set (w := residual v (t :: rlin (- t) b a) (c :: cs)) in *.
      assert (WC : forall x, In x cs -> dot w x = 0) by (intros x Hx; rewrite W, Pa, Pb by auto; ring).
      intros x [<-|Hx]; [|auto]. rewrite <- (dot_perp w c a cs) by auto. fold c'. rewrite W. lra. }
    destruct (Req_dec (dot c' c') 0) as [Z|N].
    - exists (0 :: rlin (- 0) b a). split; [cbn; rewrite rlin_length; lia|]. apply GEN. rewrite (dot_comm v' c'), (dot_null c' v' Z). ring.
    - exists (dot v' c' / dot c' c' :: rlin (- (dot v' c' / dot c' c')) b a). split; [cbn; rewrite rlin_length; lia|]. apply GEN. field. auto.
  Qed.

  Fixpoint GS (cs rs : list (list R)) : Prop :=
    match cs, rs with
    | [], [] => True
    | c :: cs, r :: rs => (exists a, length a = length cs /\ r = residual c a cs) /\ (forall x, In x cs -> dot r x = 0) /\ GS cs rs
    | _, _ => False
    end.
  Lemma GS_exists : forall cs, vecs cs -> exists rs, GS cs rs.
  Proof.
    induction cs as [|c cs IH]; intros HV; [exists []; cbn; auto|]. inversion HV; subst. destruct IH as (rs & H); auto. destruct (project cs c) as (a & La & Pa); auto.
    exists (residual c a cs :: rs). cbn. split; [exists a; auto|auto].
  Qed.
  Lemma GS_length : forall cs rs, GS cs rs -> length rs = length cs.
  Proof. induction cs as [|c cs IH]; intros [|r rs] H; auto; try contradiction. cbn. f_equal. apply IH, H. Qed.
  Lemma GS_vecs : forall cs rs, vecs cs -> GS cs rs -> vecs rs.
  Proof.
    induction cs as [|c cs IH]; intros [|r rs] HV H; try contradiction; [constructor|]. inversion HV; subst. destruct H as ((a & La & ->) & _ & H). constructor; [apply residual_length; auto|apply IH; auto].
  Qed.
  Lemma GS_perp : forall cs rs w, vecs cs -> GS cs rs -> (forall c, In c cs -> dot w c = 0) -> forall r, In r rs -> dot w r = 0.
  Proof.
    induction cs as [|c cs IH]; intros [|r rs] w HV H P; try contradiction. inversion HV; subst. destruct H as ((a & La & ->) & _ & H).
    intros x [<-|Hx]; [rewrite dot_perp; auto; [apply P; left; auto|intros; apply P; right; auto]|]. apply (IH rs w); auto. intros; apply P; right; auto.
  Qed.
  Lemma GS_orthogonal : forall cs rs, vecs cs -> GS cs rs -> forall i j, (i < length rs)%nat -> (j < length rs)%nat -> i <> j -> dot (nth i rs []) (nth j rs []) = 0.
  Proof.
    induction cs as [|c cs IH]; intros [|r rs] HV H; try contradiction; [intros; cbn in *; lia|]. inversion HV; subst. destruct H as (_ & P & H).
    assert (PR : forall x, In x rs -> dot r x = 0) by (intros; apply (GS_perp cs rs r); auto).
    intros [|i] [|j] Hi Hj N; cbn [nth length] in *; [lia|apply PR, nth_In; lia|rewrite dot_comm; apply PR, nth_In; lia|apply IH; auto; lia].
  Qed.

  (** ** Triangular shape of the squared length *)
  Definition sqlen (cs : list (list R)) (y : list R) : R := dot (latvecR d cs y) (latvecR d cs y).
  Lemma sqlen_cons : forall c cs a y0 y, vecs (c :: cs) -> length a = length cs -> length y = length cs -> (forall x, In x cs -> dot (residual c a cs) x = 0) ->
    sqlen (c :: cs) (y0 :: y) = norm (residual c a cs) * y0 * (norm (residual c a cs) * y0) + sqlen cs (rlin y0 y a).
  Proof.
    intros c cs a y0 y HV La Ly P. inversion HV; subst. set (r := residual c a cs) in *. set (u := latvecR d (c :: cs) (y0 :: y)). set (u' := latvecR d cs (rlin y0 y a)).
    assert (U : forall x, dot u x = y0 * dot r x + dot u' x).
    { intros x. unfold u, u', r. rewrite !dot_comb by (auto; cbn; rewrite ?rlin_length; lia). rewrite dot_residual by auto. cbn [map rdot]. rewrite rdot_rlin by (rewrite ?map_length; lia). ring. }
    assert (Z : dot u' r = 0). { unfold u'. rewrite dot_comb by (auto; rewrite ?rlin_length; lia). apply rdot_zero, Forall_forall. intros t Ht. apply in_map_iff in Ht. destruct Ht as (x & <- & Hx). rewrite dot_comm. auto. }
    unfold sqlen. fold u u'. rewrite (U u), (dot_comm r u), (dot_comm u' u), !U, (dot_comm r u'), Z.
    replace (norm r * y0 * (norm r * y0)) with (y0 * y0 * (norm r * norm r)) by ring. rewrite norm_sq. ring.
  Qed.
  Definition offset (ls : list Z) (xi : list R) : list R := map2 (fun l x => IZR l - x) ls xi.
  Lemma offset_length : forall ls xi, length ls = length xi -> length (offset ls xi) = length xi.
  Proof. intros. unfold offset. rewrite map2_length. lia. Qed.
  Lemma offset_rlin : forall t ls xi a, length ls = length a -> length xi = length a -> rlin t (offset ls xi) a = offset ls (rlin (- t) xi a).
  Proof. intros t ls. induction ls as [|l ls IH]; intros [|x xi] [|b a] H1 H2; try discriminate; auto. cbn. f_equal; [ring|]. apply IH; cbn in *; lia. Qed.
  Lemma sqlen_Tri : forall cs rs xi, vecs cs -> GS cs rs -> length xi = length cs -> Tri (map norm rs) (fun ls => sqlen cs (offset ls xi)).
  Proof.
    induction cs as [|c cs IH]; intros [|r rs] xi HV H HX; try contradiction.
    - cbn. unfold sqlen. apply dot_vzero_l.
    - destruct xi as [|x xi]; [discriminate|]. injection HX as HX. pose proof (GS_length cs rs (proj2 (proj2 H))) as HL. destruct H as ((a & La & ->) & P & H). inversion HV; subst. cbn [map Tri]. exists x. intros l.
      exists (fun ls => sqlen cs (offset ls (rlin (- (IZR l - x)) xi a))). split.
      + apply IH; auto. rewrite rlin_length; lia.
      + intros ls Hls. rewrite map_length in Hls. change (offset (l :: ls) (x :: xi)) with ((IZR l - x) :: offset ls xi). rewrite (sqlen_cons c cs a) by (auto; rewrite ?offset_length; lia).
        rewrite offset_rlin by lia. auto.
  Qed.
End Vectors.

(** ** The product of the heights *)
Lemma sigma_S_l : forall n f, sigma (S n) f = f 0%nat + sigma n (fun i => f (S i)).
Proof. induction n as [|n IH]; intros f; [cbn; ring|]. cbn [sigma] in *. rewrite IH. ring. Qed.
Lemma comb_entry : forall d cs a j, vecs d cs -> length a = length cs -> (j < d)%nat -> nth j (latvecR d cs a) 0 = sigma (length cs) (fun i => nth i a 0 * nth j (nth i cs []) 0).
Proof. intros. rewrite latvecR_nth by auto. unfold comb_coord. apply rsum_seq. Qed.
Lemma residual_entry : forall d v cs a j, vecs d cs -> length v = d -> length a = length cs -> (j < d)%nat -> nth j (residual d v a cs) 0 = nth j v 0 - sigma (length cs) (fun i => nth i a 0 * nth j (nth i cs []) 0).
Proof.
  intros. rewrite <- (comb_entry d) by auto. unfold residual, vsub. rewrite (map2_nth _ _ _ Rminus v (latvecR d cs a) j 0 0 0); auto. lia. rewrite latvecR_length; auto.
Qed.

Lemma det_replace : forall n pre c cs a, vecs n (pre ++ c :: cs) -> length (pre ++ c :: cs) = n -> length a = length cs ->
  det n (entries (pre ++ residual n c a cs :: cs)) = det n (entries (pre ++ c :: cs)).
Proof.
  intros n pre c cs a HV HL La. set (k := length pre). set (M := entries (pre ++ c :: cs)). set (p := length cs).
  assert (Hk : (k < n)%nat) by (rewrite app_length in HL; cbn in HL; unfold k; lia).
  apply Forall_app in HV. destruct HV as (HV1 & HV2). inversion HV2 as [|? ? Hc HV]; subst.
  set (f := fun i => if (i =? p)%nat then 1 else - nth i a 0). set (g := fun i j => if (i =? p)%nat then nth j c 0 else nth j (nth i cs []) 0).
  set (n := length (pre ++ c :: cs)) in *.
  rewrite (det_ext n _ (set_row M k (fun j => sigma (S p) (fun i => f i * g i j)))).
  - rewrite det_row_sum by auto. cbn [sigma]. rewrite sigma_zero.
    + unfold f. rewrite Nat.eqb_refl. rewrite Rmult_1_l, Rplus_0_l. apply det_ext. intros i j Hi Hj. unfold set_row, g, M, entries. destruct (Nat.eqb_spec i k) as [->|N]; auto. rewrite Nat.eqb_refl. unfold k. rewrite nth_middle. auto.
    + intros i Hi. rewrite (equal_rows' n _ (det_alternating n) k (S (k + i))); [ring|auto| |lia|].
      * unfold n. rewrite app_length. cbn [length]. fold k p. lia.
      * intros j Hj. unfold set_row, g, M, entries. rewrite Nat.eqb_refl. destruct (Nat.eqb_spec (S (k + i)) k); [lia|]. destruct (Nat.eqb_spec i p); [lia|].
        rewrite app_nth2 by (unfold k; lia). replace (S (k + i) - length pre)%nat with (S i) by (unfold k; lia). auto.
  - intros i j Hi Hj. unfold set_row, M, entries. destruct (Nat.eqb_spec i k) as [->|N].
    + unfold k. rewrite nth_middle. rewrite residual_entry by auto. cbn [sigma]. unfold f, g. rewrite Nat.eqb_refl. fold p.
      rewrite (sigma_ext p (fun i => (if (i =? p)%nat then 1 else - nth i a 0) * (if (i =? p)%nat then nth j c 0 else nth j (nth i cs []) 0)) (fun i => -1 * (nth i a 0 * nth j (nth i cs []) 0))).
      * rewrite sigma_scale. ring.
      * intros t Ht. destruct (Nat.eqb_spec t p); [lia|]. ring.
    + destruct (Nat.lt_ge_cases i k) as [L|L]; [unfold k in L; rewrite !app_nth1 by auto; auto|]. rewrite !app_nth2 by (unfold k in *; lia). fold k.
      destruct (i - k)%nat eqn:E; [lia|]. auto.
Qed.

Lemma det_GS : forall n cs rs pre, vecs n (pre ++ cs) -> length (pre ++ cs) = n -> GS n cs rs -> det n (entries (pre ++ rs)) = det n (entries (pre ++ cs)).
Proof.
  intros n. induction cs as [|c cs IH]; intros [|r rs] pre HV HL H; try contradiction; auto. destruct H as ((a & La & ->) & _ & H).
  rewrite <- (det_replace n pre c cs a HV HL La). set (r := residual n c a cs).
  replace (pre ++ r :: rs) with ((pre ++ [r]) ++ rs) by (rewrite <- app_assoc; auto). replace (pre ++ r :: cs) with ((pre ++ [r]) ++ cs) by (rewrite <- app_assoc; auto).
  apply Forall_app in HV. destruct HV as (V1 & V2). pose proof (Forall_inv V2) as V3. apply Forall_inv_tail in V2. rewrite app_length in HL. cbn [length] in HL.
  apply IH; auto.
  - apply Forall_app. split; auto. apply Forall_app. split; auto. constructor; auto. apply residual_length; auto.
  - rewrite !app_length. cbn. lia.
Qed.
Lemma heights_volume : forall n cs rs, vecs n cs -> length cs = n -> GS n cs rs -> rprod (map norm rs) = volume_of n cs.
Proof.
  intros n cs rs HV HL H. pose proof (GS_length n cs rs H) as LR. pose proof (GS_vecs n cs rs HV H) as VR. pose proof (GS_orthogonal n cs rs HV H) as OR.
  pose proof (det_GS n cs rs [] HV HL H) as D. cbn [app] in D.
  assert (SQ : det n (entries rs) * det n (entries rs) = rprod (map norm rs) * rprod (map norm rs)).
  { rewrite <- (det_transpose n (entries rs)) at 2. rewrite <- det_product.
    rewrite (det_ext n _ (fun i j => if (i =? j)%nat then norm (nth i rs []) * norm (nth i rs []) else 0)).
    - rewrite det_diagonal. replace n with (length rs) by lia. clear. induction rs as [|r rs IH]; [cbn; ring|]. cbn [length seq map fold_right]. rewrite <- seq_shift, map_map. cbn [nth rprod fold_right] in *. unfold rprod in *. rewrite IH. ring.
    - intros i j Hi Hj. unfold product, transpose, entries. rewrite <- (rdot_sigma n) by (apply row_len; auto; lia). rewrite rdot_dot. destruct (Nat.eqb_spec i j) as [->|N]; [rewrite norm_sq; auto|apply OR; auto; lia]. }
  assert (P0 : 0 <= rprod (map norm rs)). { clear. induction rs as [|r rs IH]; cbn; [lra|]. apply Rmult_le_pos; auto. apply norm_nonneg. }
  unfold volume_of. rewrite <- D. rewrite <- (Rabs_right (rprod (map norm rs))) by lra. apply Rsqr_eq_abs_0. unfold Rsqr. lra.
Qed.
Lemma heights_pos : forall l, Forall (fun h => 0 <= h) l -> rprod l <> 0 -> Forall (fun h => 0 < h) l.
Proof.
  induction 1 as [|h l Hh Hl IH]; intros N; constructor; cbn in N.
  - destruct Hh as [|<-]; auto. exfalso. apply N. ring.
  - apply IH. intros E. apply N. unfold rprod in E. rewrite E. ring.
Qed.

(** The number of lattice vectors within [r] of a point: the point is given by its coordinates in the basis. *)
Theorem lattice_count : forall n cs, vecs n cs -> length cs = n -> det n (entries cs) <> 0 -> exists C, 0 <= C /\ forall xi r, length xi = n -> 0 <= r ->
  exists S : list (list Z), NoDup S /\ (forall ls, In ls S <-> length ls = n /\ sqlen n cs (offset ls xi) <= r * r) /\
  Rabs (INR (length S) - ball n * r ^ n / volume_of n cs) <= C * lower_order n r.
Proof.
  intros n cs HV HL ND. destruct (GS_exists n cs HV) as (rs & H). pose proof (heights_volume n cs rs HV HL H) as HVOL. pose proof (GS_length n cs rs H) as LR.
  assert (POS : Forall (fun h => 0 < h) (map norm rs)).
  { apply heights_pos; [apply Forall_forall; intros x Hx; apply in_map_iff in Hx; destruct Hx as (y & <- & _); apply norm_nonneg|]. rewrite HVOL. unfold volume_of. apply Rabs_no_R0. auto. }
  destruct (count (map norm rs) POS) as (C & HC & CO). exists C. split; auto. intros xi r HX Hr. rewrite map_length, LR, HL, HVOL in CO.
  apply (CO (fun ls => sqlen n cs (offset ls xi)) r); auto. apply sqlen_Tri; auto. lia.
Qed.
