(** Lemmas about SitesModel.v. *)
From Coq Require Import List ZArith Reals Arith Bool Lia Lra Sorted Permutation.
From Verif Require Import Num Base Outcome NNModel VecR SpecGeom CalcModel CompareModel SitesModel SpecSites.
Import ListNotations.
Open Scope R_scope.
Open Scope list_scope.
Notation length := List.length.

(** Python's [x % 1]. *)
Definition mod1 (x : R) : R := frac_part x.

Lemma mod1_range : forall x, 0 <= mod1 x < 1.
Proof. intros x. destruct (base_fp x). unfold mod1. lra. Qed.
Lemma mod1_diff : forall x, exists n : Z, mod1 x - x = IZR n.
Proof. intros x. exists (- Int_part x)%Z. unfold mod1, frac_part. rewrite opp_IZR. lra. Qed.

Lemma nabs_Rabs : forall x, nabs (T := R) x = Rabs x.
Proof.
  intros x. unfold nabs. cbn [nleb n0 nsub NumR]. destruct (Rleb 0 x) eqn:E.
  - apply Rleb_true in E. rewrite Rabs_right; lra.
  - apply Rleb_false in E. rewrite Rabs_left; lra.
Qed.

(** ** Closeness *)
Lemma coord_neq_ok : forall tol a b, tol < 1 -> 0 <= a < 1 -> 0 <= b < 1 ->
  coord_neq tol a b = false <-> exists n : Z, Rabs (a - b - IZR n) <= tol.
Proof.
  intros tol a b Ht Ha Hb. unfold coord_neq. cbn [nltb nsub n1 NumR]. rewrite !nabs_Rabs, andb_false_iff, !Rltb_false.
  split.
  - intros [L|L].
    + exists 0%Z. rewrite Rminus_0_r. auto.
    + destruct (Rle_dec b a) as [G|G].
      * exists 1%Z. rewrite (Rabs_right (a - b)) in L by lra. auto.
      * exists (-1)%Z. rewrite (Rabs_left (a - b)) in L by lra.
        replace (a - b - -1) with (- (- (a - b) - 1)) by lra. rewrite Rabs_Ropp. auto.
  - intros [n Hn]. assert (- tol <= a - b - IZR n <= tol) by (revert Hn; unfold Rabs; destruct (Rcase_abs _); lra). assert (-2 < IZR n < 2) by lra.
    assert (-2 < n < 2)%Z as Z2 by (split; apply lt_IZR; tauto).
    assert (n = 0 \/ n = 1 \/ n = -1)%Z as [E|[E|E]] by lia; subst n.
    + left. apply Rabs_le. lra.
    + right. destruct (Rle_dec b a); [rewrite (Rabs_right (a - b)) by lra; apply Rabs_le; lra|lra].
    + right. destruct (Rle_dec b a); [lra|rewrite (Rabs_left (a - b)) by lra; apply Rabs_le; lra].
Qed.

Lemma close_nil : forall tol q, close_mod1 tol [] q.
Proof. intros tol q j Hj. simpl in Hj. lia. Qed.
Lemma close_cons : forall tol a b p q,
  close_mod1 tol (a :: p) (b :: q) <-> (exists n : Z, Rabs (a - b - IZR n) <= tol) /\ close_mod1 tol p q.
Proof.
  intros tol a b p q. split.
  - intros C. split; [apply (C 0%nat); simpl; lia|]. intros j Hj. apply (C (S j)). simpl. lia.
  - intros [C0 C] [|j] Hj; [exact C0|]. apply (C j). simpl in Hj. lia.
Qed.

Lemma site_neq_ok : forall tol p q, tol < 1 -> in_unit p -> in_unit q -> length p = length q ->
  site_neq tol p q = false <-> close_mod1 tol p q.
Proof.
  intros tol. induction p as [|a p IH]; intros [|b q] Ht Hp Hq Hl; try discriminate.
  - split; intros; [apply close_nil|auto].
  - inversion Hp; inversion Hq; subst. rewrite close_cons. unfold site_neq. cbn [map2 existsb].
    rewrite orb_false_iff, coord_neq_ok by auto. fold (site_neq tol p q). rewrite IH by (auto; congruence). tauto.
Qed.

Lemma site_neq_true : forall tol p q, tol < 1 -> in_unit p -> in_unit q -> length p = length q ->
  site_neq tol p q = true <-> ~ close_mod1 tol p q.
Proof.
  intros tol p q Ht Hp Hq Hl. rewrite <- site_neq_ok by auto. destruct (site_neq tol p q); split; intuition congruence.
Qed.

Lemma site_eq_neq : forall tol (p q : list R), site_eq tol p q = negb (site_neq tol p q).
Proof.
  intros tol. unfold site_eq, site_neq. induction p as [|a p IH]; intros [|b q]; auto.
  cbn [map2 forallb existsb]. rewrite IH, negb_orb. f_equal. unfold coord_neq. cbn [nltb nleb nsub n1 NumR].
  rewrite negb_andb. f_equal; [generalize (nabs (a - b)) | generalize (nabs (nabs (a - b) - 1))]; intros x;
    destruct (Rleb x tol) eqn:E, (Rltb tol x) eqn:F; auto;
    rewrite ?Rleb_true, ?Rleb_false, ?Rltb_true, ?Rltb_false in *; lra.
Qed.

Lemma close_sym : forall tol p q, length p = length q -> close_mod1 tol p q -> close_mod1 tol q p.
Proof.
  intros tol p q Hl C j Hj. destruct (C j) as [n Hn]; [lia|]. exists (- n)%Z. rewrite opp_IZR.
  replace (nth j q 0 - nth j p 0 - - IZR n) with (- (nth j p 0 - nth j q 0 - IZR n)) by lra. rewrite Rabs_Ropp. auto.
Qed.
Lemma close_refl : forall tol p, 0 <= tol -> close_mod1 tol p p.
Proof. intros tol p Ht j Hj. exists 0%Z. rewrite Rminus_0_r, Rminus_eq_0, Rabs_R0. auto. Qed.
(** Closeness does not depend on the representatives modulo integers. *)
Lemma close_same : forall tol p q r, same_mod1 q r -> length p = length q -> close_mod1 tol p q -> close_mod1 tol p r.
Proof.
  intros tol p q r [Hl S] Hp C j Hj. destruct (C j Hj) as [n Hn]. destruct (S j) as [m Hm]; [lia|].
  exists (n + m)%Z. rewrite plus_IZR. replace (nth j p 0 - nth j r 0 - (IZR n + IZR m)) with (nth j p 0 - nth j q 0 - IZR n) by lra. auto.
Qed.
Lemma close_same_l : forall tol p q r, same_mod1 p q -> close_mod1 tol p r -> close_mod1 tol q r.
Proof.
  intros tol p q r [Hl S] C j Hj. destruct (C j) as [n Hn]; [lia|]. destruct (S j) as [m Hm]; [lia|].
  exists (n - m)%Z. rewrite minus_IZR. replace (nth j q 0 - nth j r 0 - (IZR n - IZR m)) with (nth j p 0 - nth j r 0 - IZR n) by lra. auto.
Qed.
Lemma same_sym : forall p q, same_mod1 p q -> same_mod1 q p.
Proof.
  intros p q [L S]. split; auto. intros j Hj. destruct (S j) as [n Hn]; [lia|]. exists (- n)%Z. rewrite opp_IZR. lra.
Qed.
Lemma same_refl : forall p, same_mod1 p p.
Proof. intros p. split; auto. intros j Hj. exists 0%Z. lra. Qed.
Lemma same_trans : forall p q r, same_mod1 p q -> same_mod1 q r -> same_mod1 p r.
Proof.
  intros p q r [L S] [L' S']. split; [congruence|]. intros j Hj. destruct (S j Hj) as [n Hn]. destruct (S' j) as [m Hm]; [lia|].
  exists (n + m)%Z. rewrite plus_IZR. lra.
Qed.
Lemma same_close : forall tol p q, 0 <= tol -> same_mod1 p q -> close_mod1 tol p q.
Proof. intros tol p q Ht S. apply (close_same tol p p q); auto. apply close_refl; auto. Qed.

(** ** unique_sites *)
Lemma unique_from_length : forall tol (sites seen : list (list R)), length (unique_from tol seen sites) = length sites.
Proof. intros tol. induction sites; intros; simpl; auto. Qed.

Lemma unique_from_nth : forall tol (sites : list (list R)) seen i, (i < length sites)%nat ->
  nth i (unique_from tol seen sites) false = forallb (fun q => site_neq tol q (nth i sites [])) (seen ++ firstn i sites).
Proof.
  intros tol. induction sites as [|p t IH]; intros seen i Hi; simpl in Hi; [lia|].
  destruct i as [|i]; simpl.
  - rewrite app_nil_r. auto.
  - rewrite IH by lia. rewrite <- app_assoc. auto.
Qed.

Definition sites_ok (dims : nat) (sites : list (list R)) : Prop := Forall (fun p => length p = dims /\ in_unit p) sites.

Lemma sites_ok_nth : forall dims sites i, sites_ok dims sites -> (i < length sites)%nat ->
  length (nth i sites []) = dims /\ in_unit (nth i sites []).
Proof. intros dims sites i H Hi. unfold sites_ok in H. rewrite Forall_forall in H. apply H, nth_In. auto. Qed.

Lemma In_firstn_nth : forall A (l : list A) d i x, In x (firstn i l) <-> exists j, (j < i)%nat /\ (j < length l)%nat /\ nth j l d = x.
Proof.
  intros A l d i x. split.
  - intros H. apply (In_nth _ _ d) in H as (j & Hj & E). rewrite firstn_length in Hj. exists j.
    split; [lia|]. split; [lia|]. rewrite <- E. clear E.
    revert l Hj. revert i. induction j; intros [|i] [|a l] Hj; simpl in *; auto; try lia. apply IHj. lia.
  - intros (j & Hi & Hl & <-). revert i l Hi Hl. induction j; intros [|i] [|a l] Hi Hl; simpl in *; auto; try lia.
    right. apply IHj; lia.
Qed.

Lemma unique_nth : forall dims tol sites i, tol < 1 -> sites_ok dims sites -> (i < length sites)%nat ->
  nth i (unique_sites tol sites) false = true <->
  forall j, (j < i)%nat -> ~ close_mod1 tol (nth j sites []) (nth i sites []).
Proof.
  intros dims tol sites i Ht Hs Hi. unfold unique_sites. rewrite unique_from_nth by auto. simpl. rewrite forallb_forall.
  destruct (sites_ok_nth _ _ i Hs Hi) as [L U]. split.
  - intros F j Hj. destruct (sites_ok_nth _ _ j Hs ltac:(lia)) as [L' U'].
    rewrite <- site_neq_true by (auto; congruence). apply F. apply (In_firstn_nth _ _ []). exists j. repeat split; auto; lia.
  - intros F q Hq. apply (In_firstn_nth _ _ []) in Hq as (j & Hj & Hl & <-).
    destruct (sites_ok_nth _ _ j Hs Hl) as [L' U']. rewrite site_neq_true by (auto; congruence). auto.
Qed.

(** ** Masks *)
Lemma select_nil_l : forall A (l : list A), select [] l = [].
Proof. reflexivity. Qed.
Lemma select_cons : forall A b m (a : A) l, select (b :: m) (a :: l) = (if b then [a] else []) ++ select m l.
Proof. intros A [] m a l; reflexivity. Qed.

(** The selected positions. *)
Definition chosen (mask : list bool) : list nat := filter (fun i => nth i mask false) (seq 0 (length mask)).
Lemma chosen_cons : forall b m, chosen (b :: m) = (if b then [0%nat] else []) ++ map S (chosen m).
Proof.
  intros b m. unfold chosen.
  assert (E : forall f l, filter f (map S l) = map S (filter (fun i => f (S i)) l)).
  { intros f. induction l as [|a l IH]; auto. simpl. destruct (f (S a)); simpl; rewrite IH; auto. }
  pose proof (E (fun i => nth i (b :: m) false) (seq 0 (length m))) as F. cbn [nth] in F. rewrite <- F, seq_shift.
  destruct b; reflexivity.
Qed.
Lemma select_chosen : forall A (d : A) mask l, length mask = length l -> select mask l = map (fun i => nth i l d) (chosen mask).
Proof.
  intros A d. induction mask as [|b m IH]; intros [|a l] Hl; try discriminate; auto.
  rewrite select_cons, chosen_cons, map_app, map_map. injection Hl as Hl. rewrite (IH l Hl). f_equal.
  destruct b; auto.
Qed.
Lemma chosen_In : forall mask i, In i (chosen mask) <-> (i < length mask)%nat /\ nth i mask false = true.
Proof. intros mask i. unfold chosen. rewrite filter_In, in_seq. intuition lia. Qed.
Lemma chosen_sorted : forall mask, StronglySorted lt (chosen mask).
Proof.
  intros mask. unfold chosen. generalize 0%nat. generalize (length mask). induction n as [|n IH]; intros s; simpl; [constructor|].
  destruct (nth s mask false); auto. constructor; auto. apply Forall_forall. intros j Hj. apply filter_In in Hj as [Hj _].
  apply in_seq in Hj. lia.
Qed.
