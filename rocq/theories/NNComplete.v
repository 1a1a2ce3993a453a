(** Completeness of the search for well conditioned cells, and termination. *)
From Coq Require Import List ZArith Arith Bool Lia Reals Lra Permutation Sorted.
From Verif Require Import Num Base Spec SpecGeom Outcome LatticeModel LatticeProofs LatticeProofs2
  CacheModel CacheProofs MergeModel MergeProofs NNModel VecR NNProofs NNSpecProofs.
Import ListNotations.
Open Scope R_scope.

(** * Bounds on the largest of the k smallest values *)
Lemma filter_perm_length : forall A (f : A -> bool) l1 l2, Permutation l1 l2 ->
  length (filter f l1) = length (filter f l2).
Proof.
  intros A f l1 l2 H. induction H; simpl; auto.
  - destruct (f x); simpl; auto.
  - destruct (f x), (f y); simpl; auto.
  - congruence.
Qed.

Lemma filter_length_le : forall A (f : A -> bool) l, (length (filter f l) <= length l)%nat.
Proof. induction l as [|a l IH]; simpl; auto. destruct (f a); simpl; lia. Qed.

Lemma filter_nil : forall A (f : A -> bool) l, (forall a, In a l -> f a = false) -> filter f l = [].
Proof.
  induction l as [|a l IH]; intros H; simpl; auto. rewrite H by (simpl; auto).
  apply IH. intros; apply H; simpl; auto.
Qed.

Lemma kmin_last_le : forall k l B, (1 <= k)%nat ->
  (k <= length (filter (fun a => Rleb a B) l))%nat -> last (kmin k l) 0 <= B.
Proof.
  intros k l B Hk H. apply Rnot_lt_le. intro Hlt.
  destruct (kmin_split k l) as (r & HP & Hr).
  rewrite (filter_perm_length _ _ _ _ HP), filter_app, app_length in H.
  assert (Hne : kmin k l <> []).
  { intro E. rewrite E in *. simpl in *.
    pose proof (kmin_length k l) as HL. rewrite E in HL. simpl in HL.
    apply Permutation_length in HP. assert (length l = 0)%nat by lia.
    destruct r; simpl in *; lia. }
  destruct (exists_last Hne) as (s & a & E). rewrite E in *. rewrite last_last in Hlt.
  rewrite (filter_nil _ _ r) in H.
  - rewrite filter_app, app_length in H. simpl in H.
    assert (Rleb a B = false) as E2 by (apply Rleb_false; auto). rewrite E2 in H. simpl in H.
    pose proof (filter_length_le _ (fun a => Rleb a B) s).
    pose proof (kmin_length k l) as HL. rewrite E, app_length in HL. simpl in HL. lia.
  - intros b Hb. apply Rleb_false. assert (a <= b); [|lra]. apply Hr; auto.
    apply in_app_iff; simpl; auto.
Qed.

Lemma filter_le_all : forall l B, (forall a, In a l -> a <= B) ->
  filter (fun a => Rleb a B) l = l.
Proof.
  induction l as [|a l IH]; intros B H; simpl; auto.
  assert (Rleb a B = true) as -> by (apply Rleb_true, H; simpl; auto).
  f_equal. apply IH. intros; apply H; simpl; auto.
Qed.

Lemma kmin_last_mono : forall k l1 l2, (1 <= k)%nat -> (k <= length l1)%nat ->
  last (kmin k (l1 ++ l2)) 0 <= last (kmin k l1) 0.
Proof.
  intros k l1 l2 Hk Hl. apply kmin_last_le; auto. rewrite filter_app, app_length.
  destruct (kmin_split k l1) as (r & HP & Hr).
  rewrite (filter_perm_length _ _ _ _ HP), filter_app, app_length.
  rewrite (filter_le_all (kmin k l1)).
  - rewrite kmin_length. lia.
  - intros a Ha. apply sorted_le_last; auto. apply kmin_sorted.
Qed.

(** * Inner products with combinations of the cell vectors *)
Lemma dot_latvecR : forall dims cell c w, Forall (fun r => length r = dims) cell ->
  length c = length cell ->
  dot (latvecR dims cell c) w =
  rsum (map (fun j => nth j c 0 * dot (nth j cell []) w) (seq 0 (length cell))).
Proof.
  intros dims cell c w Hc. revert c.
  induction Hc as [|r cell Hr Hc IH]; intros [|z c] Hl; simpl in Hl; try discriminate.
  - simpl. apply dot_vzero_l.
  - change (latvecR dims (r :: cell) (z :: c)) with (vadd (vscale z r) (latvecR dims cell c)).
    rewrite dot_vadd_l by (rewrite vscale_length, latvecR_length; auto).
    rewrite dot_vscale_l, IH by lia. simpl. f_equal.
    rewrite <- seq_shift, map_map. reflexivity.
Qed.

Lemma rsum_ext : forall A (f g : A -> R) l, (forall a, In a l -> f a = g a) ->
  rsum (map f l) = rsum (map g l).
Proof. intros. f_equal. apply map_ext_in. auto. Qed.

Lemma rsum_split : forall n i f, (i < n)%nat ->
  rsum (map f (seq 0 n)) = f i + rsum (map (fun j => if Nat.eqb j i then 0 else f j) (seq 0 n)).
Proof.
  assert (H : forall n s i f, (s <= i < s + n)%nat ->
    rsum (map f (seq s n)) = f i + rsum (map (fun j => if Nat.eqb j i then 0 else f j) (seq s n))).
  { induction n as [|n IH]; intros s i f Hi; [lia|]. simpl.
    destruct (Nat.eqb_spec s i) as [->|Hne].
    - rewrite Rplus_0_l. f_equal. apply rsum_ext. intros j Hj. apply in_seq in Hj.
      destruct (Nat.eqb_spec j i); [lia|auto].
    - rewrite (IH (S s) i f) by lia. lra. }
  intros. apply H. lia.
Qed.

Lemma rsum_plus : forall A (f g : A -> R) l,
  rsum (map (fun a => f a + g a) l) = rsum (map f l) + rsum (map g l).
Proof. induction l as [|a l IH]; simpl; lra. Qed.

Lemma rsum_scale : forall A c (f : A -> R) l,
  rsum (map (fun a => c * f a) l) = c * rsum (map f l).
Proof. induction l as [|a l IH]; simpl; lra. Qed.

Lemma rsum_le : forall A (f g : A -> R) l, (forall a, In a l -> f a <= g a) ->
  rsum (map f l) <= rsum (map g l).
Proof.
  induction l as [|a l IH]; intros H; simpl; [lra|].
  assert (f a <= g a) by (apply H; simpl; auto).
  assert (rsum (map f l) <= rsum (map g l)) by (apply IH; intros; apply H; simpl; auto). lra.
Qed.

Lemma rsum_abs : forall l, Rabs (rsum l) <= rsum (map Rabs l).
Proof.
  induction l as [|a l IH]; simpl; [rewrite Rabs_R0; lra|].
  eapply Rle_trans; [apply Rabs_triang|]. lra.
Qed.

Lemma argmax : forall n (f : nat -> R), (1 <= n)%nat ->
  exists i, (i < n)%nat /\ forall j, (j < n)%nat -> f j <= f i.
Proof.
  induction n as [|n IH]; intros f Hn; [lia|]. destruct n as [|n].
  - exists 0%nat. split; auto. intros j Hj. replace j with 0%nat by lia. lra.
  - destruct (IH f ltac:(lia)) as (i & Hi & H).
    destruct (Rle_lt_dec (f i) (f (S n))).
    + exists (S n). split; auto. intros j Hj. destruct (Nat.eq_dec j (S n)) as [->|]; [lra|].
      specialize (H j ltac:(lia)). lra.
    + exists i. split; [lia|]. intros j Hj. destruct (Nat.eq_dec j (S n)) as [->|]; [lra|].
      apply H. lia.
Qed.

Lemma latvec_upd : forall dims cell l i z, Forall (fun r => length r = dims) cell ->
  length l = length cell -> (i < length l)%nat ->
  latvec dims cell (upd l i (nth i l 0 + z)%Z) =
  vadd (latvec dims cell l) (vscale (IZR z) (nth i cell [])).
Proof.
  intros dims cell l i z Hc. revert l i.
  induction Hc as [|r cell Hr Hc IH]; intros [|a l] i Hl Hi; simpl in Hl, Hi; try lia.
  rewrite (latvec_cons dims cell l r a) by auto.
  assert (Hlen : length (latvec dims cell l) = dims) by (apply latvec_length; auto).
  destruct i as [|i].
  - change (upd (a :: l) 0 (nth 0 (a :: l) 0 + z)%Z) with ((a + z)%Z :: l). rewrite latvec_cons by auto.
    simpl nth. apply vec_ext.
    + rewrite !vadd_length, !vscale_length. lia.
    + rewrite vadd_length, vscale_length, Hlen, Hr. intros j Hj.
      assert (Hj' : (j < dims)%nat) by lia. unfold vadd.
      rewrite !(map2_nth _ _ _ _ _ _ _ 0 0);
        rewrite ?map2_length, ?vscale_length, ?Hlen, ?Hr; try lia.
      unfold vscale. 
      assert (Hn : forall c, nth j (map (nmul c) r) 0 = c * nth j r 0).
      { intros c. rewrite (nth_indep _ 0 (c * 0)) by (rewrite map_length; lia).
        exact (map_nth (Rmult c) r 0 j). }
      rewrite !Hn, plus_IZR. simpl. lra.
  - change (upd (a :: l) (S i) (nth (S i) (a :: l) 0 + z)%Z) with (a :: upd l i (nth i l 0 + z)%Z). rewrite latvec_cons by auto.
    simpl nth. rewrite IH by lia.
    assert (Hci : length (nth i cell []) = dims).
    { rewrite Forall_forall in Hc. apply Hc, nth_In. lia. }
    apply vec_ext.
    + rewrite !vadd_length, !vscale_length. lia.
    + rewrite !vadd_length, !vscale_length, Hlen, Hr, Hci. intros j Hj.
      assert (Hj' : (j < dims)%nat) by lia. unfold vadd.
      rewrite !(map2_nth _ _ _ _ _ _ _ 0 0);
        rewrite ?map2_length, ?vscale_length, ?Hlen, ?Hr, ?Hci; try lia.
      simpl. lra.
Qed.

Lemma zsq_cons : forall a l, zsq (a :: l) = (a * a + zsq l)%Z.
Proof. reflexivity. Qed.

Lemma zsq_nonneg : forall l, (0 <= zsq l)%Z.
Proof. induction l as [|a l IH]; [reflexivity|]. rewrite zsq_cons. nia. Qed.

Lemma zsq_upd : forall l i z, (i < length l)%nat ->
  (zsq (upd l i (nth i l 0 + z)) = zsq l + 2 * nth i l 0 * z + z * z)%Z.
Proof.
  induction l as [|a l IH]; intros [|i] z Hi; simpl length in Hi; try lia.
  - simpl upd. simpl nth. rewrite !zsq_cons. lia.
  - simpl upd. simpl nth. rewrite !zsq_cons, IH by lia. lia.
Qed.

Lemma zsq_ge : forall l i, (nth i l 0 * nth i l 0 <= zsq l)%Z.
Proof.
  induction l as [|a l IH]; intros [|i]; simpl nth; rewrite ?zsq_cons; try (simpl; lia).
  - pose proof (zsq_nonneg l). lia.
  - specialize (IH i). nia.
Qed.

Lemma zsq_small : forall l, (forall i, (i < length l)%nat -> (-1 <= nth i l 0 <= 1)%Z) ->
  (zsq l <= Z.of_nat (length l))%Z.
Proof.
  induction l as [|a l IH]; intros H; [simpl; lia|].
  rewrite zsq_cons. simpl length.
  assert (zsq l <= Z.of_nat (length l))%Z.
  { apply IH. intros i Hi. apply (H (S i)). simpl; lia. }
  specialize (H 0%nat ltac:(simpl; lia)). simpl in H. nia.
Qed.

Lemma vsub_shift : forall n q L p z v, length q = n -> length L = n -> length p = n -> length v = n ->
  vsub (vadd q (vadd L (vscale z v))) p = vadd (vsub (vadd q L) p) (vscale z v).
Proof.
  unfold vsub, vadd, vscale.
  induction n as [|n IH]; intros [|a q] [|b L] [|c p] z [|d v] Hq HL Hp Hv; simpl in *; try lia; auto.
  f_equal; [lra|]. apply IH; lia.
Qed.

(** * Completeness *)
Lemma in_cell_spread : forall dims cell motif, half_dominant dims cell -> Forall (in_cell dims cell) motif -> spread dims cell motif.
Proof.
  intros dims cell motif Hdom Hin.
  assert (Hf : exists frac : nat -> list R, forall i, (i < length motif)%nat -> length (frac i) = dims /\
    Forall (fun a => 0 <= a < 1) (frac i) /\ nth i motif [] = map (comb_coord cell (frac i)) (seq 0 dims)).
  { clear Hdom. induction Hin as [|p motif (f & Hf1 & Hf2 & Hf3) Hin (frac & IH)].
    - exists (fun _ => []). simpl. intros; lia.
    - exists (fun i => match i with 0%nat => f | S i => frac i end). intros [|i] Hi; simpl in *; auto. apply IH. lia. }
  split; [auto|]. destruct Hf as (frac & Hf). exists 0, frac. split; [lra|]. split; [|split].
  - intros i Hi. specialize (Hdom i Hi). replace ((1 - 2 * 0 + 0) / (2 * (1 + 0))) with (1 / 2) by field. lra.
  - intros i Hi. destruct (Hf i Hi) as (H1 & _ & H3). auto.
  - intros i i' j Hi Hi' Hj. destruct (Hf i Hi) as (L & F & _). destruct (Hf i' Hi') as (L' & F' & _).
    rewrite Forall_forall in F, F'.
    assert (Ha : 0 <= nth j (frac i) 0 < 1) by (apply F, nth_In; lia). assert (Hb : 0 <= nth j (frac i') 0 < 1) by (apply F', nth_In; lia).
    unfold Rabs. destruct (Rcase_abs _); lra.
Qed.

Lemma spread_dominant : forall tau dims cell motif, spread_within tau dims cell motif -> half_dominant dims cell.
Proof. intros tau dims cell motif H. apply H. Qed.

Lemma spread_weaken : forall tau tau' dims cell motif, tau <= tau' -> spread_within tau dims cell motif -> spread_within tau' dims cell motif.
Proof.
  intros tau tau' dims cell motif Ht (Hdom & delta & frac & Hd & Hth & Hr). split; [auto|]. exists delta, frac. split; [auto|]. split; [|auto].
  intros i Hi. eapply Rle_trans; [apply Hth; auto|]. rewrite rdot_dot. apply Rmult_le_compat_r; [apply dot_nonneg|].
  unfold Rdiv. apply Rmult_le_compat_r; [|lra]. left. apply Rinv_0_lt_compat. lra.
Qed.

Lemma zsq_two : forall l, (forall r, (r < length l)%nat -> (-2 <= nth r l 0 <= 2)%Z) -> (zsq l <= 4 * Z.of_nat (length l))%Z.
Proof.
  induction l as [|a l IH]; intros H; [reflexivity|].
  assert (Ha := H 0%nat ltac:(simpl; lia)). simpl in Ha.
  assert (Hl : (zsq l <= 4 * Z.of_nat (length l))%Z) by (apply IH; intros r Hr; apply (H (S r)); simpl; lia).
  change (zsq (a :: l)) with (a * a + zsq l)%Z. simpl length. nia.
Qed.

Section Within.
  Variables (tau : R) (motif cell : list (list R)) (dims : nat).
  Hypothesis Htau : 0 <= tau.
  Hypothesis Hps : pset_ok dims motif cell.
  Hypothesis Hdims4 : (dims <= 4)%nat.
  Hypothesis Hin : spread_within tau dims cell motif.

  Let P := pt dims motif cell.

  (** Far away indices can be moved closer to the origin without increasing the
      distance, or very little when they are not that far away. *)
  Lemma step_within : forall p l i, In p motif -> (i < length motif)%nat ->
    length l = dims -> (4 < zsq l)%Z ->
    exists j s, (j < dims)%nat /\ (s = 1 \/ s = -1)%Z /\ (1 <= s * nth j l 0)%Z /\
      (sqd p (P (upd l j (nth j l 0 - s)%Z, i)) <= sqd p (P (l, i)) \/
       (zsq l <= 16)%Z /\ exists c, length c = dims /\ vsub (P (l, i)) p = latvecR dims cell c /\ 1 / 2 < Rabs (nth j c 0) /\
         sqd p (P (upd l j (nth j l 0 - s)%Z, i)) <= sqd p (P (l, i)) + tau * dot (nth j cell []) (nth j cell [])).
  Proof.
    intros p l i Hp Hi Hl Hz.
    destruct Hin as (Hdom & delta & frac & Hdel & Hth & Hfr & Hsp).
    destruct (In_nth _ _ [] Hp) as (i0 & Hi0 & Ei0).
    set (theta := (1 - 2 * delta + tau) / (2 * (1 + delta))) in *.
    assert (Eth : theta * (2 * (1 + delta)) = 1 - 2 * delta + tau) by (unfold theta; field; lra).
    assert (Hth0 : 0 <= theta) by nra.
    destruct Hps as [H1 H2 H3 H4 H5].
    assert (Hpt : forall r, (r < length motif)%nat -> nth r motif [] = latvecR dims cell (frac r)).
    { intros r Hr. destruct (Hfr r Hr) as [Hf E].
      assert (Hlen : length (nth r motif []) = dims) by (rewrite Forall_forall in H3; apply H3, nth_In; auto).
      apply vec_ext.
      + rewrite latvecR_length; auto.
      + intros j Hj. rewrite latvecR_nth by (auto; lia). rewrite E.
        rewrite (nth_map_seq (comb_coord cell (frac r))); [reflexivity|lia]. }
    pose proof (Hpt i Hi) as Eq. pose proof (Hpt i0 Hi0) as Ep. rewrite Ei0 in Ep.
    set (fq := frac i) in *. set (fp := frac i0) in *.
    assert (Hfq : length fq = dims) by (apply Hfr; auto).
    assert (Hfp : length fp = dims) by (apply Hfr; auto).
    assert (Hb : forall r, (r < dims)%nat -> - (1 + delta) <= nth r fq 0 - nth r fp 0 <= 1 + delta).
    { intros r Hr. specialize (Hsp i i0 r Hi Hi0 Hr). fold fq in Hsp. fold fp in Hsp.
      unfold Rabs in Hsp. destruct (Rcase_abs _) in Hsp; lra. }
    set (f := fun j => IZR (nth j l 0%Z) + nth j fq 0 - nth j fp 0).
    destruct (argmax dims (fun j => Rabs (f j)) H1) as (jm & Hjm & Hmax). cbv beta in Hmax.
    set (M := Rabs (f jm)) in *.
    assert (HM0 : 0 <= M) by apply Rabs_pos.
    (* the direction of the step *)
    assert (Hdir : exists j s, (j < dims)%nat /\ (s = 1 \/ s = -1)%Z /\ (1 <= s * nth j l 0)%Z /\
      (1 + 2 * (1 / 2 * M) <= 2 * (IZR s * f j) \/ (zsq l <= 16)%Z /\ 1 / 2 < Rabs (f j) /\ 1 + 2 * (theta * M) <= 2 * (IZR s * f j) + tau)).
    { destruct (Rle_lt_dec M (1 + delta)) as [HM|HM].
      - assert (Hl2 : forall r, (r < dims)%nat -> (-2 <= nth r l 0 <= 2)%Z).
        { intros r Hr. specialize (Hmax r Hr). specialize (Hb r Hr).
          assert (Hx : Rabs (f r) <= 1 + delta) by lra. unfold f in Hx.
          unfold Rabs in Hx. assert (-3 < IZR (nth r l 0%Z) < 3) as [Ha Hc] by (destruct (Rcase_abs _) in Hx; lra).
          apply lt_IZR in Ha, Hc. lia. }
        assert (Hex : exists r, (r < dims)%nat /\ (nth r l 0 = 2 \/ nth r l 0 = -2)%Z).
        { assert (Hd : forall n, (n <= dims)%nat -> (exists r, (r < n)%nat /\ (nth r l 0 = 2 \/ nth r l 0 = -2)%Z) \/
            forall r, (r < n)%nat -> (-1 <= nth r l 0 <= 1)%Z).
          { induction n as [|n IH]; intros Hn; [right; intros; lia|].
            destruct (IH ltac:(lia)) as [(r & Hr & E)|H]; [left; exists r; auto|].
            destruct (Z.eq_dec (nth n l 0%Z) 2%Z) as [E|E]; [left; exists n; auto|].
            destruct (Z.eq_dec (nth n l 0%Z) (-2)%Z) as [E'|E']; [left; exists n; auto|].
            right. intros r Hr. destruct (Nat.eq_dec r n) as [->|]; [|apply H; lia].
            specialize (Hl2 n ltac:(lia)). lia. }
          destruct (Hd dims (le_n _)) as [H|H]; auto. exfalso.
          assert (zsq l <= Z.of_nat (length l))%Z by (apply zsq_small; intros r Hr; apply H; lia). lia. }
        destruct Hex as (r & Hr & Er). specialize (Hb r Hr).
        assert (theta * M <= theta * (1 + delta)) by (apply Rmult_le_compat_l; lra).
        destruct Er as [Er|Er]; [exists r, 1%Z|exists r, (-1)%Z]; (split; [auto|split; [auto|split; [lia|]]]); right;
          (split; [pose proof (zsq_two l ltac:(intros r' Hr'; apply Hl2; lia)); lia|]); unfold f; rewrite Er;
          (split; [unfold Rabs; destruct (Rcase_abs _); lra|lra]).
      - exists jm, (if Rle_dec 0 (f jm) then 1%Z else (-1)%Z). split; [auto|].
        split; [destruct (Rle_dec 0 (f jm)); auto|]. specialize (Hb jm Hjm).
        split.
        + enough (X : 0 < IZR ((if Rle_dec 0%R (f jm) then 1 else -1) * nth jm l 0)%Z) by (apply lt_IZR in X; lia).
          unfold M in HM. rewrite mult_IZR. destruct (Rle_dec 0 (f jm)) as [H0|H0].
          * rewrite Rabs_right in HM by lra. unfold f in HM. lra.
          * rewrite Rabs_left in HM by lra. unfold f in HM. lra.
        + assert (E : IZR (if Rle_dec 0 (f jm) then 1%Z else (-1)%Z) * f jm = M).
          { unfold M. destruct (Rle_dec 0 (f jm)); [rewrite Rabs_right by lra; lra|rewrite Rabs_left by lra; lra]. }
          left. rewrite E. lra. }
    destruct Hdir as (j & s & Hj & Hs & Hsl & Hgain).
    exists j, s. split; auto. split; auto. split; auto.
    (* the change of the squared distance *)
    unfold P, pt. simpl fst. simpl snd.
    replace (nth j l 0 - s)%Z with (nth j l 0 + - s)%Z by lia.
    rewrite latvec_upd by (auto; lia).
    set (L := latvec dims cell l). set (q := nth i motif []) in *. set (v := nth j cell []).
    assert (HLl : length L = dims) by (apply latvec_length; auto).
    assert (Hvl : length v = dims).
    { rewrite Forall_forall in H5. apply H5, nth_In. lia. }
    assert (Hql : length q = dims) by (rewrite Forall_forall in H3; apply H3, nth_In; auto).
    assert (Hpl : length p = dims) by (rewrite Forall_forall in H3; auto).
    set (D := vsub (vadd q L) p).
    assert (HDl : length D = dims) by (unfold D; rewrite vsub_length, vadd_length; lia).
    rewrite !(sqd_sym p), !sqd_dot.
    assert (ED : vsub (vadd q (vadd L (vscale (IZR (- s)) v))) p = vadd D (vscale (IZR (- s)) v)).
    { apply (vsub_shift dims); auto. }
    rewrite ED. fold D.
    rewrite dot_vadd_l by (rewrite vscale_length; lia).
    rewrite !dot_vadd_r by (rewrite vscale_length; lia).
    rewrite !dot_vscale_l, !dot_vscale_r, (dot_comm v D).
    (* D . v as a sum *)
    assert (EDv : dot D v = rsum (map (fun r => f r * dot (nth r cell []) v) (seq 0 dims))).
    { unfold D. rewrite dot_vsub_l by (rewrite vadd_length; lia).
      rewrite dot_vadd_l by lia. unfold L. rewrite latvec_latvecR, Eq, Ep by auto.
      rewrite !dot_latvecR by (rewrite ?map_length; auto; lia). rewrite H4.
      replace (_ + _ - _) with
        (rsum (map (fun r => nth r fq 0 * dot (nth r cell []) v) (seq 0 dims)) +
         rsum (map (fun r => nth r (map IZR l) 0 * dot (nth r cell []) v) (seq 0 dims)) +
         (-1) * rsum (map (fun r => nth r fp 0 * dot (nth r cell []) v) (seq 0 dims))) by lra.
      rewrite <- rsum_scale, <- !rsum_plus. apply rsum_ext. intros r _. unfold f.
      change 0 with (IZR 0) at 2. rewrite (map_nth IZR l 0%Z r). lra. }
    rewrite (rsum_split dims j) in EDv by auto.
    set (rest := rsum (map (fun r => if Nat.eqb r j then 0 else f r * dot (nth r cell []) v) (seq 0 dims))) in EDv.
    assert (Hrest : forall th, dominates th dims cell -> Rabs rest <= M * (th * dot v v)).
    { intros th Hd. unfold rest. eapply Rle_trans; [apply rsum_abs|]. rewrite map_map.
      eapply Rle_trans; [apply (rsum_le _ _ (fun r => M *
         (if Nat.eqb r j then 0 else Rabs (rdot v (nth r cell []))))) |].
      - intros r Hr. apply in_seq in Hr. destruct (Nat.eqb r j).
        + rewrite Rabs_R0. lra.
        + rewrite Rabs_mult, rdot_dot, (dot_comm v). apply Rmult_le_compat_r; [apply Rabs_pos|].
          apply Hmax. lia.
      - rewrite rsum_scale. apply Rmult_le_compat_l; [auto|].
        rewrite <- rdot_dot. apply Hd; auto. }
    assert (Hhalf : dominates (1 / 2) dims cell) by (intros r Hr; specialize (Hdom r Hr); lra).
    pose proof (dot_nonneg v) as Hvv.
    assert (Hs1 : IZR s * IZR s = 1) by (destruct Hs as [-> | ->]; lra).
    assert (Hr : forall th, dominates th dims cell -> - (M * (th * dot v v)) <= IZR s * rest).
    { intros th Hd. specialize (Hrest th Hd). assert (Rabs (IZR s * rest) <= M * (th * dot v v)).
      { rewrite Rabs_mult. destruct Hs as [E|E]; rewrite E; simpl;
          [rewrite (Rabs_right 1) by lra|rewrite (Rabs_left (-1)) by lra]; lra. }
      pose proof (Rle_abs (- (IZR s * rest))) as Ha. rewrite Rabs_Ropp in Ha. lra. }
    assert (E : dot D D + IZR (- s) * dot D v + (IZR (- s) * dot D v + IZR (- s) * (IZR (- s) * dot v v)) =
      dot D D - 2 * (IZR s * f j) * dot v v - 2 * (IZR s * rest) + (IZR s * IZR s) * dot v v).
    { rewrite EDv. fold v. rewrite opp_IZR. ring. }
    rewrite E, Hs1. destruct Hgain as [Hgain|(Hz16 & Hhalf' & Hgain)].
    - left. specialize (Hr _ Hhalf).
      assert ((1 + 2 * (1 / 2 * M)) * dot v v <= 2 * (IZR s * f j) * dot v v) by (apply Rmult_le_compat_r; auto). lra.
    - right. split; [auto|]. exists (map f (seq 0 dims)). split; [rewrite map_length, seq_length; auto|]. split; [|split].
      + apply vec_ext; [rewrite latvecR_length; auto|]. intros c Hc. rewrite HDl in Hc.
        rewrite latvecR_nth by (auto; rewrite map_length, seq_length; auto). unfold D, vsub, vadd.
        rewrite (map2_nth _ _ _ _ _ _ _ 0 0) by (rewrite ?map2_length; lia). rewrite (map2_nth _ _ _ _ _ _ _ 0 0) by lia.
        unfold L. rewrite latvec_latvecR, Eq, Ep by auto. rewrite !latvecR_nth by (rewrite ?map_length; auto; lia).
        cbn [nadd nsub NumR]. unfold comb_coord. rewrite H4.
        replace (_ + _ - _) with
        (rsum (map (fun r => nth r fq 0 * nth c (nth r cell []) 0) (seq 0 dims)) +
         rsum (map (fun r => nth r (map IZR l) 0 * nth c (nth r cell []) 0) (seq 0 dims)) +
         (-1) * rsum (map (fun r => nth r fp 0 * nth c (nth r cell []) 0) (seq 0 dims))) by lra.
        rewrite <- rsum_scale, <- !rsum_plus. apply rsum_ext. intros r Hr0. apply in_seq in Hr0. rewrite (nth_map_seq f) by lia. unfold f.
        change 0 with (IZR 0) at 2. rewrite (map_nth IZR l 0%Z r). lra.
      + rewrite (nth_map_seq f) by auto. exact Hhalf'.
      + specialize (Hr _ Hth).
        assert ((1 + 2 * (theta * M)) * dot v v <= (2 * (IZR s * f j) + tau) * dot v v) by (apply Rmult_le_compat_r; auto). lra.
  Qed.
End Within.

Section Complete.
  Variables (motif cell : list (list R)) (dims : nat).
  Hypothesis Hps : pset_ok dims motif cell.
  Hypothesis Hdims4 : (dims <= 4)%nat.
  Hypothesis Hin : spread dims cell motif.

  Let P := pt dims motif cell.

  Lemma step_closer : forall p l i, In p motif -> (i < length motif)%nat ->
    length l = dims -> (4 < zsq l)%Z ->
    exists j s, (j < dims)%nat /\ (s = 1 \/ s = -1)%Z /\ (1 <= s * nth j l 0)%Z /\
      sqd p (P (upd l j (nth j l 0 - s)%Z, i)) <= sqd p (P (l, i)).
  Proof.
    intros p l i Hp Hi Hl Hz.
    destruct (step_within 0 motif cell dims (Rle_refl 0) Hps Hdims4 Hin p l i Hp Hi Hl Hz) as (j & s & Hj & Hs & Hsl & [H|(_ & c & _ & _ & _ & H)]);
      exists j, s; repeat (split; [auto|]); unfold P; lra.
  Qed.

  Lemma settled_complete : forall x k n, (2 <= n)%nat -> incl x motif ->
    settled motif cell x k dims n -> exists mx, is_max motif cell x k dims n mx /\
    forall a p, pindex dims motif a -> ~ In a (visited motif dims n) -> In p x -> mx <= sqd p (P a).
  Proof.
    intros x k n Hn Hx (mx & Hmax & Hset). exists mx. split; auto.
    intros [l i] p [Hl Hi] Hna Hp. simpl in Hl, Hi.
    assert (Hd : (1 <= dims)%nat) by (destruct Hps; auto).
    assert (Hind : forall c l, (Z.to_nat (zsq l) < c)%nat -> length l = dims ->
       ((Z.of_nat n - 1) * (Z.of_nat n - 1) < zsq l)%Z -> mx <= sqd p (P (l, i))).
    { clear l Hl Hna. induction c as [|c IH]; intros l Hc Hl Hz; [lia|].
      destruct (Z_le_gt_dec (zsq l) (Z.of_nat n * Z.of_nat n)) as [Hle|Hgt].
      - apply Hset; auto. apply idxs_In. split; auto.
        destruct (layer_spec dims n Hd) as (_ & _ & Hin'). apply Hin'. unfold in_shell. auto.
      - destruct (step_closer p l i (Hx p Hp) Hi Hl ltac:(nia)) as (j & s & Hj & Hs & Hsl & Hle).
        eapply Rle_trans; [|exact Hle].
        assert (Ez : zsq (upd l j (nth j l 0 - s)%Z) = (zsq l - 2 * (s * nth j l 0) + 1)%Z).
        { replace (nth j l 0 - s)%Z with (nth j l 0 + - s)%Z by lia. rewrite zsq_upd by lia.
          destruct Hs as [-> | ->]; lia. }
        pose proof (zsq_nonneg l). pose proof (zsq_ge l j) as Hg.
        assert (Hg' : ((s * nth j l 0) * (s * nth j l 0) <= zsq l)%Z) by (destruct Hs as [-> | ->]; lia).
        apply IH.
        + rewrite Ez. lia.
        + rewrite upd_length. auto.
        + rewrite Ez. set (a := (s * nth j l 0)%Z) in *. nia. }
    apply (Hind (S (Z.to_nat (zsq l))) l); auto.
    apply Z.nle_gt. intro Hle. apply Hna, idxs_In. split; auto.
    destruct n as [|n]; [lia|]. apply (layers_concat_In motif cell dims Hps). split; auto. nia.
  Qed.
End Complete.

Lemma idx_eq_dec : forall a b : idx, {a = b} + {a <> b}.
Proof. repeat decide equality. Defined.

Lemma visited_prefix : forall motif dims s n, (s <= n)%nat ->
  exists t, visited motif dims n = visited motif dims s ++ t.
Proof.
  intros motif dims s n H. induction H as [|n H (t & IH)].
  - exists []. rewrite app_nil_r. auto.
  - rewrite visited_S, IH. rewrite <- app_assoc. eauto.
Qed.

Lemma visited_mono : forall motif dims n n', (n <= n')%nat ->
  (length (visited motif dims n) <= length (visited motif dims n'))%nat.
Proof.
  intros motif dims n n' H. destruct (visited_prefix motif dims n n' H) as (t & ->).
  rewrite app_length. lia.
Qed.

Theorem nearest_neighbors_complete : forall dims motif cell x k fuel rows,
  pset_ok dims motif cell -> (dims <= 4)%nat ->
  spread dims cell motif -> incl x motif -> x <> [] ->
  nearest_neighbors fuel motif cell x (S k) = Done rows ->
  Forall2 (fun p r => nearest_distances dims motif cell p (S k) r) x rows.
Proof.
  intros dims motif cell x k fuel rows Hps H4 Hin Hx Hne E.
  destruct (nearest_neighbors_exact dims motif cell x k fuel Hps Hx Hne) as
    (s & Hs & _ & Hlen & [[E2 _]|(n & _ & (Hsn & Hset & _) & E2)]); rewrite E2 in E; [discriminate|].
  inversion E as [Er]. clear E E2 Er rows.
  destruct (settled_complete motif cell dims Hps H4 Hin x (S k) n ltac:(lia) Hx Hset)
    as (mx & [_ Hmax] & Hfar).
  assert (Hl : (S k <= length (visited motif dims n))%nat).
  { eapply Nat.le_trans; [|apply (visited_mono motif dims (s - 1)); lia]. lia. }
  assert (G : forall y, incl y x -> Forall2 (fun p r => nearest_distances dims motif cell p (S k) r) y
    (map (fun p => map sqrt (row_at motif cell (S k) dims n p)) y)).
  2: apply G; intros ?; auto.
  induction y as [|p y IH]; intros Hy; simpl; constructor.
  2: { apply IH. intros q Hq. apply Hy. simpl; auto. }
  assert (Hp : In p x) by (apply Hy; simpl; auto).
  exists (row_ids motif cell (S k) dims n p). split.
  - apply row_ids_spec; auto.
  - intros a d Ha Hna Hd.
    destruct (in_dec idx_eq_dec a (visited motif dims n)) as [Hv|Hv].
    + eapply row_ids_nearest; eauto.
    + apply in_map_iff in Hd as (e & <- & He).
      assert (e <= mx).
      { eapply Rle_trans; [|apply (Hmax p Hp)]. apply sorted_le_last; auto. apply kmin_sorted. }
      specialize (Hfar a p Ha Hv Hp). unfold edist. rewrite <- (pt_ppoint dims) by auto.
      rewrite <- sqd_sq_dist. apply sqrt_le_1_alt. lra.
Qed.

(** * Termination *)
Lemma exists_max : forall A (f : A -> R) l, l <> [] ->
  exists mx, (exists a, In a l /\ mx = f a) /\ forall a, In a l -> f a <= mx.
Proof.
  induction l as [|a l IH]; intros Hne; [congruence|]. destruct l as [|b l].
  - exists (f a). split; [exists a; simpl; auto|]. intros c [->|[]]; lra.
  - destruct (IH ltac:(discriminate)) as (mx & (c & Hc & E) & H).
    destruct (Rle_lt_dec (f a) mx).
    + exists mx. split; [exists c; simpl; auto|]. intros d [->|Hd]; auto.
    + exists (f a). split; [exists a; simpl; auto|]. intros d [->|Hd]; [lra|].
      specialize (H d Hd). lra.
Qed.

Lemma zsq_rsum : forall l, IZR (zsq l) = rsum (map (fun j => IZR (nth j l 0%Z) * IZR (nth j l 0%Z)) (seq 0 (length l))).
Proof.
  induction l as [|a l IH]; [reflexivity|]. rewrite zsq_cons, plus_IZR, mult_IZR, IH.
  simpl. f_equal. rewrite <- seq_shift, map_map. reflexivity.
Qed.

Lemma dual_coord : forall dims cell dual l j, length cell = dims ->
  Forall (fun r => length r = dims) cell -> dual_basis dims cell dual ->
  length l = dims -> (j < dims)%nat ->
  dot (latvec dims cell l) (nth j dual []) = IZR (nth j l 0%Z).
Proof.
  intros dims cell dual l j Hc Hcl (_ & _ & Hd) Hl Hj.
  rewrite latvec_latvecR, dot_latvecR by (rewrite ?map_length; auto; lia). rewrite Hc.
  rewrite (rsum_split dims j) by auto. rewrite <- rdot_dot, Hd, Nat.eqb_refl by auto.
  change 0 with (IZR 0) at 1. rewrite (map_nth IZR l 0%Z j).
  replace (rsum _) with 0; [lra|]. symmetry.
  transitivity (rsum (map (fun _ : nat => 0 * 0) (seq 0 dims))).
  - apply rsum_ext. intros r Hr. apply in_seq in Hr. destruct (Nat.eqb_spec r j) as [|Hne]; [lra|].
    rewrite <- rdot_dot, Hd by lia. destruct (Nat.eqb_spec r j); [congruence|]. lra.
  - rewrite rsum_scale. lra.
Qed.

(** Lattice vectors with large integer coordinates are long. *)
Lemma latvec_far : forall dims cell, length cell = dims ->
  Forall (fun r => length r = dims) cell -> nonsingular dims cell ->
  exists C, 0 < C /\ forall l, length l = dims ->
    IZR (zsq l) <= C * dot (latvec dims cell l) (latvec dims cell l).
Proof.
  intros dims cell Hc Hcl (dual & Hd).
  set (W := rsum (map (fun j => dot (nth j dual []) (nth j dual [])) (seq 0 dims))).
  assert (HW : 0 <= W).
  { unfold W. apply Rle_trans with (rsum (map (fun _ : nat => 0 * 0) (seq 0 dims))).
    - rewrite rsum_scale. lra.
    - apply rsum_le. intros. pose proof (dot_nonneg (nth a dual [])). lra. }
  exists (W + 1). split; [lra|]. intros l Hl. set (L := latvec dims cell l).
  assert (HLL := dot_nonneg L).
  assert (IZR (zsq l) <= dot L L * W); [|nra].
  rewrite zsq_rsum, Hl. unfold W. rewrite <- rsum_scale. apply rsum_le.
  intros j Hj. apply in_seq in Hj. rewrite <- (dual_coord dims cell dual l j) by (auto; lia).
  fold L. apply cauchy_schwarz.
Qed.

Lemma INR_exceeds : forall r, exists n, r < INR n.
Proof.
  intros r. destruct (archimed r) as [H _]. exists (Z.to_nat (up r)).
  destruct (Z_le_gt_dec 0 (up r)) as [Hu|Hu].
  - rewrite INR_IZR_INZ, Z2Nat.id; auto.
  - pose proof (pos_INR (Z.to_nat (up r))). assert (IZR (up r) < 0) by (apply IZR_lt; lia). lra.
Qed.

Lemma settled_exists : forall dims motif cell x k s, pset_ok dims motif cell -> nonsingular dims cell ->
  incl x motif -> x <> [] -> (1 <= k <= length (visited motif dims s))%nat ->
  exists n, (s <= n)%nat /\ settled motif cell x k dims n.
Proof.
  intros dims motif cell x k s Hps Hns Hx Hne Hk.
  destruct Hps as [H1 H2 H3 H4 H5].
  destruct (latvec_far dims cell H4 H5 Hns) as (C & HC & Hfar).
  destruct (exists_max _ (fun p => last (row_at motif cell k dims s p) 0) x Hne) as (B & _ & HB).
  destruct (exists_max _ (fun pq => dist (fst pq) (snd pq)) (list_prod motif motif)) as (D & _ & HD).
  { destruct motif; [congruence|discriminate]. }
  set (r := Rabs D + sqrt (Rabs B)).
  assert (Hr : 0 <= r) by (unfold r; pose proof (Rabs_pos D); pose proof (sqrt_pos (Rabs B)); lra).
  destruct (INR_exceeds (C * (r * r) + 1)) as (N & HN).
  exists (s + N + 2)%nat. split; [lia|]. set (n := (s + N + 2)%nat).
  destruct (exists_max _ (fun p => last (row_at motif cell k dims n p) 0) x Hne) as (mx & Hex & Hmx).
  exists mx. split; [split; auto|].
  intros [l i] p Ha Hp. apply idxs_In in Ha as [Hl Hi].
  destruct (layer_spec dims n H1) as (_ & _ & Hin). apply Hin in Hl as (Hll & _ & [Hz|Hz]); [lia|].
  assert (HmB : mx <= B).
  { destruct Hex as (q & Hq & ->). eapply Rle_trans; [|apply (HB q Hq)].
    destruct (visited_prefix motif dims s n ltac:(lia)) as (t & E). unfold row_at. rewrite E, map_app.
    apply kmin_last_mono; [lia|]. rewrite map_length. lia. }
  set (L := latvec dims cell l). set (q := nth i motif []).
  assert (Hq : In q motif) by (apply nth_In; auto).
  rewrite Forall_forall in H3.
  assert (HLlen : length L = dims) by (apply latvec_length; auto).
  assert (Hd : norm L - dist p q <= dist p (vadd q L)).
  { apply dist_translate_lower; [|rewrite (H3 q); auto].
    rewrite (H3 p), (H3 q); auto. }
  assert (HDp : dist p q <= D).
  { apply (HD (p, q)). apply in_prod; auto. }
  assert (HL : r <= norm L).
  { apply Rle_of_sq; [apply sqrt_pos|]. rewrite norm_sq.
    specialize (Hfar l Hll). fold L in Hfar.
    assert (IZR ((Z.of_nat n - 1) * (Z.of_nat n - 1)) < IZR (zsq l)) by (apply IZR_lt; auto).
    assert (INR N <= IZR ((Z.of_nat n - 1) * (Z.of_nat n - 1))).
    { rewrite INR_IZR_INZ. apply IZR_le. unfold n. nia. }
    apply (Rmult_le_reg_l C); auto. lra. }
  assert (Hdist : sqrt (Rabs B) <= dist p (vadd q L)).
  { pose proof (Rle_abs D). unfold r in HL. lra. }
  rewrite <- sqrt_sqd in Hdist. apply sqrt_le_0 in Hdist.
  - unfold pt. cbn [fst snd]. fold L q. pose proof (Rle_abs B). lra.
  - apply Rabs_pos.
  - apply sqd_nonneg.
Qed.

Lemma settled_dec : forall motif cell x k dims n, x <> [] ->
  settled motif cell x k dims n \/ ~ settled motif cell x k dims n.
Proof.
  intros motif cell x k dims n Hne.
  destruct (exists_max _ (fun p => last (row_at motif cell k dims n p) 0) x Hne) as (mx & Hex & Hmx).
  assert (G : forall l : list (idx * list R), (forall ap, In ap l -> mx <= sqd (snd ap) (pt dims motif cell (fst ap))) \/
     exists ap, In ap l /\ sqd (snd ap) (pt dims motif cell (fst ap)) < mx).
  { induction l as [|ap l [IH|(b & Hb & IH)]].
    - left. intros ? [].
    - destruct (Rle_lt_dec mx (sqd (snd ap) (pt dims motif cell (fst ap)))).
      + left. intros b [<-|Hb]; auto.
      + right. exists ap. simpl; auto.
    - right. exists b. simpl; auto. }
  destruct (G (list_prod (idxs (length motif) (layer dims n)) x)) as [H|(ap & Hap & H)].
  - left. exists mx. split; [split; auto|]. intros a p Ha Hp. apply (H (a, p)), in_prod; auto.
  - right. intros (mx' & Hmax' & H'). destruct ap as [a p]. apply in_prod_iff in Hap as [Ha Hp].
    assert (mx' = mx).
    { eapply is_max_unique; [exact Hmax'|]. split; auto. }
    subst. specialize (H' a p Ha Hp). simpl in H. lra.
Qed.

Lemma first_settled_exists : forall motif cell x k dims s n, x <> [] -> (s <= n)%nat ->
  settled motif cell x k dims n -> exists n', first_settled motif cell x k dims s n'.
Proof.
  intros motif cell x k dims s n Hne Hsn Hset.
  assert (G : forall d s', (n = s' + d)%nat -> (s <= s')%nat ->
     (forall r, (s <= r < s')%nat -> ~ settled motif cell x k dims r) ->
     exists n', first_settled motif cell x k dims s n').
  { induction d as [|d IH]; intros s' E Hs' Hno.
    - exists s'. split; auto. split; auto. replace s' with n by lia. auto.
    - destruct (settled_dec motif cell x k dims s' Hne) as [H|H].
      + exists s'. split; auto.
      + apply (IH (S s')); [lia|lia|]. intros r Hr. destruct (Nat.eq_dec r s') as [->|]; auto.
        apply Hno; lia. }
  apply (G (n - s)%nat s); try lia. 
Qed.

(** With enough iterations the search returns, and always the same rows. *)
Theorem nearest_neighbors_terminates : forall dims motif cell x k,
  pset_ok dims motif cell -> nonsingular dims cell -> incl x motif -> x <> [] ->
  exists rows fuel0, forall fuel,
    ((fuel0 <= fuel)%nat -> nearest_neighbors fuel motif cell x (S k) = Done rows) /\
    ((fuel < fuel0)%nat -> nearest_neighbors fuel motif cell x (S k) = OutOfFuel).
Proof.
  intros dims motif cell x k Hps Hns Hx Hne.
  destruct (nearest_neighbors_exact dims motif cell x k 0 Hps Hx Hne) as (s & Hs & Hst & Hl & _).
  destruct (settled_exists dims motif cell x (S k) s Hps Hns Hx Hne) as (n & Hsn & Hset).
  { split; [lia|]. eapply Nat.le_trans; [|apply (visited_mono motif dims (s - 1)); lia]. lia. }
  destruct (first_settled_exists _ _ _ _ _ s n Hne Hsn Hset) as (n' & Hf).
  exists (map (fun p => map sqrt (row_at motif cell (S k) dims n' p)) x), (S (n' - s)). intros fuel.
  destruct (nearest_neighbors_exact dims motif cell x k fuel Hps Hx Hne) as (s' & Hs' & Hst' & Hl' & H).
  assert (s' = s).
  { assert ((s' - 2)%nat = (s - 2)%nat); [|lia]. eapply stop_unique; eauto. } subst s'.
  destruct Hf as (Hf1 & Hf2 & Hf3). split; intros Hfu.
  - destruct H as [[_ H]|(n2 & H1 & H2 & E)].
    + exfalso. apply (H n'); auto. lia.
    + rewrite E. assert (n2 = n') as ->; auto.
      eapply first_settled_unique; [exact H2|]. split; auto.
  - destruct H as [[E _]|(n2 & H1 & (H2 & H3 & _) & E)]; auto.
    exfalso. apply (Hf3 n2); auto. lia.
Qed.
