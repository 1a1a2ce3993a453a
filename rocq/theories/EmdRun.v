(** The integer data computed from real weights and costs, and what network_simplex returns. *)
From Coq Require Import List ZArith Arith Bool Reals Lia Lra.
From Verif Require Import Num Outcome Base NNModel CalcModel EmdModel VecR Sums SpecEmd EmdInit EmdCert EmdMain EmdReal.
Import ListNotations.
Open Scope R_scope.

(** * Truncation *)
Lemma trunc_spec : forall r, 0 <= r -> IZR (trunc r) <= r < IZR (trunc r) + 1 /\ (0 <= trunc r)%Z.
Proof.
  intros r Hr. unfold trunc. destruct (Rle_dec 0 r); [|lra]. destruct (base_Int_part r) as [H1 H2].
  split; [lra|]. assert (-1 < IZR (Int_part r)) by lra. apply lt_IZR in H. lia.
Qed.

Lemma trunc_mono : forall r s, 0 <= r <= s -> (trunc r <= trunc s)%Z.
Proof.
  intros r s H. destruct (trunc_spec r ltac:(lra)) as [[] _], (trunc_spec s ltac:(lra)) as [[] _].
  assert (IZR (trunc r) < IZR (trunc s) + 1) by lra. rewrite <- plus_IZR in H4. apply lt_IZR in H4. lia.
Qed.

Lemma trunc_eq : forall r z, (0 <= z)%Z -> IZR z <= r < IZR z + 1 -> trunc r = z.
Proof.
  intros r z Hz H. apply IZR_le in Hz. destruct (trunc_spec r ltac:(lra)) as [[] _].
  assert (IZR (trunc r) < IZR z + 1) by lra. assert (IZR z < IZR (trunc r) + 1) by lra.
  rewrite <- plus_IZR in H2, H3. apply lt_IZR in H2, H3. lia.
Qed.

Lemma to_fp_spec : forall r, 0 <= r -> IZR (to_fp r) <= r * 100000000 < IZR (to_fp r) + 1 /\ (0 <= to_fp r)%Z.
Proof. intros r Hr. apply trunc_spec. unfold fp_multiplier. lra. Qed.

Lemma to_fp_mono : forall r s, 0 <= r <= s -> (to_fp r <= to_fp s)%Z.
Proof. intros r s H. apply trunc_mono. unfold fp_multiplier. lra. Qed.

Lemma to_fp_min : forall r s, 0 <= r -> 0 <= s -> to_fp (Rmin r s) = Z.min (to_fp r) (to_fp s).
Proof.
  intros r s Hr Hs. unfold Rmin. destruct (Rle_dec r s).
  - pose proof (to_fp_mono r s ltac:(lra)). lia.
  - pose proof (to_fp_mono s r ltac:(lra)). lia.
Qed.

(** * Balancing *)
Lemma argmax_from_spec : forall l k best m, (best < k)%nat ->
  forall (f : nat -> Z), f best = m -> (forall i, (i < k)%nat -> (f i <= m)%Z) ->
  (forall i, (i < length l)%nat -> f (k + i)%nat = nth i l 0%Z) ->
  (argmax_from k best m l < k + length l)%nat /\
  forall i, (i < k + length l)%nat -> (f i <= f (argmax_from k best m l))%Z.
Proof.
  induction l as [|a l IH]; intros k best m Hb f E1 E2 E3; cbn [argmax_from length].
  - split; [lia|]. intros i Hi. rewrite E1. apply E2. lia.
  - assert (Ea : f k = a) by (rewrite <- (Nat.add_0_r k) at 1; apply (E3 0%nat); simpl; lia).
    assert (E3' : forall i, (i < length l)%nat -> f (S k + i)%nat = nth i l 0%Z).
    { intros i Hi. replace (S k + i)%nat with (k + S i)%nat by lia. apply (E3 (S i)). simpl. lia. }
    destruct (Z.ltb_spec m a) as [K1|K1].
    + replace (k + S (length l))%nat with (S k + length l)%nat by lia. apply IH; auto.
      intros i Hi. destruct (Nat.eq_dec i k) as [->|]; [lia|]. specialize (E2 i ltac:(lia)). lia.
    + replace (k + S (length l))%nat with (S k + length l)%nat by lia. apply IH; auto.
      intros i Hi. destruct (Nat.eq_dec i k) as [->|]; [lia|]. specialize (E2 i ltac:(lia)). lia.
Qed.

Lemma argmax_spec : forall l, l <> [] -> (argmax l < length l)%nat /\
  forall i, (i < length l)%nat -> (nth i l 0 <= nth (argmax l) l 0)%Z.
Proof.
  intros [|a l] H; [congruence|]. cbn [argmax].
  apply (argmax_from_spec l 1 0 a ltac:(lia) (fun i => nth i (a :: l) 0%Z)); auto.
  intros i Hi. replace i with 0%nat by lia. simpl. lia.
Qed.

Lemma nth_upd : forall (l : list Z) k v i, (k < length l)%nat -> nth i (upd l k v) 0%Z = if Nat.eqb i k then v else nth i l 0%Z.
Proof.
  induction l as [|a l IH]; intros k v i Hk; [simpl in Hk; lia|]. destruct k, i; cbn [upd nth Nat.eqb]; auto.
  apply IH. simpl in Hk. lia.
Qed.

Lemma upd_len : forall (l : list Z) k v, length (upd l k v) = length l.
Proof. induction l as [|a l IH]; intros [|k] v; cbn [upd length]; auto. Qed.

Lemma zsum_upd : forall (l : list Z) k v, (k < length l)%nat -> zsum (upd l k v) = (zsum l - nth k l 0 + v)%Z.
Proof.
  induction l as [|a l IH]; intros k v Hk; [simpl in Hk; lia|]. destruct k; cbn [upd nth zsum fold_right]; [lia|].
  change (fold_right Z.add 0%Z) with zsum. rewrite IH by (simpl in Hk; lia). lia.
Qed.

Lemma zsum_ZSum : forall l, zsum l = ZSum (length l) (fun i => nth i l 0%Z).
Proof.
  induction l as [|a l IH] using rev_ind; [reflexivity|]. rewrite zsum_app, app_length, Nat.add_comm. cbn [length Nat.add ZSum].
  rewrite app_nth2, Nat.sub_diag by lia. cbn [nth zsum fold_right].
  rewrite IH, Z.add_0_r. f_equal. apply ZSum_ext. intros i Hi. now rewrite app_nth1.
Qed.

Definition lead (l : list Z) (k : nat) : Prop :=
  (k < length l)%nat /\ forall i, (i < length l)%nat -> (nth i l 0 <= nth k l 0)%Z.

Record evened (a b src snk : list Z) (k1 k2 : nat) (d1 d2 : Z) : Prop := {
  e_k1 : lead a k1; e_k2 : lead b k2;
  e_l1 : length src = length a; e_l2 : length snk = length b;
  e_src : forall i, nth i src 0%Z = (nth i a 0 + (if Nat.eqb i k1 then d1 else 0))%Z;
  e_snk : forall i, nth i snk 0%Z = (nth i b 0 + (if Nat.eqb i k2 then d2 else 0))%Z;
  e_d1 : (0 <= d1)%Z; e_d2 : (0 <= d2)%Z; e_one : d1 = 0%Z \/ d2 = 0%Z;
  e_sum1 : zsum src = (zsum a + d1)%Z; e_sum2 : zsum snk = (zsum b + d2)%Z;
  e_sum : (zsum a + d1 = zsum b + d2)%Z
}.

Lemma balance_spec : forall a b, a <> [] -> b <> [] ->
  evened a b (fst (balance a b)) (snd (balance a b)) (argmax a) (argmax b)
    (Z.max 0 (zsum b - zsum a)) (Z.max 0 (zsum a - zsum b)).
Proof.
  intros a b Ha Hb. destruct (argmax_spec a Ha) as [A1 A2], (argmax_spec b Hb) as [B1 B2].
  unfold balance. cbv zeta.
  assert (Hadd : forall l d, (argmax l < length l)%nat -> forall i, nth i (add_at_max l d) 0%Z = (nth i l 0 + (if Nat.eqb i (argmax l) then d else 0))%Z).
  { intros l d H i. unfold add_at_max. rewrite nth_upd by auto. destruct (Nat.eqb_spec i (argmax l)) as [->|]; lia. }
  assert (Hz : forall l k, (nth k l 0 = nth k l 0 + (if Nat.eqb k (argmax l) then 0 else 0))%Z).
  { intros l k. destruct (Nat.eqb k (argmax l)); lia. }
  destruct (Z.ltb_spec 0 (zsum b - zsum a)) as [K1|K1]; [|destruct (Z.ltb_spec (zsum b - zsum a) 0) as [K2|K2]]; cbn [fst snd].
  - replace (Z.max 0 (zsum b - zsum a)) with (zsum b - zsum a)%Z by lia. replace (Z.max 0 (zsum a - zsum b)) with 0%Z by lia.
    constructor; auto; try (split; assumption); try lia.
    + unfold add_at_max. apply upd_len.
    + unfold add_at_max. rewrite zsum_upd by auto. lia.
  - replace (Z.max 0 (zsum a - zsum b)) with (- (zsum b - zsum a))%Z by lia. replace (Z.max 0 (zsum b - zsum a)) with 0%Z by lia.
    constructor; auto; try (split; assumption); try lia.
    + unfold add_at_max. apply upd_len.
    + unfold add_at_max. rewrite zsum_upd by auto. lia.
  - replace (Z.max 0 (zsum a - zsum b)) with 0%Z by lia. replace (Z.max 0 (zsum b - zsum a)) with 0%Z by lia.
    constructor; auto; try (split; assumption); try lia.
Qed.

(** * Lists and sums *)
Lemma nth_concat : forall (A : Type) (c : list (list A)) m i j (d : A), Forall (fun r => length r = m) c ->
  (i < length c)%nat -> (j < m)%nat -> nth (i * m + j) (concat c) d = nth j (nth i c []) d.
Proof.
  induction c as [|r c IH]; intros m i j d Hf Hi Hj; [simpl in Hi; lia|]. inversion Hf as [|? ? H1 H2]; subst. cbn [concat].
  destruct i as [|i]; [cbn [Nat.mul Nat.add nth]; now rewrite app_nth1|].
  rewrite app_nth2 by lia. replace (S i * length r + j - length r)%nat with (i * length r + j)%nat by lia.
  cbn [nth]. apply IH; auto. simpl in Hi. lia.
Qed.

Lemma concat_len : forall (A : Type) (c : list (list A)) m, Forall (fun r => length r = m) c -> length (concat c) = (length c * m)%nat.
Proof.
  induction c as [|r c IH]; intros m Hf; [reflexivity|]. inversion Hf as [|? ? H1 H2]; subst. cbn [concat length].
  rewrite app_length, (IH (length r)) by auto. lia.
Qed.

Lemma dot_Sum : forall k u v, length u = k -> length v = k -> dot u v = Sum k (fun i => nth i u 0 * nth i v 0).
Proof.
  intros k u. revert k. induction u as [|a u IH] using rev_ind; intros k v H1 H2.
  - simpl in H1. subst k. destruct v; [|simpl in H2; lia]. reflexivity.
  - rewrite app_length, Nat.add_comm in H1. cbn [length Nat.add] in H1.
    destruct (exists_last (l := v) ltac:(intros ->; simpl in H2; lia)) as (v' & b & ->).
    rewrite app_length, Nat.add_comm in H2. cbn [length Nat.add] in H2.
    destruct k as [|k]; [lia|]. cbn [Sum].
    assert (E : dot (u ++ [a]) (v' ++ [b]) = dot u v' + a * b).
    { assert (Hl : length u = length v') by lia. clear - Hl. revert v' Hl. induction u as [|x u IH]; intros [|y v'] Hl; simpl in Hl; try lia.
      - unfold dot. simpl. lra.
      - cbn [app]. rewrite !dot_cons, IH by lia. lra. }
    rewrite E, (IH k v') by lia. f_equal.
    + apply Sum_ext. intros i Hi. now rewrite !app_nth1 by lia.
    + rewrite !app_nth2 by lia. replace (k - length u)%nat with 0%nat by lia. replace (k - length v')%nat with 0%nat by lia. reflexivity.
Qed.

Lemma Sum_app : forall k l f, Sum (k + l) f = Sum k f + Sum l (fun i => f (k + i)%nat).
Proof.
  intros k l f. induction l as [|l IH]; [rewrite Nat.add_0_r; simpl; lra|].
  rewrite Nat.add_succ_r. cbn [Sum]. rewrite IH. lra.
Qed.

Lemma Sum_rect : forall n1 n2 f, Sum (n1 * n2) f = Sum n1 (fun i => Sum n2 (fun j => f (i * n2 + j)%nat)).
Proof.
  induction n1 as [|n1 IH]; intros n2 f; [reflexivity|]. replace (S n1 * n2)%nat with (n1 * n2 + n2)%nat by lia.
  rewrite Sum_app, IH. reflexivity.
Qed.

Lemma skipn_nth : forall (A : Type) k (l : list A) i d, nth i (skipn k l) d = nth (k + i) l d.
Proof. induction k as [|k IH]; intros [|a l] i d; simpl; auto. destruct i; auto. Qed.
Lemma firstn_nth : forall (A : Type) k (l : list A) i d, (i < k)%nat -> nth i (firstn k l) d = nth i l d.
Proof. induction k as [|k IH]; intros [|a l] i d H; simpl; auto; [lia|]. destruct i; auto. apply IH. lia. Qed.

Lemma reshape_spec : forall n1 n2 l, length l = (n1 * n2)%nat ->
  length (reshape n1 n2 l) = n1 /\ Forall (fun r => length r = n2) (reshape n1 n2 l) /\
  forall i j, (i < n1)%nat -> (j < n2)%nat -> mx (reshape n1 n2 l) i j = nth (i * n2 + j) l 0.
Proof.
  induction n1 as [|n1 IH]; intros n2 l Hl; [split; [reflexivity|split; [constructor|intros; lia]]|].
  destruct (IH n2 (skipn n2 l)) as (H1 & H2 & H3). { rewrite skipn_length. lia. }
  cbn [reshape length]. split; [lia|]. split.
  - constructor; auto. rewrite firstn_length. lia.
  - intros i j Hi Hj. unfold mx. destruct i as [|i]; cbn [nth].
    + rewrite firstn_nth by auto. reflexivity.
    + change (nth j (nth i (reshape n1 n2 (skipn n2 l)) []) 0) with (mx (reshape n1 n2 (skipn n2 l)) i j).
      rewrite H3 by lia. rewrite skipn_nth. f_equal. lia.
Qed.

(** * The run *)
(** Weights of sum at most 1: enough for the solver to run. *)
Record light (w : list R) : Prop := {
  l_ne : w <> [];
  l_min : Forall (fun x => 1 / 100000000 <= x) w;
  l_sum : Sum (length w) (vx w) <= 1
}.
Lemma weights_light : forall w, weights w -> light w.
Proof. intros w [A B C]. constructor; auto. lra. Qed.
Coercion weights_light : weights >-> light.
Global Hint Resolve weights_light : core.

Definition iw (w : list R) (i : nat) : Z := nth i (map to_fp w) 0%Z.

Lemma to_fp_0 : to_fp 0 = 0%Z.
Proof. apply trunc_eq; [lia|]. unfold fp_multiplier. lra. Qed.

Lemma iw_eq : forall w i, iw w i = to_fp (vx w i).
Proof. intros w i. unfold iw, vx. rewrite <- to_fp_0 at 1. apply map_nth. Qed.

Lemma vx_min : forall w i, light w -> (i < length w)%nat -> 1 / 100000000 <= vx w i.
Proof. intros w i H Hi. pose proof (l_min _ H) as F. rewrite Forall_forall in F. apply F, nth_In, Hi. Qed.

Lemma iw_spec : forall w i, light w -> (i < length w)%nat ->
  IZR (iw w i) <= vx w i * 100000000 < IZR (iw w i) + 1 /\ (1 <= iw w i)%Z.
Proof.
  intros w i H Hi. pose proof (vx_min w i H Hi) as M. rewrite iw_eq. destruct (to_fp_spec (vx w i) ltac:(lra)) as [S _].
  split; auto. assert (IZR 0 < IZR (to_fp (vx w i))) as L.
  { assert (1 < IZR (to_fp (vx w i)) + 1) by lra. lra. }
  apply lt_IZR in L. lia.
Qed.

Lemma zsum_iw : forall w, zsum (map to_fp w) = ZSum (length w) (iw w).
Proof. intros w. rewrite zsum_ZSum, map_length. reflexivity. Qed.

Lemma iw_le : forall w, light w -> (Z.of_nat (length w) <= ZSum (length w) (iw w) <= FP)%Z.
Proof.
  intros w H.
  assert (L : Sum (length w) (fun i => IZR (iw w i)) <= 100000000).
  { apply Rle_trans with (Sum (length w) (fun i => vx w i * 100000000)).
    - apply Sum_le. intros i Hi. apply iw_spec; auto.
    - rewrite Sum_scal_r. pose proof (l_sum _ H). lra. }
  rewrite <- IZR_ZSum in L. split; [|apply le_IZR; exact L].
  replace (Z.of_nat (length w)) with (ZSum (length w) (fun _ => 1%Z)) by (rewrite ZSum_const; lia).
  apply ZSum_le. intros i Hi. apply iw_spec; auto.
Qed.

Lemma iw_sum : forall w, weights w ->
  (Z.of_nat (length w) <= ZSum (length w) (iw w) <= FP)%Z /\ (FP - Z.of_nat (length w) < ZSum (length w) (iw w))%Z.
Proof.
  intros w H.
  assert (L : Sum (length w) (fun i => IZR (iw w i)) <= 100000000).
  { replace 100000000 with (Sum (length w) (fun i => vx w i * 100000000)).
    - apply Sum_le. intros i Hi. apply iw_spec; auto.
    - rewrite Sum_scal_r, (w_sum _ H). lra. }
  assert (P : (1 <= length w)%nat) by (destruct w; [destruct (w_ne _ H); auto|simpl; lia]).
  assert (U : 100000000 < Sum (length w) (fun i => IZR (iw w i)) + INR (length w)).
  { replace 100000000 with (Sum (length w) (fun i => vx w i * 100000000)) by (rewrite Sum_scal_r, (w_sum _ H); lra).
    rewrite <- (Rmult_1_r (INR _)), <- (Sum_const (length w) 1), <- Sum_plus.
    assert (G : forall m, (1 <= m <= length w)%nat -> Sum m (fun i => vx w i * 100000000) < Sum m (fun i => IZR (iw w i) + 1)).
    { induction m as [|m IHm]; intros Hm; [lia|]. cbn [Sum]. pose proof (iw_spec w m H ltac:(lia)) as [[_ S] _].
      destruct m; [cbn [Sum]; lra|]. specialize (IHm ltac:(lia)). lra. }
    apply G. lia. }
  rewrite <- IZR_ZSum in L, U. split; [split|].
  - replace (Z.of_nat (length w)) with (ZSum (length w) (fun _ => 1%Z)) by (rewrite ZSum_const; lia).
    apply ZSum_le. intros i Hi. apply iw_spec; auto.
  - apply le_IZR. exact L.
  - rewrite INR_IZR_INZ, <- plus_IZR in U. apply lt_IZR in U. unfold FP. lia.
Qed.

(** The row that is enlarged, and by how much. *)
Definition top (w : list R) : nat := argmax (map to_fp w).
Definition gap (w w' : list R) : Z := Z.max 0 (ZSum (length w') (iw w') - ZSum (length w) (iw w)).

Lemma weights_pos : forall w, light w -> (1 <= length w)%nat.
Proof. intros w H. destruct w; [destruct (l_ne _ H); auto|simpl; lia]. Qed.

Lemma top_lt : forall w, light w -> (top w < length w)%nat.
Proof.
  intros w H. pose proof (weights_pos w H). rewrite <- (map_length to_fp w). apply argmax_spec.
  destruct w; [simpl in *; lia|discriminate].
Qed.
Lemma top_max : forall w i, light w -> (i < length w)%nat -> (iw w i <= iw w (top w))%Z.
Proof.
  intros w i H Hi. pose proof (weights_pos w H). apply argmax_spec; [|now rewrite map_length].
  destruct w; [simpl in *; lia|discriminate].
Qed.
Lemma gap_nonneg : forall w w', (0 <= gap w w')%Z.
Proof. intros. unfold gap. lia. Qed.
Lemma gap_lt : forall w w', weights w -> weights w' -> (gap w w' < Z.of_nat (length w))%Z.
Proof.
  intros w w' H H'. pose proof (weights_pos w H). destruct (iw_sum w H) as [_ L], (iw_sum w' H') as [[_ U] _]. unfold gap. lia.
Qed.
Lemma gap_sum : forall w w', (ZSum (length w) (iw w) + gap w w' = ZSum (length w') (iw w') + gap w' w)%Z.
Proof. intros. unfold gap. lia. Qed.
Lemma gap_one : forall w w', gap w w' = 0%Z \/ gap w' w = 0%Z.
Proof. intros. unfold gap. lia. Qed.

Definition enlarged (w w' : list R) (i : nat) : Z := (iw w i + (if Nat.eqb i (top w) then gap w w' else 0))%Z.

(** [X] is an optimal flow of the integer problem. *)
Definition run (w1 w2 : list R) (c : nat -> nat -> R) (X : nat -> nat -> Z) : Prop :=
  exists ls ld ps pd big,
    cert (length w1) (length w2) (enlarged w1 w2) (enlarged w2 w1)
      (fun i j => to_fp (c i j)) (fun i j => Z.min (iw w1 i) (iw w2 j)) X ls ld ps pd big.

Section Run.
  Variables (w1 w2 : list R) (c : list (list R)).
  Hypothesis W1 : light w1.
  Hypothesis W2 : light w2.
  Hypothesis HC : cost_matrix (length w1) (length w2) c.
  Notation n1 := (length w1).
  Notation n2 := (length w2).

  Notation src := (fst (balance (map to_fp w1) (map to_fp w2))).
  Notation snk := (snd (balance (map to_fp w1) (map to_fp w2))).
  Notation icost := (map to_fp (concat c)).
  Notation icap := (int_caps w1 w2).

  Lemma ev : evened (map to_fp w1) (map to_fp w2) src snk (argmax (map to_fp w1)) (argmax (map to_fp w2))
    (Z.max 0 (ZSum n2 (iw w2) - ZSum n1 (iw w1))) (Z.max 0 (ZSum n1 (iw w1) - ZSum n2 (iw w2))).
  Proof.
    rewrite <- !zsum_iw. apply balance_spec.
    - destruct w1; [destruct (l_ne _ W1); auto|discriminate].
    - destruct w2; [destruct (l_ne _ W2); auto|discriminate].
  Qed.

  Lemma src_len : length src = n1.
  Proof. rewrite (e_l1 _ _ _ _ _ _ _ _ ev). apply map_length. Qed.
  Lemma snk_len : length snk = n2.
  Proof. rewrite (e_l2 _ _ _ _ _ _ _ _ ev). apply map_length. Qed.

  Lemma icost_ent : forall i j, (i < n1)%nat -> (j < n2)%nat -> nth (i * n2 + j) icost 0%Z = to_fp (mx c i j).
  Proof.
    intros i j Hi Hj. rewrite <- to_fp_0 at 1. rewrite map_nth. f_equal. rewrite (nth_concat R c n2); auto.
    - apply HC.
    - now rewrite (cm_rows _ _ _ HC).
  Qed.

  Lemma icap_ent : forall i j, (i < n1)%nat -> (j < n2)%nat -> nth (i * n2 + j) icap 0%Z = Z.min (iw w1 i) (iw w2 j).
  Proof.
    intros i j Hi Hj. unfold int_caps. rewrite (nth_rect R R Z (fun a b => to_fp (Rmin a b)) w2 w1 i j 0 0) by auto.
    pose proof (vx_min w1 i W1 Hi) as M1. pose proof (vx_min w2 j W2 Hj) as M2.
    rewrite !iw_eq. apply to_fp_min; unfold vx in *; lra.
  Qed.

  Lemma balanced_run : balanced src snk icost icap.
  Proof.
    pose proof ev as [[k1 k1'] [k2 k2'] L1 L2 Es Ed D1 D2 Ho S1 S2 S]. rewrite map_length in L1, L2.
    assert (P1 : (1 <= n1)%nat) by (destruct w1; [destruct (l_ne _ W1); auto|simpl; lia]).
    assert (P2 : (1 <= n2)%nat) by (destruct w2; [destruct (l_ne _ W2); auto|simpl; lia]).
    destruct (iw_le w1 W1) as [_ U1], (iw_le w2 W2) as [_ U2].
    assert (Gs : forall i, (i < n1)%nat -> (iw w1 i <= nth i src 0)%Z).
    { intros i Hi. rewrite Es. unfold iw. destruct (Nat.eqb i _); lia. }
    assert (Gd : forall i, (i < n2)%nat -> (iw w2 i <= nth i snk 0)%Z).
    { intros i Hi. rewrite Ed. unfold iw. destruct (Nat.eqb i _); lia. }
    constructor.
    - intros E. rewrite E in L1. simpl in L1. lia.
    - intros E. rewrite E in L2. simpl in L2. lia.
    - apply Forall_forall. intros x Hx. apply (In_nth _ _ 0%Z) in Hx as (i & Hi & <-). rewrite L1 in Hi.
      specialize (Gs i Hi). destruct (iw_spec w1 i W1 Hi). lia.
    - apply Forall_forall. intros x Hx. apply (In_nth _ _ 0%Z) in Hx as (i & Hi & <-). rewrite L2 in Hi.
      specialize (Gd i Hi). destruct (iw_spec w2 i W2 Hi). lia.
    - lia.
    - rewrite S1, zsum_iw. lia.
    - rewrite map_length, L1, L2, (concat_len R c n2) by apply HC. now rewrite (cm_rows _ _ _ HC).
    - rewrite L1, L2. apply rect_length.
    - apply Forall_forall. intros x Hx. apply (In_nth _ _ 0%Z) in Hx as (k & Hk & <-).
      rewrite map_length, (concat_len R c n2), (cm_rows _ _ _ HC) in Hk by apply HC.
      assert (n2 <> 0)%nat by lia.
      pose proof (Nat.div_mod k n2 H) as E. pose proof (Nat.mod_upper_bound k n2 H) as Hb.
      assert (k / n2 < n1)%nat by (apply Nat.div_lt_upper_bound; lia).
      replace k with (k / n2 * n2 + k mod n2)%nat by lia. rewrite icost_ent by auto. apply to_fp_spec. apply HC; auto.
    - intros i j Hi Hj. rewrite L1 in Hi. rewrite L2 in Hj |- *. rewrite icap_ent by auto.
      specialize (Gs i Hi). specialize (Gd j Hj). destruct (iw_spec w1 i W1 Hi), (iw_spec w2 j W2 Hj). lia.
  Qed.

  (** Enough pivots. *)
  Definition run_bound : Z := pivot_bound src snk icost icap.

  Lemma cert_ext : forall m1 m2 A A' B B' C C' U U' X ls ld ps pd big,
    (forall i, (i < m1)%nat -> A i = A' i) -> (forall j, (j < m2)%nat -> B j = B' j) ->
    (forall i j, (i < m1)%nat -> (j < m2)%nat -> C i j = C' i j) -> (forall i j, (i < m1)%nat -> (j < m2)%nat -> U i j = U' i j) ->
    cert m1 m2 A B C U X ls ld ps pd big -> cert m1 m2 A' B' C' U' X ls ld ps pd big.
  Proof.
    intros m1 m2 A A' B B' C C' U U' X ls ld ps pd big EA EB EC EU [q1 q2 q3 q4 q5 q6 q7 [q8 q9] q10 q11 q12].
    constructor; auto.
    - intros i j Hi Hj. rewrite <- EU by auto. auto.
    - intros i Hi. rewrite <- EA by auto. auto.
    - intros j Hj. rewrite <- EB by auto. auto.
    - constructor; intros i j Hi Hj; [rewrite <- EU, <- EC by auto | rewrite <- EC by auto]; auto.
    - intros i j Hi Hj. rewrite <- EC by auto. auto.
    - rewrite (ZSum_ext m1 _ (fun i => ZSum m2 (fun j => C i j))); auto. intros i Hi. apply ZSum_ext. intros j Hj. symmetry. auto.
    - rewrite <- (ZSum_ext m1 A A'), <- (ZSum_ext m2 B B') by auto. auto.
  Qed.

  Definition planR (X : nat -> nat -> Z) (i j : nat) : R := IZR (X i j) / 100000000.

  (** The flows found by the solver. *)
  Theorem simplex_run : forall fuel, (run_bound < Z.of_nat fuel)%Z ->
    exists fl, simplex fuel src snk icost icap = Done fl /\ length fl = (n1 * n2)%nat /\
      run w1 w2 (mx c) (fun i j => nth (i * n2 + j) fl 0%Z).
  Proof.
    intros fuel Hf. pose proof balanced_run as BR.
    set (cm := maxz icost).
    destruct (simplex_cert src snk icost icap BR fuel cm Hf) as (fl & ls & ld & ps & pd & D & E & Lf & K & _).
    { apply Forall_forall. intros x Hx. now apply maxz_ge. }
    rewrite src_len, snk_len in *.
    pose proof ev as EV. pose proof EV as [[k1 k1'] [k2 k2'] L1 L2 Es Ed Dp1 Dp2 Ho S1 S2 S]. rewrite map_length in *.
    exists fl. split; [exact E|]. split; [exact Lf|].
    exists ls, ld, ps, pd, (faux_inf src snk icost icap).
    assert (EX : forall i j, ent snk fl i j = nth (i * n2 + j) fl 0%Z) by (intros; unfold ent; now rewrite snk_len).
    assert (K' : cert n1 n2 (fun i => nth i src 0%Z) (fun j => nth j snk 0%Z) (ent snk icost) (ent snk icap) (fun i j => nth (i * n2 + j) fl 0%Z) ls ld ps pd (faux_inf src snk icost icap)).
    { revert K. unfold ent. rewrite snk_len. auto. }
    eapply cert_ext; [| | | |exact K'].
    - intros i Hi. cbv beta. rewrite Es. reflexivity.
    - intros j Hj. cbv beta. rewrite Ed. reflexivity.
    - intros i j Hi Hj. unfold ent. rewrite snk_len. now apply icost_ent.
    - intros i j Hi Hj. unfold ent. rewrite snk_len. now apply icap_ent.
  Qed.

  Lemma nth_of_fp : forall (l : list Z) k, nth k (map of_fp l) 0 = of_fp (nth k l 0%Z).
  Proof. intros l k. transitivity (nth k (map of_fp l) (of_fp 0)); [|apply map_nth]. f_equal. unfold of_fp. lra. Qed.

  Theorem network_simplex_run : forall fuel, (run_bound < Z.of_nat fuel)%Z ->
    exists v plan X,
      network_simplex fuel w1 w2 c = Done (v, plan) /\
      length plan = n1 /\ Forall (fun r => length r = n2) plan /\
      (forall i j, (i < n1)%nat -> (j < n2)%nat -> mx plan i j = planR X i j) /\
      v = transport_cost n1 n2 (fun i j => of_fp (to_fp (mx c i j))) (planR X) /\
      run w1 w2 (mx c) X.
  Proof.
    intros fuel Hf. destruct (simplex_run fuel Hf) as (fl & E & Lf & HR).
    destruct (reshape_spec n1 n2 (map of_fp fl)) as (R1 & R2 & R3); [now rewrite map_length|].
    exists (dot (map of_fp fl) (map of_fp icost)), (reshape n1 n2 (map of_fp fl)), (fun i j => nth (i * n2 + j) fl 0%Z).
    split. { unfold network_simplex. destruct (balance (map to_fp w1) (map to_fp w2)) as [s t]. cbn [fst snd] in *. rewrite E. reflexivity. }
    split; [exact R1|]. split; [exact R2|].
    split. { intros i j Hi Hj. rewrite R3 by auto. rewrite nth_of_fp. reflexivity. }
    split; [|exact HR].
    rewrite (dot_Sum (n1 * n2)).
    2: { now rewrite map_length. }
    2: { rewrite !map_length, (concat_len R c n2) by apply HC. now rewrite (cm_rows _ _ _ HC). }
    rewrite Sum_rect. unfold transport_cost. apply Sum_ext. intros i Hi. apply Sum_ext. intros j Hj.
    rewrite !nth_of_fp, icost_ent by auto. unfold planR. unfold of_fp, fp_multiplier. lra.
  Qed.
End Run.
