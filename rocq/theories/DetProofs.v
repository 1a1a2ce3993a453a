(** Determinants: alternating forms, uniqueness, products, integer matrices. *)
From Coq Require Import List ZArith Arith Reals Lia Lra.
From Verif Require Import SpecDet.
Import ListNotations.
Open Scope R_scope.

Lemma sigma_ext : forall n f g, (forall i, (i < n)%nat -> f i = g i) -> sigma n f = sigma n g.
Proof. induction n as [|n IH]; intros f g H; cbn; auto. rewrite (IH f g), H by auto with arith. auto. Qed.
Lemma sigma_lin : forall n c f g, sigma n (fun i => c * f i + g i) = c * sigma n f + sigma n g.
Proof. induction n as [|n IH]; intros; cbn; [ring|]. rewrite IH. ring. Qed.
Lemma sigma_zero : forall n f, (forall i, (i < n)%nat -> f i = 0) -> sigma n f = 0.
Proof. induction n as [|n IH]; intros f H; cbn; auto. rewrite IH, H by auto with arith. ring. Qed.
Lemma sigma_one : forall n f k, (k < n)%nat -> (forall i, (i < n)%nat -> i <> k -> f i = 0) -> sigma n f = f k.
Proof.
  induction n as [|n IH]; intros f k Hk H; [lia|]. cbn. destruct (Nat.eq_dec k n) as [->|N].
  - rewrite sigma_zero; [ring|]. intros; apply H; lia.
  - rewrite (IH f k) by (try lia; intros; apply H; lia). rewrite (H n) by lia. ring.
Qed.
Lemma sigma_two : forall n f a b, (a < n)%nat -> (b < n)%nat -> a <> b -> (forall i, (i < n)%nat -> i <> a -> i <> b -> f i = 0) -> sigma n f = f a + f b.
Proof.
  induction n as [|n IH]; intros f a b Ha Hb N H; [lia|]. cbn. destruct (Nat.eq_dec a n) as [->|Na]; [|destruct (Nat.eq_dec b n) as [->|Nb]].
  - rewrite (sigma_one n f b); [ring|lia|]. intros; apply H; lia.
  - rewrite (sigma_one n f a); [ring|lia|]. intros; apply H; lia.
  - rewrite (IH f a b); try lia; [|intros; apply H; lia]. rewrite (H n) by lia. ring.
Qed.
Lemma sigma_scale : forall n c f, sigma n (fun i => c * f i) = c * sigma n f.
Proof. induction n as [|n IH]; intros; cbn; [ring|]. rewrite IH. ring. Qed.

Definition set_row (m : nat -> nat -> R) (r : nat) (u : nat -> R) (i j : nat) : R := if (i =? r)%nat then u j else m i j.
Definition swap_rows (m : nat -> nat -> R) (a b : nat) (i j : nat) : R := m (if (i =? a)%nat then b else if (i =? b)%nat then a else i) j.

Record alternating (n : nat) (F : (nat -> nat -> R) -> R) : Prop := {
  alt_ext : forall m m', (forall i j, (i < n)%nat -> (j < n)%nat -> m i j = m' i j) -> F m = F m';
  alt_lin : forall m r c u v, (r < n)%nat -> F (set_row m r (fun j => c * u j + v j)) = c * F (set_row m r u) + F (set_row m r v);
  alt_equal : forall m r, (S r < n)%nat -> (forall j, (j < n)%nat -> m r j = m (S r) j) -> F m = 0
}.

Lemma det_ext : forall n m m', (forall i j, (i < n)%nat -> (j < n)%nat -> m i j = m' i j) -> det n m = det n m'.
Proof.
  induction n as [|n IH]; intros m m' H; auto. cbn [det]. apply sigma_ext. intros i Hi. rewrite (H i 0%nat) by lia. f_equal.
  apply IH. intros a b Ha Hb. unfold minor. apply H; destruct (Nat.ltb_spec a i); lia.
Qed.
Ltac cases := repeat match goal with
  | |- context [(?a <? ?b)%nat] => destruct (Nat.ltb_spec a b)
  | |- context [(?a =? ?b)%nat] => destruct (Nat.eqb_spec a b)
  end; try lia; auto.
Lemma minor_set : forall n m r u i, (r < S n)%nat -> (i < S n)%nat -> det n (minor i (set_row m r u)) =
  if (i =? r)%nat then det n (minor i m) else det n (set_row (minor i m) (if (r <? i)%nat then r else (r - 1)%nat) (fun j => u (S j))).
Proof.
  intros n m r u i Hr Hi. destruct (Nat.eqb_spec i r) as [->|N]; apply det_ext; intros a b Ha Hb; unfold minor, set_row; cases.
Qed.
Lemma det_alternating : forall n, alternating n (det n).
Proof.
  induction n as [|n IH].
  - split; auto; intros; lia.
  - split; [apply det_ext| |].
    + intros m r c u v Hr. cbn [det]. rewrite <- sigma_lin. apply sigma_ext. intros i Hi. rewrite !minor_set by auto.
      destruct (Nat.eqb_spec i r) as [->|N].
      * unfold set_row. rewrite Nat.eqb_refl. ring.
      * unfold set_row at 1 3 5. destruct (Nat.eqb_spec i r); [congruence|].
        rewrite (alt_lin _ _ IH (minor i m) _ c (fun j => u (S j)) (fun j => v (S j))) by (destruct (Nat.ltb_spec r i); lia). ring.
    + intros m r Hr H. cbn [det].
      rewrite (sigma_two (S n) _ r (S r)); try lia.
      * rewrite (H 0%nat) by lia. rewrite (det_ext n (minor r m) (minor (S r) m)); [cbn [pow]; ring|].
        intros a b Ha Hb. unfold minor. cases. assert (a = r) by lia. subst a. symmetry. apply H. lia.
      * intros i Hi N1 N2. rewrite (alt_equal _ _ IH (minor i m) (if (r <? i)%nat then r else (r - 1)%nat)); [ring|destruct (Nat.ltb_spec r i); lia|].
        intros j Hj. unfold minor. cases; [apply H; lia|]. replace (S (r - 1)) with r by lia. apply H. lia.
Qed.
Lemma det_unit : forall n, det n unit_matrix = 1.
Proof.
  induction n as [|n IH]; auto. cbn [det]. rewrite (sigma_one (S n) _ 0%nat); [|lia|].
  - rewrite (det_ext n (minor 0 unit_matrix) unit_matrix); [rewrite IH; unfold unit_matrix; cbn; ring|]. intros i j _ _. unfold minor, unit_matrix. cases.
  - intros i Hi N. unfold unit_matrix at 1. destruct (Nat.eqb_spec i 0); [lia|]. ring.
Qed.

Section Forms.
  Variables (n : nat) (F : (nat -> nat -> R) -> R).
  Hypothesis HF : alternating n F.
  Let ext := alt_ext n F HF.

  (** Two rows for which the form vanishes whenever they are equal can be swapped. *)
  Lemma swap_sign : forall a b, (a < n)%nat -> (b < n)%nat -> a <> b ->
    (forall m, (forall j, (j < n)%nat -> m a j = m b j) -> F m = 0) -> forall m, F (swap_rows m a b) = - F m.
  Proof.
    intros a b Ha Hb N H0 m. set (two := fun u v => set_row (set_row m a u) b v).
    assert (Z : forall u, F (two u u) = 0). { intros u. apply H0. intros j _. unfold two, set_row. cases. }
    assert (L2 : forall u v w, F (two w (fun j => 1 * u j + v j)) = 1 * F (two w u) + F (two w v)) by (intros; apply (alt_lin n F HF); auto).
    assert (L1 : forall u v w, F (two (fun j => 1 * u j + v j) w) = 1 * F (two u w) + F (two v w)).
    { intros u v w. assert (SW : forall x, F (two x w) = F (set_row (set_row m b w) a x)) by (intros x; apply ext; intros i j _ _; unfold two, set_row; cases; subst; congruence).
      rewrite !SW. apply (alt_lin n F HF); auto. }
    set (u := fun j => m a j). set (v := fun j => m b j). pose proof (Z (fun j => 1 * u j + v j)) as Q. rewrite L1, !L2, !Z in Q.
    assert (E1 : F m = F (two u v)) by (apply ext; intros i j _ _; unfold two, u, v, set_row; cases; subst; auto).
    assert (E2 : F (swap_rows m a b) = F (two v u)) by (apply ext; intros i j _ _; unfold two, u, v, set_row, swap_rows; cases; subst; auto; congruence).
    rewrite E1, E2. lra.
  Qed.
  Lemma equal_rows : forall d a m, (a + S d < n)%nat -> (forall j, (j < n)%nat -> m a j = m (a + S d)%nat j) -> F m = 0.
  Proof.
    induction d as [|d IH]; intros a m Hd H.
    - apply (alt_equal n F HF m a); [lia|]. intros j Hj. rewrite H by auto. f_equal. lia.
    - assert (SW : F (swap_rows m (a + S d) (S (a + S d))) = - F m).
      { apply swap_sign; try lia. intros m' H'. apply (alt_equal n F HF m' (a + S d)); [lia|auto]. }
      rewrite (IH a) in SW; [lra|lia|]. intros j Hj. unfold swap_rows. cases. rewrite H by auto. f_equal. lia.
  Qed.
  Lemma equal_rows' : forall a b m, (a < n)%nat -> (b < n)%nat -> a <> b -> (forall j, (j < n)%nat -> m a j = m b j) -> F m = 0.
  Proof.
    intros a b m Ha Hb N H. destruct (lt_eq_lt_dec a b) as [[L|L]|L]; [|lia|].
    - apply (equal_rows (b - a - 1) a); [lia|]. intros j Hj. rewrite H by auto. f_equal. lia.
    - apply (equal_rows (a - b - 1) b); [lia|]. intros j Hj. rewrite <- H by auto. f_equal. lia.
  Qed.
  Lemma swap_neg : forall a b m, (a < n)%nat -> (b < n)%nat -> a <> b -> F (swap_rows m a b) = - F m.
  Proof. intros. apply swap_sign; auto. intros. apply (equal_rows' a b); auto. Qed.

  Definition chosen (s : nat -> nat) (i j : nat) : R := unit_matrix (s i) j.
  Lemma pigeon : forall s k, (forall i, (i < n)%nat -> (s i < n)%nat) -> (k < n)%nat -> (forall i, (i < n)%nat -> s i <> k) ->
    exists a b, (a < n)%nat /\ (b < n)%nat /\ a <> b /\ s a = s b.
  Proof.
    intros s k Hs Hk N.
    assert (DEC : forall p q, (p <= n)%nat -> (q <= n)%nat -> (exists a b, (a < p)%nat /\ (b < q)%nat /\ a <> b /\ s a = s b) \/ (forall a b, (a < p)%nat -> (b < q)%nat -> s a = s b -> a = b)).
    { induction p as [|p IHp]; intros q Hp Hq; [right; intros; lia|]. destruct (IHp q ltac:(lia) Hq) as [(a & b & H1 & H2 & H3)|U]; [left; exists a, b; repeat split; try lia; tauto|].
      assert (ROW : forall q, (exists b, (b < q)%nat /\ p <> b /\ s p = s b) \/ (forall b, (b < q)%nat -> s p = s b -> p = b)).
      { clear. induction q as [|q IHq]; [right; intros; lia|]. destruct IHq as [(b & H1 & H2)|U]; [left; exists b; split; [lia|auto]|].
        destruct (Nat.eq_dec p q) as [->|N]; [right; intros b Hb E; destruct (Nat.eq_dec b q); [lia|apply U; [lia|auto]]|].
        destruct (Nat.eq_dec (s p) (s q)) as [E|NE]; [left; exists q; split; [lia|auto]|]. right. intros b Hb E. destruct (Nat.eq_dec b q) as [->|]; [congruence|apply U; [lia|auto]]. }
      destruct (ROW q) as [(b & H1 & H2 & H3)|V]; [left; exists p, b; repeat split; auto; lia|]. right. intros a b Ha Hb E. destruct (Nat.eq_dec a p) as [->|]; [apply V; auto|apply U; auto; lia]. }
    destruct (DEC n n) as [Y|INJ]; auto. exfalso.
    assert (ND : forall m st, (st + m <= n)%nat -> NoDup (map s (seq st m))).
    { clear - INJ. induction m as [|m IH]; intros st H; cbn; constructor; [|apply IH; lia]. intros A. apply in_map_iff in A as (i & E & Hi). apply in_seq in Hi.
      apply INJ in E; lia. }
    assert (I : incl (seq 0 n) (map s (seq 0 n))).
    { apply NoDup_length_incl; [apply ND; lia|rewrite map_length; auto|]. intros x Hx. apply in_map_iff in Hx as (i & <- & Hi). apply in_seq in Hi. apply in_seq. specialize (Hs i). lia. }
    specialize (I k). rewrite in_seq, in_map_iff in I. destruct I as (i & E & Hi); [lia|]. apply in_seq in Hi. apply (N i); [lia|auto].
  Qed.
  Lemma chosen_zero : F unit_matrix = 0 -> forall d s, (d <= n)%nat -> (forall i, (i < n)%nat -> (s i < n)%nat) -> (forall i, (i < n - d)%nat -> s i = i) -> F (chosen s) = 0.
  Proof.
    intros F1. induction d as [|d IH]; intros s Hd Hs HI.
    - rewrite <- F1. apply ext. intros i j Hi _. unfold chosen. rewrite HI by lia. auto.
    - set (k := (n - S d)%nat). assert (FIND : (exists i, (i < n)%nat /\ s i = k) \/ (forall i, (i < n)%nat -> s i <> k)).
      { assert (G : forall p, (exists i, (i < p)%nat /\ s i = k) \/ (forall i, (i < p)%nat -> s i <> k)).
        { induction p as [|p IHp]; [right; intros; lia|]. destruct IHp as [(i & H1 & H2)|U]; [left; exists i; split; [lia|auto]|].
          destruct (Nat.eq_dec (s p) k); [left; exists p; auto|]. right. intros i Hi. destruct (Nat.eq_dec i p) as [->|]; auto. apply U. lia. }
        apply G. }
      destruct FIND as [(i & Hi & E)|NONE].
      + destruct (Nat.eq_dec i k) as [->|N].
        * apply IH; try lia; auto. intros x Hx. destruct (Nat.eq_dec x k) as [->|]; auto. apply HI. unfold k in *. lia.
        * assert (Hki : (k < i)%nat). { destruct (Nat.lt_ge_cases i k) as [L|L]; [|lia]. rewrite HI in E by (unfold k in *; lia). lia. }
          assert (Hk : (k < n)%nat) by (unfold k; lia).
          pose proof (swap_neg k i (chosen s) Hk Hi ltac:(lia)) as SW.
          set (s' := fun x => if (x =? k)%nat then k else if (x =? i)%nat then s k else s x).
          assert (Z : F (chosen s') = 0).
          { apply IH; try lia.
            - intros x Hx. unfold s'. cases.
            - intros x Hx. unfold s'. cases. apply HI. unfold k in *. lia. }
          rewrite (ext (swap_rows (chosen s) k i) (chosen s')) in SW; [lra|]. intros x y _ _. unfold swap_rows, chosen, s'. cases; rewrite E; auto.
      + destruct (pigeon s k Hs ltac:(unfold k; lia) NONE) as (a & b & Ha & Hb & N & E). apply (equal_rows' a b); auto. intros j _. unfold chosen. rewrite E. auto.
  Qed.
  Lemma row_zero : forall m r, (r < n)%nat -> F (set_row m r (fun _ => 0)) = 0.
  Proof.
    intros m r Hr. pose proof (alt_lin n F HF m r 1 (fun _ => 0) (fun _ => 0) Hr) as H. cbv beta in H.
    rewrite (ext (set_row m r (fun j => 1 * 0 + 0)) (set_row m r (fun _ => 0))) in H; [lra|]. intros i j _ _. unfold set_row. cases. ring.
  Qed.
  Lemma row_sum : forall m r p f g, (r < n)%nat -> (forall k, (k < p)%nat -> F (set_row m r (g k)) = 0) -> F (set_row m r (fun j => sigma p (fun k => f k * g k j))) = 0.
  Proof.
    intros m r p f g Hr. induction p as [|p IH]; intros H; cbn [sigma].
    - apply row_zero; auto.
    - rewrite (ext _ (set_row m r (fun j => f p * g p j + sigma p (fun k => f k * g k j)))); [|intros i j _ _; unfold set_row; cases; ring].
      rewrite (alt_lin n F HF) by auto. rewrite H by lia. rewrite IH by (intros; apply H; lia). ring.
  Qed.
  Lemma vanishes : F unit_matrix = 0 -> forall m, F m = 0.
  Proof.
    intros F1. assert (G : forall k, (k <= n)%nat -> forall m s, (forall i, (k <= i < n)%nat -> (s i < n)%nat) -> (forall i j, (k <= i < n)%nat -> (j < n)%nat -> m i j = unit_matrix (s i) j) -> F m = 0).
    { induction k as [|k IH]; intros Hk m s Hs Hm.
      - rewrite <- (chosen_zero F1 n s); try lia; [|intros; apply Hs; lia]. apply ext. intros i j Hi Hj. apply Hm; lia.
      - rewrite (ext m (set_row m k (fun j => sigma n (fun l => m k l * unit_matrix l j)))).
        + apply row_sum; [lia|]. intros l Hl. apply (IH ltac:(lia) _ (fun i => if (i =? k)%nat then l else s i)).
          * intros i Hi. cases. apply Hs. lia.
          * intros i j Hi Hj. unfold set_row. cases. apply Hm; lia.
        + intros i j Hi Hj. unfold set_row. destruct (Nat.eqb_spec i k) as [->|]; auto. rewrite (sigma_one n _ j); auto.
          * unfold unit_matrix. rewrite Nat.eqb_refl. ring.
          * intros l Hl N. unfold unit_matrix. destruct (Nat.eqb_spec l j); [congruence|ring]. }
    intros m. apply (G n (le_n n) m (fun _ => 0%nat)); intros; lia.
  Qed.
End Forms.

Lemma alternating_unique : forall n F, alternating n F -> forall m, F m = F unit_matrix * det n m.
Proof.
  intros n F HF m. pose proof (det_alternating n) as HD.
  assert (HG : alternating n (fun m => F m - F unit_matrix * det n m)).
  { split.
    - intros a b H. rewrite (alt_ext n F HF a b H), (det_ext n a b H). auto.
    - intros a r c u v Hr. rewrite (alt_lin n F HF) by auto. rewrite (alt_lin n _ HD) by auto. ring.
    - intros a r Hr H. rewrite (alt_equal n F HF a r), (alt_equal n _ HD a r) by auto. ring. }
  assert (Z := vanishes n _ HG). cbv beta in Z. rewrite det_unit in Z. specialize (Z ltac:(ring) m). lra.
Qed.
Theorem det_product : forall n u m, det n (product n u m) = det n u * det n m.
Proof.
  intros n u m. assert (HF : alternating n (fun u => det n (product n u m))).
  { split.
    - intros a b H. apply det_ext. intros i j Hi Hj. unfold product. apply sigma_ext. intros k Hk. rewrite H; auto.
    - intros a r c x y Hr.
      assert (E : forall z, det n (product n (set_row a r z) m) = det n (set_row (product n a m) r (fun j => sigma n (fun k => z k * m k j)))).
      { intros z. apply det_ext. intros i j _ _. unfold product, set_row. cases. }
      rewrite !E. rewrite <- (alt_lin n _ (det_alternating n)) by auto. apply det_ext. intros i j _ _. unfold set_row. cases. rewrite <- sigma_lin. apply sigma_ext. intros. ring.
    - intros a r Hr H. apply (alt_equal n _ (det_alternating n) _ r Hr). intros j Hj. unfold product. apply sigma_ext. intros k Hk. rewrite H; auto. }
  rewrite (alternating_unique n _ HF u). rewrite Rmult_comm. f_equal. apply det_ext. intros i j Hi Hj. unfold product. rewrite (sigma_one n _ i); auto.
  - unfold unit_matrix. rewrite Nat.eqb_refl. ring.
  - intros k Hk N. unfold unit_matrix. destruct (Nat.eqb_spec i k); [congruence|ring].
Qed.
Lemma sigma_integer : forall n f, (forall i, (i < n)%nat -> exists z, f i = IZR z) -> exists z, sigma n f = IZR z.
Proof.
  induction n as [|n IH]; intros f H; [exists 0%Z; auto|]. destruct (IH f) as (z & E); [intros; apply H; lia|]. destruct (H n ltac:(lia)) as (w & E').
  exists (z + w)%Z. cbn. rewrite E, E', plus_IZR. auto.
Qed.
Lemma det_integer : forall n m, (forall i j, (i < n)%nat -> (j < n)%nat -> exists z, m i j = IZR z) -> exists z, det n m = IZR z.
Proof.
  induction n as [|n IH]; intros m H; [exists 1%Z; auto|]. cbn [det]. apply sigma_integer. intros i Hi.
  destruct (H i 0%nat) as (a & Ea); try lia. destruct (IH (minor i m)) as (d & Ed).
  { intros x y Hx Hy. unfold minor. apply H; destruct (Nat.ltb_spec x i); lia. }
  exists ((-1) ^ Z.of_nat i * a * d)%Z. rewrite !mult_IZR, <- pow_IZR, Ea, Ed. auto.
Qed.
Lemma det_scale : forall n c m, det n (fun i j => c * m i j) = c ^ n * det n m.
Proof.
  induction n as [|n IH]; intros c m; [cbn; ring|]. cbn [det]. rewrite <- sigma_scale. apply sigma_ext. intros i Hi.
  rewrite (det_ext n (minor i (fun a b => c * m a b)) (fun a b => c * minor i m a b)) by (intros; reflexivity). rewrite IH. cbn [pow]. ring.
Qed.

(** Cofactors give a right inverse of a matrix with non-zero determinant. *)
Definition inverse_of (n : nat) (m : nat -> nat -> R) (k i : nat) : R := det n (set_row m i (unit_matrix k)) / det n m.
Lemma det_row_sum : forall n m r p f (g : nat -> nat -> R), (r < n)%nat -> det n (set_row m r (fun j => sigma p (fun k => f k * g k j))) = sigma p (fun k => f k * det n (set_row m r (g k))).
Proof.
  intros n m r p f g Hr. induction p as [|p IH]; cbn [sigma].
  - apply (row_zero n (det n) (det_alternating n)); auto.
  - rewrite (det_ext n _ (set_row m r (fun j => f p * g p j + sigma p (fun k => f k * g k j)))); [|intros i j _ _; unfold set_row; cases; ring].
    rewrite (alt_lin n _ (det_alternating n)) by auto. rewrite IH. ring.
Qed.
Lemma inverse_right : forall n m, det n m <> 0 -> forall i j, (i < n)%nat -> (j < n)%nat -> product n m (inverse_of n m) i j = unit_matrix i j.
Proof.
  intros n m H i j Hi Hj. unfold product, inverse_of.
  rewrite (sigma_ext n _ (fun k => / det n m * (m i k * det n (set_row m j (unit_matrix k))))) by (intros; field; auto).
  rewrite sigma_scale. rewrite <- (det_row_sum n m j n (fun k => m i k) unit_matrix Hj).
  rewrite (det_ext n (set_row m j (fun l => sigma n (fun k => m i k * unit_matrix k l))) (set_row m j (fun l => m i l))).
  - unfold unit_matrix. destruct (Nat.eqb_spec i j) as [->|N].
    + rewrite (det_ext n (set_row m j (fun l => m j l)) m); [field; auto|]. intros a b _ _. unfold set_row. cases; subst; auto.
    + rewrite (equal_rows' n _ (det_alternating n) i j (set_row m j (fun l => m i l))); auto; [ring|]. intros l _. unfold set_row. cases.
  - intros a b Ha Hb. unfold set_row. cases. rewrite (sigma_one n _ b); auto.
    + unfold unit_matrix. rewrite Nat.eqb_refl. ring.
    + intros k Hk N. unfold unit_matrix. destruct (Nat.eqb_spec k b); [congruence|ring].
Qed.
Lemma sigma_swap : forall n p (f : nat -> nat -> R), sigma n (fun i => sigma p (fun j => f i j)) = sigma p (fun j => sigma n (fun i => f i j)).
Proof.
  induction n as [|n IH]; intros p f; cbn [sigma]; [symmetry; apply sigma_zero; auto|]. rewrite IH.
  rewrite <- (Rmult_1_l (sigma p (fun j => sigma n (fun i => f i j)))). rewrite <- sigma_lin. apply sigma_ext. intros. ring.
Qed.
Lemma product_assoc : forall n a b c i j, product n (product n a b) c i j = product n a (product n b c) i j.
Proof.
  intros n a b c i j. unfold product.
  rewrite (sigma_ext n _ (fun k => sigma n (fun l => a i l * b l k * c k j))) by (intros; rewrite Rmult_comm, <- sigma_scale; apply sigma_ext; intros; ring).
  rewrite sigma_swap. apply sigma_ext. intros l _. rewrite <- sigma_scale. apply sigma_ext. intros. ring.
Qed.
Lemma product_ext : forall n a a' b b' i j, (forall k, (k < n)%nat -> a i k = a' i k) -> (forall k, (k < n)%nat -> b k j = b' k j) -> product n a b i j = product n a' b' i j.
Proof. intros. unfold product. apply sigma_ext. intros k Hk. rewrite H, H0; auto. Qed.
Lemma product_unit_l : forall n a i j, (i < n)%nat -> product n unit_matrix a i j = a i j.
Proof.
  intros n a i j Hi. unfold product. rewrite (sigma_one n _ i); auto.
  - unfold unit_matrix. rewrite Nat.eqb_refl. ring.
  - intros k Hk N. unfold unit_matrix. destruct (Nat.eqb_spec i k); [congruence|ring].
Qed.
Lemma product_unit_r : forall n a i j, (j < n)%nat -> product n a unit_matrix i j = a i j.
Proof.
  intros n a i j Hi. unfold product. rewrite (sigma_one n _ j); auto.
  - unfold unit_matrix. rewrite Nat.eqb_refl. ring.
  - intros k Hk N. unfold unit_matrix. destruct (Nat.eqb_spec k j); [congruence|ring].
Qed.
(** A right inverse is a left inverse. *)
Lemma inverse_two_sided : forall n m d, (forall i j, (i < n)%nat -> (j < n)%nat -> product n m d i j = unit_matrix i j) ->
  forall i j, (i < n)%nat -> (j < n)%nat -> product n d m i j = unit_matrix i j.
Proof.
  intros n m d H.
  assert (DD : det n m * det n d = 1) by (rewrite <- det_product, <- (det_unit n); apply det_ext; auto).
  assert (ND : det n d <> 0) by (intros Z; rewrite Z in DD; lra).
  pose proof (inverse_right n d ND) as HE. set (e := inverse_of n d) in *.
  assert (EM : forall i j, (i < n)%nat -> (j < n)%nat -> e i j = m i j).
  { intros i j Hi Hj. rewrite <- (product_unit_l n e i j Hi). rewrite (product_ext n unit_matrix (product n m d) e e) by (auto; intros; symmetry; auto).
    rewrite product_assoc. rewrite (product_ext n m m (product n d e) unit_matrix) by auto. apply product_unit_r; auto. }
  intros i j Hi Hj. rewrite <- HE by auto. apply product_ext; auto. intros; symmetry; auto.
Qed.
Lemma kernel_zero : forall n m v, det n m <> 0 -> (forall i, (i < n)%nat -> sigma n (fun j => m i j * v j) = 0) -> forall i, (i < n)%nat -> v i = 0.
Proof.
  intros n m v H K i Hi. pose proof (inverse_two_sided n m _ (inverse_right n m H)) as L. set (d := inverse_of n m) in *.
  assert (E : v i = product n unit_matrix (fun k _ => v k) i 0%nat) by (rewrite product_unit_l; auto). rewrite E.
  rewrite (product_ext n unit_matrix (product n d m) (fun k _ => v k) (fun k _ => v k)) by (auto; intros; symmetry; auto).
  rewrite product_assoc. unfold product at 1. apply sigma_zero. intros k Hk. unfold product. rewrite K by auto. ring.
Qed.

Definition transpose (m : nat -> nat -> R) (i j : nat) : R := m j i.
Lemma det_column_lin : forall n m r c (u v : nat -> R), (r < n)%nat ->
  det n (transpose (set_row m r (fun j => c * u j + v j))) = c * det n (transpose (set_row m r u)) + det n (transpose (set_row m r v)).
Proof.
  induction n as [|n IH]; intros m r c u v Hr; [lia|]. cbn [det]. rewrite <- sigma_lin. apply sigma_ext. intros i Hi.
  destruct r as [|r].
  - assert (E : forall w, det n (minor i (transpose (set_row m 0 w))) = det n (minor i (transpose m))) by (intros w; apply det_ext; intros a b _ _; unfold minor, transpose, set_row; cases).
    rewrite !E. assert (HD : forall w, transpose (set_row m 0 w) i 0%nat = w i) by reflexivity. rewrite !HD. ring.
  - set (sh := fun a => if (a <? i)%nat then a else S a).
    assert (E : forall w, det n (minor i (transpose (set_row m (S r) w))) = det n (transpose (set_row (fun x y => m (S x) (sh y)) r (fun y => w (sh y))))).
    { intros w. apply det_ext. intros a b _ _. unfold minor, transpose, set_row, sh. cbn [Nat.eqb]. auto. }
    rewrite !E. rewrite (IH _ r c (fun y => u (sh y)) (fun y => v (sh y))) by lia. assert (HD : forall w, transpose (set_row m (S r) w) i 0%nat = m 0%nat i) by reflexivity. rewrite !HD. ring.
Qed.
Theorem det_transpose : forall n m, det n (transpose m) = det n m.
Proof.
  intros n m. assert (HF : alternating n (fun m => det n (transpose m))).
  { split.
    - intros a b H. apply det_ext. intros i j Hi Hj. apply H; auto.
    - intros. apply det_column_lin; auto.
    - intros a r Hr H. destruct (Req_dec (det n (transpose a)) 0) as [Z|N]; auto. exfalso.
      set (v := fun j => if (j =? r)%nat then 1 else if (j =? S r)%nat then -1 else 0).
      assert (V : v r = 0).
      { apply (kernel_zero n (transpose a) v N); [|lia]. intros i Hi. rewrite (sigma_two n _ r (S r)); try lia.
        - unfold v, transpose. rewrite Nat.eqb_refl. destruct (Nat.eqb_spec (S r) r); [lia|]. rewrite Nat.eqb_refl. rewrite H by auto. ring.
        - intros k Hk N1 N2. unfold v. cases. ring. }
      unfold v in V. rewrite Nat.eqb_refl in V. lra. }
  rewrite (alternating_unique n _ HF m). rewrite (det_ext n (transpose unit_matrix) unit_matrix), det_unit; [ring|].
  intros i j _ _. unfold transpose, unit_matrix. cases.
Qed.
