(** Facts about transport plans: trimming, completing, composing and averaging. *)
From Coq Require Import Reals Arith Lia Lra List.
From Verif Require Import Sums SpecEmd.
Open Scope R_scope.

Definition flip (Y : nat -> nat -> R) : nat -> nat -> R := fun j i => Y i j.
Definition pos (x : R) : R := Rmax 0 x.

Lemma mass_flip : forall n1 n2 Y, mass n2 n1 (flip Y) = mass n1 n2 Y.
Proof. intros. unfold mass, flip. apply Sum_swap. Qed.
Lemma mass_rows : forall n1 n2 Y, mass n1 n2 Y = Sum n1 (row_total n2 Y).
Proof. reflexivity. Qed.
Lemma mass_cols : forall n1 n2 Y, mass n1 n2 Y = Sum n2 (col_total n1 Y).
Proof. intros. unfold mass, col_total. apply Sum_swap. Qed.

Lemma coupling_flip : forall n1 n2 a b Y, coupling n1 n2 a b Y -> coupling n2 n1 b a (flip Y).
Proof. intros n1 n2 a b Y (H1 & H2 & H3). split; [intros j i Hj Hi; apply H1; auto|]. split; [apply H3|apply H2]. Qed.

Lemma cost_flip : forall n1 n2 c Y, transport_cost n2 n1 (flip c) (flip Y) = transport_cost n1 n2 c Y.
Proof. intros. unfold transport_cost, flip. apply Sum_swap. Qed.

Lemma cost_le : forall n1 n2 c Y Z, (forall i j, (i < n1)%nat -> (j < n2)%nat -> 0 <= c i j) ->
  (forall i j, (i < n1)%nat -> (j < n2)%nat -> Y i j <= Z i j) -> transport_cost n1 n2 c Y <= transport_cost n1 n2 c Z.
Proof.
  intros n1 n2 c Y Z Hc H. unfold transport_cost. apply Sum_le. intros i Hi. apply Sum_le. intros j Hj.
  specialize (Hc i j Hi Hj). specialize (H i j Hi Hj). nra.
Qed.

Lemma cost_ext : forall n1 n2 c c' Y Y', (forall i j, (i < n1)%nat -> (j < n2)%nat -> c i j = c' i j) ->
  (forall i j, (i < n1)%nat -> (j < n2)%nat -> Y i j = Y' i j) -> transport_cost n1 n2 c Y = transport_cost n1 n2 c' Y'.
Proof.
  intros n1 n2 c c' Y Y' Hc H. unfold transport_cost. apply Sum_ext. intros i Hi. apply Sum_ext. intros j Hj.
  now rewrite Hc, H.
Qed.

(** Rows cut down to [a]. *)
Lemma trim_rows : forall n1 n2 a Y, nonneg n1 n2 Y -> (forall i, (i < n1)%nat -> 0 <= a i) ->
  exists Z, nonneg n1 n2 Z /\ (forall i j, (i < n1)%nat -> (j < n2)%nat -> Z i j <= Y i j) /\
    (forall i, (i < n1)%nat -> row_total n2 Z i <= a i) /\
    mass n1 n2 Y - Sum n1 (fun i => pos (row_total n2 Y i - a i)) <= mass n1 n2 Z.
Proof.
  intros n1 n2 a Y HY Ha.
  set (s := fun i => if Rle_dec (row_total n2 Y i) (a i) then 1 else a i / row_total n2 Y i).
  assert (Hs : forall i, (i < n1)%nat -> 0 <= s i <= 1).
  { intros i Hi. unfold s. destruct (Rle_dec _ _) as [L|L]; [lra|]. specialize (Ha i Hi). split.
    - unfold Rdiv. apply Rmult_le_pos; [lra|]. left. apply Rinv_0_lt_compat. lra.
    - apply (Rmult_le_reg_r (row_total n2 Y i)); [lra|]. unfold Rdiv. rewrite Rmult_assoc, Rinv_l by lra. lra. }
  assert (Er : forall i, row_total n2 (fun i j => s i * Y i j) i = s i * row_total n2 Y i).
  { intros i. unfold row_total. apply Sum_scal. }
  exists (fun i j => s i * Y i j). split; [|split; [|split]].
  - intros i j Hi Hj. specialize (Hs i Hi). specialize (HY i j Hi Hj). nra.
  - intros i j Hi Hj. specialize (Hs i Hi). specialize (HY i j Hi Hj). nra.
  - intros i Hi. rewrite Er. unfold s. specialize (Ha i Hi). destruct (Rle_dec _ _) as [L|L]; [lra|].
    unfold Rdiv. rewrite Rmult_assoc, Rinv_l by lra. lra.
  - rewrite !mass_rows, <- Sum_minus. apply Sum_le. intros i Hi. rewrite Er. unfold s, pos. specialize (Ha i Hi).
    destruct (Rle_dec _ _) as [L|L].
    + pose proof (Rmax_l 0 (row_total n2 Y i - a i)). lra.
    + unfold Rdiv. rewrite Rmult_assoc, Rinv_l by lra. pose proof (Rmax_r 0 (row_total n2 Y i - a i)). lra.
Qed.

Lemma trim : forall n1 n2 a b Y, nonneg n1 n2 Y -> (forall i, (i < n1)%nat -> 0 <= a i) -> (forall j, (j < n2)%nat -> 0 <= b j) ->
  exists Z, nonneg n1 n2 Z /\ (forall i j, (i < n1)%nat -> (j < n2)%nat -> Z i j <= Y i j) /\
    (forall i, (i < n1)%nat -> row_total n2 Z i <= a i) /\ (forall j, (j < n2)%nat -> col_total n1 Z j <= b j) /\
    mass n1 n2 Y - Sum n1 (fun i => pos (row_total n2 Y i - a i)) - Sum n2 (fun j => pos (col_total n1 Y j - b j)) <= mass n1 n2 Z.
Proof.
  intros n1 n2 a b Y HY Ha Hb. destruct (trim_rows n1 n2 a Y HY Ha) as (Z1 & P1 & L1 & R1 & M1).
  destruct (trim_rows n2 n1 b (flip Z1) ltac:(intros j i Hj Hi; apply P1; auto) Hb) as (Z2 & P2 & L2 & R2 & M2).
  exists (flip Z2). split; [intros i j Hi Hj; apply P2; auto|].
  split. { intros i j Hi Hj. specialize (L1 i j Hi Hj). specialize (L2 j i Hj Hi). unfold flip in *. lra. }
  split. { intros i Hi. apply Rle_trans with (2 := R1 i Hi). apply Sum_le. intros j Hj. apply (L2 j i Hj Hi). }
  split; [apply R2|]. rewrite mass_flip in M2. rewrite (mass_flip n2 n1 Z2).
  assert (Sum n2 (fun j => pos (row_total n1 (flip Z1) j - b j)) <= Sum n2 (fun j => pos (col_total n1 Y j - b j))).
  { apply Sum_le. intros j Hj. unfold pos. apply Rle_max_compat_l. apply Rplus_le_compat_r.
    apply Sum_le. intros i Hi. apply (L1 i j Hi Hj). }
  lra.
Qed.

(** A plan below the marginals extends to a coupling. *)
Lemma complete : forall n1 n2 a b Z, nonneg n1 n2 Z -> Sum n1 a = Sum n2 b ->
  (forall i, (i < n1)%nat -> row_total n2 Z i <= a i) -> (forall j, (j < n2)%nat -> col_total n1 Z j <= b j) ->
  exists Q, coupling n1 n2 a b Q /\ (forall i j, (i < n1)%nat -> (j < n2)%nat -> Z i j <= Q i j).
Proof.
  intros n1 n2 a b Z HZ HS HR HCl.
  set (e := fun i => a i - row_total n2 Z i). set (f := fun j => b j - col_total n1 Z j).
  assert (He : forall i, (i < n1)%nat -> 0 <= e i) by (intros i Hi; unfold e; specialize (HR i Hi); lra).
  assert (Hf : forall j, (j < n2)%nat -> 0 <= f j) by (intros j Hj; unfold f; specialize (HCl j Hj); lra).
  assert (EF : Sum n1 e = Sum n2 f).
  { assert (M : Sum n1 (fun i => row_total n2 Z i) = Sum n2 (fun j => col_total n1 Z j)) by apply Sum_swap.
    
    transitivity (Sum n1 a - Sum n1 (fun i => row_total n2 Z i)); [apply Sum_minus|]. rewrite HS, M. symmetry. apply Sum_minus. }
  set (E := Sum n1 e) in *. pose proof (Sum_nonneg n1 e He) as E0. fold E in E0.
  assert (Z0 : E = 0 -> (forall i, (i < n1)%nat -> e i = 0) /\ (forall j, (j < n2)%nat -> f j = 0)).
  { intros HE. split; [apply (Sum_zero_inv n1 e He HE)|apply (Sum_zero_inv n2 f Hf)]. lra. }
  exists (fun i j => Z i j + e i * f j / E).
  assert (P : forall i j, (i < n1)%nat -> (j < n2)%nat -> 0 <= e i * f j / E).
  { intros i j Hi Hj. specialize (He i Hi). specialize (Hf j Hj). destruct (Req_dec E 0) as [HE|HE].
    - destruct (Z0 HE) as [Ze _]. rewrite Ze by auto. unfold Rdiv. rewrite Rmult_0_l, Rmult_0_l. lra.
    - unfold Rdiv. apply Rmult_le_pos; [nra|]. left. apply Rinv_0_lt_compat. lra. }
  split.
  - split; [|split].
    + intros i j Hi Hj. specialize (P i j Hi Hj). specialize (HZ i j Hi Hj). lra.
    + intros i Hi. unfold row_total. rewrite Sum_plus. fold (row_total n2 Z i).
      replace (a i) with (row_total n2 Z i + e i) by (unfold e; lra). f_equal.
      destruct (Req_dec E 0) as [HE|HE].
      * destruct (Z0 HE) as [Ze _]. rewrite Ze by auto. apply Sum_zero. intros j Hj. unfold Rdiv. rewrite Rmult_0_l. apply Rmult_0_l.
      * rewrite (Sum_ext n2 _ (fun j => e i / E * f j)) by (intros j Hj; field; auto). rewrite Sum_scal, <- EF. field. auto.
    + intros j Hj. unfold col_total. rewrite Sum_plus. fold (col_total n1 Z j).
      replace (b j) with (col_total n1 Z j + f j) by (unfold f; lra). f_equal.
      destruct (Req_dec E 0) as [HE|HE].
      * destruct (Z0 HE) as [Ze Zf]. transitivity 0; [|symmetry; apply Zf, Hj]. apply Sum_zero. intros i Hi. rewrite Ze by auto. unfold Rdiv. rewrite Rmult_0_l. apply Rmult_0_l.
      * rewrite (Sum_ext n1 _ (fun i => f j / E * e i)) by (intros i Hi; field; auto). rewrite Sum_scal. fold E. field. auto.
  - intros i j Hi Hj. specialize (P i j Hi Hj). lra.
Qed.

Lemma coupling_mass : forall n1 n2 a b Q, coupling n1 n2 a b Q -> mass n1 n2 Q = Sum n1 a.
Proof. intros n1 n2 a b Q (_ & H & _). rewrite mass_rows. apply Sum_ext. auto. Qed.

(** What is added costs at most the largest cost. *)
Lemma cost_added : forall n1 n2 c m Z Q, (forall i j, (i < n1)%nat -> (j < n2)%nat -> 0 <= c i j <= m) ->
  (forall i j, (i < n1)%nat -> (j < n2)%nat -> Z i j <= Q i j) ->
  transport_cost n1 n2 c Q <= transport_cost n1 n2 c Z + m * (mass n1 n2 Q - mass n1 n2 Z).
Proof.
  intros n1 n2 c m Z Q Hc H. unfold transport_cost, mass. rewrite <- Sum_minus, <- Sum_scal, <- Sum_plus. apply Sum_le. intros i Hi.
  rewrite <- Sum_minus, <- Sum_scal, <- Sum_plus. apply Sum_le. intros j Hj. specialize (Hc i j Hi Hj). specialize (H i j Hi Hj). nra.
Qed.

(** Couplings compose. *)
Lemma glue : forall n1 n2 n3 a b c d12 d23 d13 P Q,
  coupling n1 n2 a b P -> coupling n2 n3 b c Q -> (forall j, (j < n2)%nat -> 0 < b j) ->
  (forall i j k, (i < n1)%nat -> (j < n2)%nat -> (k < n3)%nat -> d13 i k <= d12 i j + d23 j k) ->
  exists S, coupling n1 n3 a c S /\ transport_cost n1 n3 d13 S <= transport_cost n1 n2 d12 P + transport_cost n2 n3 d23 Q.
Proof.
  intros n1 n2 n3 a b c d12 d23 d13 P Q (P1 & P2 & P3) (Q1 & Q2 & Q3) Hb Ht.
  set (T := fun i j k => P i j * Q j k / b j).
  assert (T0 : forall i j k, (i < n1)%nat -> (j < n2)%nat -> (k < n3)%nat -> 0 <= T i j k).
  { intros i j k Hi Hj Hk. unfold T, Rdiv. specialize (P1 i j Hi Hj). specialize (Q1 j k Hj Hk). specialize (Hb j Hj).
    apply Rmult_le_pos; [nra|]. left. apply Rinv_0_lt_compat, Hb. }
  assert (T1 : forall i j, (i < n1)%nat -> (j < n2)%nat -> Sum n3 (T i j) = P i j).
  { intros i j Hi Hj. unfold T. specialize (Hb j Hj). rewrite (Sum_ext n3 _ (fun k => P i j / b j * Q j k)) by (intros; field; lra).
    rewrite Sum_scal. change (Sum n3 (fun k => Q j k)) with (row_total n3 Q j). change (Sum n3 (Q j)) with (row_total n3 Q j). rewrite Q2 by auto. field. lra. }
  assert (T2 : forall j k, (j < n2)%nat -> (k < n3)%nat -> Sum n1 (fun i => T i j k) = Q j k).
  { intros j k Hj Hk. unfold T. specialize (Hb j Hj). rewrite (Sum_ext n1 _ (fun i => Q j k / b j * P i j)) by (intros; field; lra).
    rewrite Sum_scal. specialize (P3 j Hj). unfold col_total in P3. rewrite P3. field. lra. }
  exists (fun i k => Sum n2 (fun j => T i j k)). split.
  - split; [|split].
    + intros i k Hi Hk. apply Sum_nonneg. auto.
    + intros i Hi. unfold row_total. rewrite Sum_swap, <- P2 by auto. apply Sum_ext. intros j Hj. auto.
    + intros k Hk. unfold col_total. rewrite Sum_swap, <- Q3 by auto. apply Sum_ext. intros j Hj. auto.
  - assert (E1 : transport_cost n1 n2 d12 P = Sum n1 (fun i => Sum n3 (fun k => Sum n2 (fun j => d12 i j * T i j k)))).
    { unfold transport_cost. apply Sum_ext. intros i Hi. rewrite Sum_swap. apply Sum_ext. intros j Hj. rewrite Sum_scal, T1 by auto. reflexivity. }
    assert (E2 : transport_cost n2 n3 d23 Q = Sum n1 (fun i => Sum n3 (fun k => Sum n2 (fun j => d23 j k * T i j k)))).
    { unfold transport_cost.
      rewrite (Sum_ext n1 (fun i => Sum n3 (fun k => Sum n2 (fun j => d23 j k * T i j k)))
                          (fun i => Sum n2 (fun j => Sum n3 (fun k => d23 j k * T i j k)))) by (intros; apply Sum_swap).
      rewrite (Sum_swap n1 n2 (fun i j => Sum n3 (fun k => d23 j k * T i j k))). apply Sum_ext. intros j Hj.
      rewrite (Sum_swap n1 n3 (fun i k => d23 j k * T i j k)). apply Sum_ext. intros k Hk. rewrite Sum_scal, T2 by auto. reflexivity. }
    rewrite E1, E2. unfold transport_cost. rewrite <- Sum_plus. apply Sum_le. intros i Hi.
    rewrite <- Sum_plus. apply Sum_le. intros k Hk. rewrite <- Sum_plus, <- Sum_scal. apply Sum_le. intros j Hj.
    specialize (Ht i j k Hi Hj Hk). specialize (T0 i j k Hi Hj Hk). nra.
Qed.

(** Averages differ by at most the cost. *)
Lemma average_bound : forall n1 n2 a b c Q (u v : nat -> R), coupling n1 n2 a b Q ->
  (forall i j, (i < n1)%nat -> (j < n2)%nat -> Rabs (u i - v j) <= c i j) ->
  Rabs (Sum n1 (fun i => a i * u i) - Sum n2 (fun j => b j * v j)) <= transport_cost n1 n2 c Q.
Proof.
  intros n1 n2 a b c Q u v (Q1 & Q2 & Q3) H.
  assert (E : Sum n1 (fun i => a i * u i) - Sum n2 (fun j => b j * v j) = Sum n1 (fun i => Sum n2 (fun j => (u i - v j) * Q i j))).
  { rewrite (Sum_ext n1 (fun i => a i * u i) (fun i => Sum n2 (fun j => u i * Q i j))).
    2: { intros i Hi. rewrite (Sum_scal n2 (u i) (Q i)), <- (Q2 i Hi). apply Rmult_comm. }
    rewrite (Sum_ext n2 (fun j => b j * v j) (fun j => Sum n1 (fun i => v j * Q i j))).
    2: { intros j Hj. rewrite (Sum_scal n1 (v j) (fun i => Q i j)), <- (Q3 j Hj). apply Rmult_comm. }
    rewrite (Sum_swap n2 n1), <- Sum_minus. apply Sum_ext. intros i Hi. rewrite <- Sum_minus. apply Sum_ext. intros j Hj. lra. }
  rewrite E. unfold transport_cost. apply Rle_trans with (1 := Sum_abs _ _). apply Sum_le. intros i Hi.
  apply Rle_trans with (1 := Sum_abs _ _). apply Sum_le. intros j Hj. specialize (H i j Hi Hj). specialize (Q1 i j Hi Hj).
  rewrite Rabs_mult, (Rabs_pos_eq (Q i j)) by auto. nra.
Qed.

(** Costs of couplings are determined by the weights up to order. *)
Lemma within_unique : forall n1 n2 a b c e1 e2 v1 v2,
  emd_within n1 n2 a b c e1 v1 -> emd_within n1 n2 a b c e2 v2 -> Rabs (v1 - v2) <= e1 + e2.
Proof.
  intros n1 n2 a b c e1 e2 v1 v2 (U1 & Y1 & C1 & L1) (U2 & Y2 & C2 & L2).
  specialize (U1 Y2 C2). specialize (U2 Y1 C1). unfold Rabs. destruct (Rcase_abs (v1 - v2)); lra.
Qed.
