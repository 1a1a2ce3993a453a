(** Periodic sets on the line, used for concrete cases and counterexamples. *)
From Coq Require Import List ZArith Arith Bool Lia Reals Lra Permutation Sorted.
From Verif Require Import Num Base Spec SpecGeom Outcome NNModel VecR NNSpecProofs NNComplete Props_NN.
Import ListNotations.
Open Scope R_scope.

Definition line (xs : list R) : list (list R) := map (fun x => [x]) xs.

Section Line.
  Variables (xs : list R) (c : R).
  Hypothesis Hc : 0 < c.
  Hypothesis Hxs : Forall (fun x => 0 <= x < c) xs.
  Hypothesis Hne : xs <> [].

  Lemma line_ok : pset_ok 1 (line xs) [[c]].
  Proof.
    split; simpl; auto.
    - unfold line. destruct xs; [congruence|discriminate].
    - apply Forall_forall. intros p Hp. apply in_map_iff in Hp as (x & <- & _). auto.
  Qed.

  Lemma line_nonsingular : nonsingular 1 [[c]].
  Proof.
    exists [[/ c]]. split; [auto|]. split; [repeat constructor|].
    intros [|i] [|j] Hi Hj; try lia. simpl. field. lra.
  Qed.

  Lemma line_dominant : half_dominant 1 [[c]].
  Proof. intros [|i] Hi; [|lia]. simpl. nra. Qed.

  Lemma line_in_cell : Forall (in_cell 1 [[c]]) (line xs).
  Proof.
    apply Forall_forall. intros p Hp. apply in_map_iff in Hp as (x & <- & Hx).
    rewrite Forall_forall in Hxs. specialize (Hxs x Hx).
    exists [x / c]. split; [auto|]. split.
    - constructor; auto. split.
      + apply Rmult_le_pos; [lra|]. left. apply Rinv_0_lt_compat; auto.
      + apply Rmult_lt_reg_r with c; auto. unfold Rdiv. rewrite Rmult_assoc, Rinv_l by lra. lra.
    - unfold comb_coord. simpl. f_equal. field. lra.
  Qed.

  Lemma edist1 : forall a b, edist [a] [b] = Rabs (a - b).
  Proof.
    intros. unfold edist. simpl. rewrite Rplus_0_r.
    change ((a - b) * (a - b)) with (Rsqr (a - b)). apply sqrt_Rsqr_abs.
  Qed.

  Lemma ppoint1 : forall z i, ppoint 1 (line xs) [[c]] ([z], i) = [nth i xs 0 + IZR z * c].
  Proof.
    intros z i. unfold ppoint, lattice_coord, comb_coord. simpl. f_equal.
    assert (E : nth 0 (nth i (line xs) []) 0 = nth i xs 0).
    { unfold line. clear. revert i. induction xs as [|x l IH]; intros [|i]; simpl; auto. }
    rewrite E. lra.
  Qed.

  (** [ids] are the nearest points if their distances are sorted and nothing else is
      nearer than the last of them. *)
  Lemma line_nearest : forall p ids, NoDup ids -> Forall (fun zi => (snd zi < length xs)%nat) ids ->
    let dist (zi : Z * nat) := Rabs (p - (nth (snd zi) xs 0 + IZR (fst zi) * c)) in
    StronglySorted Rle (map dist ids) ->
    (forall z i, (i < length xs)%nat -> In (z, i) ids \/ forall b, In b ids -> dist b <= dist (z, i)) ->
    nearest_distances 1 (line xs) [[c]] [p] (length ids) (map dist ids).
  Proof.
    intros p ids Hnd Hr dist Hs Hall.
    exists (map (fun zi : Z * nat => ([fst zi], snd zi)) ids). split; [split; [|split; [|split; [|split]]]|].
    - apply map_length.
    - apply FinFun.Injective_map_NoDup; auto. intros [z i] [z' i'] E. simpl in E. congruence.
    - apply Forall_forall. intros a Ha. apply in_map_iff in Ha as ([z i] & <- & Ha).
      rewrite Forall_forall in Hr. specialize (Hr _ Ha). split; simpl; auto.
      unfold line. rewrite map_length. auto.
    - rewrite map_map. apply map_ext. intros [z i]. simpl fst. simpl snd. rewrite ppoint1, edist1. auto.
    - auto.
    - intros [l i] e [Hl Hi] Hn He. simpl in Hl, Hi. destruct l as [|z [|? ?]]; simpl in Hl; try lia.
      unfold line in Hi. rewrite map_length in Hi. rewrite ppoint1, edist1.
      apply in_map_iff in He as (b & <- & Hb). destruct (Hall z i Hi) as [H|H].
      + exfalso. apply Hn. apply in_map_iff. exists (z, i). auto.
      + apply (H b Hb).
  Qed.

  (** The rows of the search, once the nearest distances are known. *)
  Lemma line_rows : forall x k R', incl x (line xs) -> x <> [] ->
    Forall2 (fun p r => nearest_distances 1 (line xs) [[c]] p (S k) r) x R' ->
    exists fuel0, forall fuel, (fuel0 <= fuel)%nat -> nearest_neighbors fuel (line xs) [[c]] x (S k) = Done R'.
  Proof.
    intros x k R' Hx Hxne HR.
    destruct (C09_terminates 1 (line xs) [[c]] x k line_ok line_nonsingular Hx Hxne) as (rows & f0 & H).
    exists f0. intros fuel Hf. destruct (H fuel) as [H1 _]. rewrite (H1 Hf). f_equal.
    pose proof (C05_rows_are_nearest 1 (line xs) [[c]] x k fuel rows line_ok ltac:(lia)
      (in_cell_spread _ _ _ line_dominant line_in_cell) Hx Hxne (H1 Hf)) as HC.
    clear - HR HC. revert R' HR. induction HC; intros R' HR; inversion HR; subst; auto.
    f_equal; auto. eapply C05_nearest_unique; eauto.
  Qed.

  (** Integers away from 0 move a point by at least [c]. *)
  Lemma shift_cases : forall z : Z, z = 0%Z \/ IZR z * c <= - c \/ c <= IZR z * c.
  Proof.
    intros z. destruct (Z.lt_trichotomy z 0) as [H|[H|H]]; auto; right.
    - left. assert (IZR z <= -1) by (apply IZR_le; lia). nra.
    - right. assert (1 <= IZR z) by (apply IZR_le; lia). nra.
  Qed.

  Lemma shift_cases2 : forall z : Z, z = 0%Z \/ z = (-1)%Z \/ z = 1%Z \/ IZR z * c <= - 2 * c \/ 2 * c <= IZR z * c.
  Proof.
    intros z. assert (z <= -2 \/ z = -1 \/ z = 0 \/ z = 1 \/ 2 <= z)%Z as [H|[H|[H|[H|H]]]] by lia; auto.
    - do 3 right. left. assert (IZR z <= -2) by (apply IZR_le; lia). nra.
    - do 4 right. assert (2 <= IZR z) by (apply IZR_le; lia). nra.
  Qed.
End Line.

Lemma line_near2 : forall xs c, 0 < c -> forall i z j p d, (i < length xs)%nat -> (j < length xs)%nat ->
  (0%Z, i) <> (z, j) -> p = nth i xs 0 -> Rabs (p - (nth j xs 0 + IZR z * c)) = d ->
  (forall z' i', (i' < length xs)%nat -> (z', i') = (0%Z, i) \/ d <= Rabs (p - (nth i' xs 0 + IZR z' * c))) ->
  nearest_distances 1 (line xs) [[c]] [p] 2 [0; d].
Proof.
  intros xs c Hc i z j p d Hi Hj Hd Hp E Hall. rewrite <- E.
  assert (E0 : Rabs (p - (nth i xs 0 + IZR 0 * c)) = 0).
  { rewrite Hp. replace (_ - _) with 0 by (simpl; lra). apply Rabs_R0. }
  pose proof (line_nearest xs c p [(0%Z, i); (z, j)]) as H. cbn [map fst snd] in H.
  rewrite E0 in H. apply H; clear H.
  - constructor; [intros [X|[]]; congruence|repeat constructor; auto].
  - repeat constructor; auto.
  - constructor; [repeat constructor|constructor; [apply Rabs_pos|constructor]].
  - intros z' i' Hi'. destruct (Hall z' i' Hi') as [X|X]; [left; left; auto|].
    right. intros b [<-|[<-|[]]]; cbn [fst snd].
    + rewrite E0. apply Rabs_pos.
    + rewrite E. auto.
Qed.

Ltac rabs := unfold Rabs; repeat destruct Rcase_abs; try lra.
