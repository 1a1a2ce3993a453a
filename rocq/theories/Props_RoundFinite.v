(** C75: what rounding does to AMD_finite and PDD_finite. *)
From Coq Require Import List ZArith Arith Bool Lia Reals Lra Psatz Permutation Sorted.
From Verif Require Import Num Base Spec Outcome NNModel VecR SpecGeom SpecCalc CalcModel CalcProofs Props_Finite
  RoundModel SpecRound RoundBinary RoundFinite Props_Round.
Import ListNotations.
Open Scope R_scope.

(** Every entry of AMD_finite is within (110 + 3 m) u (a + b) of the exact one; here [b] only
    covers underflow. *)
Theorem C75_amd_finite_rounded : forall ar u eta b dims pts, arithmetic_for ar u eta b -> (dims <= 4)%nat ->
  Forall (fun p => length p = dims) pts -> pts <> [] -> INR (length pts) * u <= 1 / 100 ->
  length (AMD_finite pts) = (length pts - 1)%nat /\
  Forall2 (fun a c => Rabs (c - a) <= (110 + 3 * INR (length pts)) * u * (a + b)) (AMD_finite pts) (@AMD_finite R (num_of ar) pts).
Proof.
  intros ar u eta b dims pts (FL & Hu & Hb & He1 & He2) H4 Hl Hne HM. split; [|eapply amd_finite_close; eauto].
  unfold AMD_finite. rewrite (average_rows_spec _ (length pts - 1)); [rewrite map_length, seq_length; auto| |apply finite_rows_len].
  intros E. apply Hne. apply length_zero_iff_nil. rewrite <- finite_rows_length, E. auto.
Qed.

(** PDD_finite: the same groups, weights and entries with small errors. *)
Theorem C75_pdd_finite_rounded : forall ar u eta b dims pts D lexsort lexsort' collapse tol, arithmetic_for ar u eta b -> (dims <= 4)%nat ->
  Forall (fun p => length p = dims) pts -> pts <> [] -> INR (length pts) * u <= 1 / 100 -> INR (length pts) * eta <= u ->
  (forall p q, In p pts -> In q pts -> edist p q <= D) ->
  (collapse = true -> decided_finite pts tol (203 * u * (D + b))) ->
  let exact := PDD_finite pts lexsort collapse tol in let rounded := @PDD_finite R (num_of ar) pts lexsort' collapse tol in
  exists e' r', Permutation (combine (fst exact) (snd exact)) e' /\ Permutation (combine (fst rounded) (snd rounded)) r' /\
    (lexsort = false -> e' = combine (fst exact) (snd exact)) /\ (lexsort' = false -> r' = combine (fst rounded) (snd rounded)) /\
    Forall2 (fun x y => snd y = snd x /\ Rabs (fst (fst y) - fst (fst x)) <= (5 + 2 * INR (length pts)) * u * fst (fst x) /\
      Forall2 (fun d e => Rabs (e - d) <= (110 + 3 * INR (length pts)) * u * (d + b)) (snd (fst x)) (snd (fst y))) e' r'.
Proof.
  intros ar u eta b dims pts D lexsort lexsort' collapse tol (FL & Hu & Hb & He1 & He2) H4 Hl Hne HM HeM HD HC exact rounded.
  pose proof (pdd_finite_close ar u eta b dims pts FL Hu Hb He1 He2 H4 Hl Hne D lexsort lexsort' collapse tol HM HeM HD) as X. fold exact rounded in X. destruct exact as [a g], rounded as [c g'].
  apply X. intros C. destruct (HC C) as [Q1 Q2]. split; auto. intros i j Hij.
  destruct (dist_row_spec pts i ltac:(lia)) as [S1 P1]. destruct (dist_row_spec pts j ltac:(lia)) as [S2 P2]. apply (Q2 i j); auto.
Qed.

(** In binary64 without overflow, sums in any order. *)
Theorem C75_amd_finite_binary64 : forall u ar dims pts, binary64 u ar -> (dims <= 4)%nat -> Forall (fun p => length p = dims) pts -> pts <> [] -> INR (length pts) <= 1000000000 ->
  Forall2 (fun a c => Rabs (c - a) <= (110 + 3 * INR (length pts)) * u * (a + powerRZ 2 (-400))) (AMD_finite pts) (@AMD_finite R (num_of ar) pts).
Proof.
  intros u ar dims pts BI H4 Hl Hne HM. pose proof (binary64_u u ar BI) as BU. pose proof u64_pos. apply (C75_amd_finite_rounded ar u eta64 (powerRZ 2 (-400)) dims); auto.
  - apply b64_for; auto. lra.
  - assert (u64 <= powerRZ 2 (-40)) by (apply two_le; lia). apply Rle_trans with (1000000000 * (4 * powerRZ 2 (-40))); [|simpl; lra]. apply Rmult_le_compat; auto using pos_INR; lra.
Qed.

(** ** Examples *)
(** Three points on a line: in binary64 the rows of the ends are collapsed, as in exact arithmetic. *)
Example C75_case : let pts := [[0]; [1]; [2]] in
  let exact := PDD_finite pts false true (1 / 10000) in let rounded := @PDD_finite R (num_of b64) pts false true (1 / 10000) in
  Forall2 (fun x y => snd y = snd x /\ Rabs (fst (fst y) - fst (fst x)) <= 11 * u64 * fst (fst x) /\
    Forall2 (fun d e => Rabs (e - d) <= 119 * u64 * (d + 1)) (snd (fst x)) (snd (fst y)))
    (combine (fst exact) (snd exact)) (combine (fst rounded) (snd rounded)).
Proof.
  intros pts exact rounded. pose proof (two_pos (-53)) as T. assert (T2 : u64 <= powerRZ 2 (-40)) by (apply two_le; lia). fold u64 in T. assert (T3 : powerRZ 2 (-40) <= 1 / 1000000000000) by (simpl; lra).
  assert (E2 : eta64 <= u64 * powerRZ 2 (-40)) by (unfold u64, eta64; rewrite <- two_add; apply two_le; lia).
  assert (ED : forall x y, edist [x] [y] = Rabs (x - y)). { intros x y. unfold edist. cbn. replace ((x - y) * (x - y) + 0) with (Rsqr (x - y)) by (unfold Rsqr; ring). apply sqrt_Rsqr_abs. }
  assert (SU : forall i s, Permutation s (distances_to_others pts i) -> StronglySorted Rle s -> s = sortR (distances_to_others pts i)) by (intros i s P S; symmetry; apply sortR_unique; auto; symmetry; auto).
  assert (S0 : sortR (distances_to_others pts 0) = [1; 2]). { apply sortR_unique; [repeat constructor; lra|]. unfold distances_to_others. cbn. rewrite !ED. replace (Rabs (0 - 1)) with 1 by (rewrite Rabs_left; lra). replace (Rabs (0 - 2)) with 2 by (rewrite Rabs_left; lra). reflexivity. }
  assert (S1 : sortR (distances_to_others pts 1) = [1; 1]). { apply sortR_unique; [repeat constructor; lra|]. unfold distances_to_others. cbn. rewrite !ED. replace (Rabs (1 - 0)) with 1 by (rewrite Rabs_right; lra). replace (Rabs (1 - 2)) with 1 by (rewrite Rabs_left; lra). reflexivity. }
  assert (S2 : sortR (distances_to_others pts 2) = [1; 2]). { apply sortR_unique; [repeat constructor; lra|]. unfold distances_to_others. cbn. rewrite !ED. replace (Rabs (2 - 0)) with 2 by (rewrite Rabs_right; lra). replace (Rabs (2 - 1)) with 1 by (rewrite Rabs_right; lra). apply perm_swap. }
  destruct (C75_pdd_finite_rounded b64 u64 eta64 1 1 pts 2 false false true (1 / 10000)) as (e' & r' & _ & _ & E & E' & F); auto.
  - apply b64_for; [apply b64_binary64|]. apply Rle_trans with (powerRZ 2 0); [apply two_le; lia|simpl; lra].
  - repeat constructor.
  - discriminate.
  - simpl. lra.
  - simpl. nra.
  - intros p q [<-|[<-|[<-|[]]]] [<-|[<-|[<-|[]]]]; rewrite ED; apply Rabs_le; lra.
  - intros _. split; [lra|]. intros i j ds es Hij A1 A2 A3 A4. rewrite (SU i ds A2 A1), (SU j es A4 A3). cbn in Hij.
    destruct i as [|[|i]]; [destruct j as [|[|[|j]]]|destruct j as [|[|[|j]]]|]; try lia; rewrite ?S0, ?S1, ?S2.
    + right. exists 1%nat. cbn [nth length]. split; [lia|]. rewrite Rabs_right; lra.
    + left. intros l _. rewrite Rminus_eq_0, Rabs_R0. lra.
    + right. exists 1%nat. cbn [nth length]. split; [lia|]. rewrite Rabs_left; lra.
  - rewrite (E eq_refl), (E' eq_refl) in F. fold exact rounded in F. replace (5 + 2 * INR (length pts)) with 11 in F by (simpl; lra). replace (110 + 3 * INR (length pts)) with 119 in F by (simpl; lra). exact F.
Qed.

(** The corners of a unit square: in binary64 every entry is within 2^-46 of the exact one. *)
Example C75_square_case : let pts := [[0; 0]; [1; 0]; [0; 1]; [1; 1]] in
  Forall2 (fun a c => Rabs (c - a) <= 122 * powerRZ 2 (-53) * (a + powerRZ 2 (-400))) (AMD_finite pts) (@AMD_finite R (num_of b64) pts) /\ length (AMD_finite pts) = 3%nat.
Proof.
  intros pts. split.
  - replace 122 with (110 + 3 * INR (length pts)) by (simpl; lra). apply (C75_amd_finite_binary64 u64 b64 2); [apply b64_binary64|lia|repeat constructor|discriminate|simpl; lra].
  - apply (C75_amd_finite_rounded b64 u64 eta64 1 2 pts); [|lia|repeat constructor|discriminate|].
    + apply b64_for; [apply b64_binary64|]. apply Rle_trans with (powerRZ 2 0); [apply two_le; lia|simpl; lra].
    + assert (T2 : u64 <= powerRZ 2 (-40)) by (apply two_le; lia). assert (T3 : powerRZ 2 (-40) <= 1 / 1000000000000) by (simpl; lra). simpl. lra.
Qed.

Print Assumptions C75_amd_finite_rounded.
Print Assumptions C75_pdd_finite_rounded.
Print Assumptions C75_amd_finite_binary64.
