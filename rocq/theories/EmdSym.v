(** Uniqueness of the value of the integer problem; permuted rows; distance zero. *)
From Coq Require Import List ZArith Arith Bool Reals Lia Lra Permutation FinFun.
From Verif Require Import Num Outcome Base NNModel CalcModel EmdModel VecR Sums SpecEmd EmdCert EmdUniq EmdReal EmdRun Transport EmdThm.
Import ListNotations.
Open Scope R_scope.

Definition int_cost (n1 n2 : nat) (c : nat -> nat -> R) (X : nat -> nat -> Z) : Z :=
  ZSum n1 (fun i => ZSum n2 (fun j => (to_fp (c i j) * X i j)%Z)).

(** ** Finite bijections *)
Lemma ZSum_fold : forall k f, ZSum k f = fold_right Z.add 0%Z (map f (seq 0 k)).
Proof.
  induction k as [|k IH]; intros f; [reflexivity|]. rewrite seq_S, map_app, fold_right_app. cbn [ZSum map fold_right Nat.add].
  rewrite IH, Z.add_0_r. clear. induction (map f (seq 0 k)) as [|a l IHl]; cbn [fold_right]; lia.
Qed.

Lemma fold_add_perm : forall l l', Permutation l l' -> fold_right Z.add 0%Z l = fold_right Z.add 0%Z l'.
Proof. induction 1; simpl; lia. Qed.

Lemma bij_perm : forall k f, bFun k f -> bInjective k f -> Permutation (map f (seq 0 k)) (seq 0 k).
Proof.
  intros k f Hf Hi. apply NoDup_Permutation_bis.
  - assert (G : forall l, NoDup l -> (forall x, In x l -> (x < k)%nat) -> NoDup (map f l)).
    { induction 1 as [|x l N D IH]; intros Hl; [constructor|]. cbn [map]. constructor.
      - intros H. apply in_map_iff in H as (y & E & Hy). apply Hi in E; [subst; auto| |]; apply Hl; simpl; auto.
      - apply IH. intros; apply Hl; simpl; auto. }
    apply G; [apply seq_NoDup|]. intros x Hx. apply in_seq in Hx. lia.
  - rewrite map_length, seq_length. auto.
  - intros y Hy. apply in_map_iff in Hy as (x & <- & Hx). apply in_seq in Hx. apply in_seq. specialize (Hf x ltac:(lia)). lia.
Qed.

Lemma ZSum_bij : forall k f g, bFun k f -> bInjective k f -> ZSum k (fun i => g (f i)) = ZSum k g.
Proof.
  intros k f g Hf Hi. rewrite !ZSum_fold. apply fold_add_perm. rewrite <- map_map. apply Permutation_map, bij_perm; auto.
Qed.

Lemma bij_inverse : forall k f, bFun k f -> bInjective k f ->
  exists g, bFun k g /\ bInjective k g /\ (forall i, (i < k)%nat -> g (f i) = i) /\ (forall i, (i < k)%nat -> f (g i) = i).
Proof.
  intros k f Hf Hi. destruct (bSurjective_bBijective Hf (proj1 (bInjective_bSurjective Hf) Hi)) as (g & Hg & H).
  exists g. split; auto. split; [|split; intros i Hi'; apply H; auto].
  intros x y Hx Hy E. rewrite <- (proj2 (H x Hx)), <- (proj2 (H y Hy)). now rewrite E.
Qed.

(** ** The value is unique *)
Lemma gap_le_top : forall w w', weights w -> weights w' -> (Z.of_nat (length w) <= 10000)%Z -> (gap w w' <= iw w (top w))%Z.
Proof.
  intros w w' H H' L. pose proof (gap_lt w w' H H') as G. pose proof (weights_pos w H) as P.
  destruct (iw_sum w H) as [_ S]. assert (S2 : (ZSum (length w) (iw w) <= Z.of_nat (length w) * iw w (top w))%Z).
  { rewrite <- ZSum_const. apply ZSum_le. intros i Hi. apply top_max; auto. }
  unfold FP in S. destruct (Z_le_gt_dec (gap w w') (iw w (top w))) as [Q|Q]; [exact Q|]. exfalso.
  assert (T : (iw w (top w) <= Z.of_nat (length w) - 2)%Z) by lia.
  assert (T2 : (Z.of_nat (length w) * iw w (top w) <= Z.of_nat (length w) * (Z.of_nat (length w) - 2))%Z) by nia.
  assert (T3 : (Z.of_nat (length w) * (Z.of_nat (length w) - 2) <= 10000 * 9998)%Z) by nia. lia.
Qed.

Lemma run_within : forall w1 w2 c X Y, run w1 w2 c Y -> forall ls ld ps pd big,
  cert (length w1) (length w2) (enlarged w1 w2) (enlarged w2 w1) (fun i j => to_fp (c i j))
    (fun i j => Z.min (iw w1 i) (iw w2 j)) X ls ld ps pd big ->
  within (length w1) (length w2) (enlarged w1 w2) (enlarged w2 w1) (fun i j => Z.min (iw w1 i) (iw w2 j)) (fun i j => IZR (Y i j)).
Proof.
  intros w1 w2 c X Y (ls' & ld' & ps' & pd' & big' & K') ls ld ps pd big _. apply (within_X _ _ _ _ _ _ _ _ _ _ _ _ K').
Qed.

Lemma run_mass : forall w1 w2 c X Y, run w1 w2 c X -> run w1 w2 c Y ->
  massR (length w1) (length w2) (fun i j => IZR (X i j)) = massR (length w1) (length w2) (fun i j => IZR (Y i j)).
Proof.
  assert (H : forall w1 w2 c X Y, run w1 w2 c X -> run w1 w2 c Y ->
    massR (length w1) (length w2) (fun i j => IZR (Y i j)) <= massR (length w1) (length w2) (fun i j => IZR (X i j))).
  { intros w1 w2 c X Y (ls & ld & ps & pd & big & K) HY. destruct (run_within w1 w2 c X Y HY _ _ _ _ _ K) as (P1 & P2 & P3).
    eapply cert_ship; eauto. }
  intros w1 w2 c X Y HX HY. apply Rle_antisym; eauto.
Qed.

Lemma costR_int : forall n1 n2 c X, costR n1 n2 (fun i j => to_fp (c i j)) (fun i j => IZR (X i j)) = IZR (int_cost n1 n2 c X).
Proof.
  intros. unfold costR, int_cost. rewrite IZR_ZSum. apply Sum_ext. intros i Hi. rewrite IZR_ZSum. apply Sum_ext. intros j Hj.
  now rewrite mult_IZR.
Qed.

Lemma unique_side : forall w1 w2 c X Y, weights w1 -> weights w2 -> (Z.of_nat (length w1) <= 10000)%Z -> gap w2 w1 = 0%Z ->
  run w1 w2 c X -> run w1 w2 c Y -> (int_cost (length w1) (length w2) c X <= int_cost (length w1) (length w2) c Y)%Z.
Proof.
  intros w1 w2 c X Y W1 W2 L G0 HX HY. pose proof HX as (ls & ld & ps & pd & big & K).
  pose proof (run_within w1 w2 c X Y HY _ _ _ _ _ K) as HW.
  destruct (marginals_unique _ _ _ _ _ _ _ _ _ _ _ _ K (iw w1) (top w1) (gap w1 w2) (top_lt w1 W1)) with (Y := fun i j => IZR (Y i j)) as [M1 M2]; auto.
  - intros i Hi. apply iw_spec; auto.
  - intros i Hi. apply top_max; auto.
  - intros j Hj. rewrite enlarged_0 by auto. apply iw_spec; auto.
  - intros i j Hi Hj. rewrite enlarged_0 by auto. reflexivity.
  - apply gap_nonneg.
  - apply gap_le_top; auto.
  - apply (run_mass w1 w2 c); auto.
  - apply le_IZR. rewrite <- !costR_int. destruct HW as (C1 & _). apply (cert_opt _ _ _ _ _ _ _ _ _ _ _ _ K); auto.
Qed.

Lemma int_cost_flip : forall n1 n2 c X, int_cost n2 n1 (fun j i => c i j) (fun j i => X i j) = int_cost n1 n2 c X.
Proof. intros. unfold int_cost. apply ZSum_swap. Qed.

Theorem run_unique : forall w1 w2 c X Y, weights w1 -> weights w2 -> (Z.of_nat (length w1) <= 10000)%Z -> (Z.of_nat (length w2) <= 10000)%Z ->
  run w1 w2 c X -> run w1 w2 c Y -> int_cost (length w1) (length w2) c X = int_cost (length w1) (length w2) c Y.
Proof.
  intros w1 w2 c X Y W1 W2 L1 L2 HX HY. destruct (gap_one w1 w2) as [G|G].
  - rewrite <- (int_cost_flip _ _ c X), <- (int_cost_flip _ _ c Y).
    apply Z.le_antisymm; apply unique_side; auto; apply run_flip; auto.
  - apply Z.le_antisymm; apply unique_side; auto.
Qed.

Lemma value_cost : forall n1 n2 c X,
  transport_cost n1 n2 (fun i j => of_fp (to_fp (c i j))) (planR X) = IZR (int_cost n1 n2 c X) / (scale * scale).
Proof.
  intros. unfold int_cost. rewrite IZR_ZSum. unfold transport_cost, Rdiv. rewrite <- Sum_scal_r. apply Sum_ext. intros i Hi.
  rewrite IZR_ZSum, <- Sum_scal_r. apply Sum_ext. intros j Hj. rewrite mult_IZR. unfold of_fp, planR, fp_multiplier. field.
Qed.

(** ** Permuted rows *)
Section Perm.
  Variables (w w' w2 : list R) (f : nat -> nat).
  Notation n := (length w).
  Hypothesis Hl : length w' = n.
  Hypothesis Hf : bFun n f.
  Hypothesis Hi : bInjective n f.
  Hypothesis Hw : forall i, (i < n)%nat -> vx w' i = vx w (f i).

  Lemma iw_perm : forall i, (i < n)%nat -> iw w' i = iw w (f i).
  Proof. intros i H. rewrite !iw_eq. now rewrite Hw. Qed.
  Lemma sum_perm : ZSum (length w') (iw w') = ZSum n (iw w).
  Proof.
    rewrite Hl. rewrite <- (ZSum_bij n f (iw w) Hf Hi). apply ZSum_ext. apply iw_perm.
  Qed.
  Lemma gap_perm : gap w' w2 = gap w w2 /\ gap w2 w' = gap w2 w.
  Proof. unfold gap. rewrite sum_perm. auto. Qed.

  Lemma run_perm : forall c X, weights w -> weights w' -> (gap w w2 = 0%Z \/ f (top w') = top w) ->
    run w' w2 (fun i j => c (f i) j) X -> exists Y, run w w2 c Y /\
      int_cost n (length w2) c Y = int_cost (length w') (length w2) (fun i j => c (f i) j) X.
  Proof.
    intros c X W W' Ht (ls & ld & ps & pd & big & K). rewrite Hl in K. destruct gap_perm as [G1 G2].
    destruct (bij_inverse n f Hf Hi) as (g & Hg & Hgi & E1 & E2).
    assert (EA : forall i, (i < n)%nat -> enlarged w' w2 (g i) = enlarged w w2 i).
    { intros i H. unfold enlarged. rewrite iw_perm, E2, G1 by (try apply Hg; auto). f_equal. destruct Ht as [Ht|Ht].
      - rewrite Ht. destruct (Nat.eqb i (top w)), (Nat.eqb (g i) (top w')); reflexivity.
      - destruct (Nat.eqb_spec (g i) (top w')) as [Q|Q], (Nat.eqb_spec i (top w)) as [Q'|Q']; auto; exfalso.
        + apply Q'. rewrite <- Ht, <- Q. symmetry. now apply E2.
        + apply Q. rewrite Q', <- Ht. apply E1. rewrite <- Hl. apply top_lt; auto. }
    assert (EB : forall j, enlarged w2 w' j = enlarged w2 w j) by (intros j; unfold enlarged; now rewrite G2).
    destruct K as [k1 k2 k3 k4 k5 k6 k7 [k8 k9] k10 k11 k12].
    exists (fun i j => X (g i) j). split.
    - exists (fun i => ls (g i)), ld, (fun i => ps (g i)), pd, big. constructor; auto.
      + intros i j H1 H2. specialize (k1 (g i) j (Hg i H1) H2). rewrite iw_perm, E2 in k1 by (try apply Hg; auto). exact k1.
      + intros i H. rewrite <- EA by auto. apply k2, Hg, H.
      + intros j H. rewrite <- EB. rewrite <- k3 by auto. f_equal. apply (ZSum_bij n g (fun i => X i j) Hg Hgi).
      + constructor; intros i j H1 H2 H3.
        * specialize (k8 (g i) j (Hg i H1) H2). rewrite iw_perm, E2 in k8 by (try apply Hg; auto). auto.
        * specialize (k9 (g i) j (Hg i H1) H2 H3). rewrite E2 in k9 by auto. auto.
      + intros i j H1 H2. specialize (k10 (g i) j (Hg i H1) H2). rewrite E2 in k10 by auto. auto.
      + rewrite <- (ZSum_bij n f _ Hf Hi). exact k11.
      + rewrite (ZSum_ext n (enlarged w w2) (fun i => enlarged w' w2 (g i))) by (intros; now rewrite EA).
        rewrite (ZSum_bij n g _ Hg Hgi), k12. apply ZSum_ext. intros; apply EB.
    - unfold int_cost. rewrite Hl. rewrite <- (ZSum_bij n f _ Hf Hi). apply ZSum_ext. intros i H. apply ZSum_ext. intros j H2.
      now rewrite E1.
  Qed.
End Perm.

(** ** Distance zero *)
Section Zero.
  Variables (w w' : list R) (f : nat -> nat) (c : nat -> nat -> R).
  Notation n := (length w).
  Hypothesis W : weights w.
  Hypothesis W' : weights w'.
  Hypothesis Hl : length w' = n.
  Hypothesis Hf : bFun n f.
  Hypothesis Hi : bInjective n f.
  Hypothesis Hw : forall i, (i < n)%nat -> vx w' i = vx w (f i).
  Hypothesis Hc : forall i j, (i < n)%nat -> (j < n)%nat -> 0 <= c i j.
  Hypothesis Hz : forall i, (i < n)%nat -> c (f i) i = 0.

  Theorem value_zero : forall X, run w w' c X -> int_cost n (length w') c X = 0%Z.
  Proof.
    intros X HX. pose proof HX as (ls & ld & ps & pd & big & K). pose proof (sum_perm w w' f Hl Hf Hi Hw) as S.
    assert (G1 : gap w w' = 0%Z) by (unfold gap; lia). assert (G2 : gap w' w = 0%Z) by (unfold gap; lia).
    pose proof (run_ship w w' W W' c X HX) as SH. rewrite S, Z.min_id in SH.
    pose proof (X_range w w' c X HX) as XR. rewrite Hl in *.
    assert (ER : forall i, (i < n)%nat -> ZSum n (fun j => X i j) = iw w i).
    { intros i H. pose proof (X_rows w w' c X HX) as R. rewrite Hl in R.
      assert (Q : (ZSum n (fun i => iw w i - ZSum n (fun j => X i j)) <= 0)%Z).
      { rewrite (ZSum_ext n _ (fun i => iw w i + -1 * ZSum n (fun j => X i j))%Z) by (intros; lia).
        rewrite ZSum_plus, ZSum_scal. change (fun i => iw w i) with (iw w). lia. }
      assert (N : forall t, (t < n)%nat -> (0 <= iw w t - ZSum n (fun j => X t j))%Z).
      { intros t Ht. specialize (R t Ht). rewrite enlarged_0 in R by auto. lia. }
      pose proof (ZSum_ge_one n (fun i => iw w i - ZSum n (fun j => X i j))%Z i N H) as Q2. cbv beta in Q2. specialize (N i H). lia. }
    assert (EC : forall j, (j < n)%nat -> ZSum n (fun i => X i j) = iw w' j).
    { intros j H. pose proof (X_cols w w' c X HX) as R. rewrite Hl in R.
      assert (Q : (ZSum n (fun j => iw w' j - ZSum n (fun i => X i j)) <= 0)%Z).
      { rewrite (ZSum_ext n _ (fun j => iw w' j + -1 * ZSum n (fun i => X i j))%Z) by (intros; lia).
        rewrite ZSum_plus, ZSum_scal, (ZSum_swap n n (fun j i => X i j)). change (fun j => iw w' j) with (iw w'). rewrite S. lia. }
      assert (N : forall t, (t < n)%nat -> (0 <= iw w' t - ZSum n (fun i => X i t))%Z).
      { intros t Ht. specialize (R t Ht). rewrite enlarged_0 in R by auto. lia. }
      pose proof (ZSum_ge_one n (fun j => iw w' j - ZSum n (fun i => X i j))%Z j N H) as Q2. cbv beta in Q2. specialize (N j H). lia. }
    set (Y := fun i j => if Nat.eqb i (f j) then iw w i else 0%Z).
    destruct (bij_inverse n f Hf Hi) as (g & Hg & Hgi & E1 & E2).
    assert (O : costR n n (fun i j => to_fp (c i j)) (fun i j => IZR (X i j)) <= costR n n (fun i j => to_fp (c i j)) (fun i j => IZR (Y i j))).
    { apply (cert_opt _ _ _ _ _ _ _ _ _ _ _ _ K).
      - intros i j H1 H2. unfold Y. destruct (Nat.eqb_spec i (f j)) as [->|N].
        + rewrite (iw_perm w w' f Hw) by auto. rewrite Z.min_id. destruct (iw_spec w (f j) W (Hf j H2)) as [_ P]. apply IZR_le in P. lra.
        + destruct (iw_spec w i W H1) as [_ P1], (iw_spec w' j W' ltac:(lia)) as [_ P2].
          split; [lra|]. apply IZR_le. lia.
      - intros i H. unfold rowR, rowZ. rewrite <- !IZR_ZSum. f_equal. rewrite ER by auto.
        rewrite (ZSum_single n _ (g i) (Hg i H)).
        + unfold Y. now rewrite E2, Nat.eqb_refl by auto.
        + intros j Hj N. unfold Y. destruct (Nat.eqb_spec i (f j)) as [->|]; auto. exfalso. apply N. symmetry. auto.
      - intros j H. unfold colR, colZ. rewrite <- !IZR_ZSum. f_equal. rewrite EC by auto.
        rewrite (ZSum_single n _ (f j) (Hf j H)).
        + unfold Y. rewrite Nat.eqb_refl. symmetry. apply (iw_perm w w' f Hw); auto.
        + intros i _ N. unfold Y. apply Nat.eqb_neq in N. now rewrite N. }
    rewrite !costR_int in O. apply le_IZR in O.
    assert (ZY : int_cost n n c Y = 0%Z).
    { unfold int_cost. apply ZSum_zero. intros i H1. apply ZSum_zero. intros j H2. unfold Y.
      destruct (Nat.eqb_spec i (f j)) as [->|]; [|lia]. rewrite Hz, to_fp_0 by auto. lia. }
    assert (0 <= int_cost n n c X)%Z.
    { unfold int_cost. apply ZSum_nonneg. intros i H1. apply ZSum_nonneg. intros j H2.
      destruct (to_fp_spec (c i j) (Hc i j H1 H2)) as [_ P]. specialize (XR i j H1 H2). nia. }
    lia.
  Qed.
End Zero.
