(** Where mass can stay behind: all plans shipping as much as possible have the same row and
    column sums. *)
From Coq Require Import Reals ZArith Bool Lia Lra List.
From Verif Require Import Sums EmdCert.
Open Scope R_scope.

Lemma cert_transpose : forall n1 n2 A B C U X ls ld ps pd big,
  cert n1 n2 A B C U X ls ld ps pd big ->
  cert n2 n1 B A (fun j i => C i j) (fun j i => U i j) (fun j i => X i j) ld ls
    (fun j => (- pd j)%Z) (fun i => (- ps i)%Z) big.
Proof.
  intros n1 n2 A B C U X ls ld ps pd big [k1 k2 k3 k4 k5 k6 k7 [k8 k9] k10 k11 k12]. constructor; auto.
  - intros i Hi Hl. rewrite (k7 i Hi Hl). lia.
  - intros j Hj Hl. rewrite (k6 j Hj Hl). lia.
  - constructor; intros j i Hj Hi H; [specialize (k8 i j Hi Hj H) | specialize (k9 i j Hi Hj H)]; lia.
  - rewrite ZSum_swap. exact k11.
Qed.

Section Uniq.
  Variables n1 n2 : nat.
  Variables A B : nat -> Z.
  Variables C U X : nat -> nat -> Z.
  Variables ls ld ps pd : nat -> Z.
  Variable big : Z.
  Hypothesis K : cert n1 n2 A B C U X ls ld ps pd big.
  Notation XR := (fun i j => IZR (X i j)).
  Notation row := (rowR n2).
  Notation col := (colR n1).
  Notation mss := (massR n1 n2).

  Definition within (Y : nat -> nat -> R) : Prop :=
    capped n1 n2 U Y /\ (forall i, (i < n1)%nat -> row Y i <= IZR (A i)) /\ (forall j, (j < n2)%nat -> col Y j <= IZR (B j)).

  Lemma within_X : within XR.
  Proof.
    split; [|split].
    - intros i j Hi Hj. destruct (c_x _ _ _ _ _ _ _ _ _ _ _ _ K i j Hi Hj). split; now apply IZR_le.
    - intros i Hi. rewrite <- (c_row _ _ _ _ _ _ _ _ _ _ _ _ K i Hi), plus_IZR, IZR_ZSum.
      pose proof (IZR_le _ _ (c_ls _ _ _ _ _ _ _ _ _ _ _ _ K i Hi)). unfold rowR. lra.
    - intros j Hj. rewrite <- (c_col _ _ _ _ _ _ _ _ _ _ _ _ K j Hj), plus_IZR, IZR_ZSum.
      pose proof (IZR_le _ _ (c_ld _ _ _ _ _ _ _ _ _ _ _ _ K j Hj)). unfold colR. lra.
  Qed.

  Definition b2r (b : bool) : R := if b then 1 else 0.

  (** A cut showing that no more can be shipped. *)
  Lemma the_cut : exists s t : nat -> bool,
    (forall i, (i < n1)%nat -> (0 < ls i)%Z -> s i = true) /\
    (forall j, (j < n2)%nat -> (0 < ld j)%Z -> t j = false) /\
    (forall i j, (i < n1)%nat -> (j < n2)%nat -> s i = true -> t j = false -> X i j = U i j) /\
    (forall i j, (i < n1)%nat -> (j < n2)%nat -> s i = false -> t j = true -> X i j = 0%Z).
  Proof.
    destruct (level _ _ _ _ _ _ _ _ _ _ _ _ K) as (th & Hth & Hsat).
    exists (fun i => th <? ps i)%Z, (fun j => th <? pd j)%Z.
    split; [|split; [|split]].
    - intros i Hi Hl. rewrite (c_pls _ _ _ _ _ _ _ _ _ _ _ _ K i Hi Hl). apply Z.ltb_lt. lia.
    - intros j Hj Hl. rewrite (c_pld _ _ _ _ _ _ _ _ _ _ _ _ K j Hj Hl). apply Z.ltb_ge. lia.
    - intros i j Hi Hj H1 H2. apply Z.ltb_lt in H1. apply Z.ltb_ge in H2. apply Hsat; auto.
    - intros i j Hi Hj H1 H2. apply Z.ltb_ge in H1. apply Z.ltb_lt in H2.
      pose proof (c_x _ _ _ _ _ _ _ _ _ _ _ _ K i j Hi Hj).
      pose proof (s_hi _ _ _ _ _ _ _ (c_slack _ _ _ _ _ _ _ _ _ _ _ _ K) i j Hi Hj).
      pose proof (c_C _ _ _ _ _ _ _ _ _ _ _ _ K i j Hi Hj). lia.
  Qed.

  Section Cut.
    Variables s t : nat -> bool.
    Hypothesis Hls : forall i, (i < n1)%nat -> (0 < ls i)%Z -> s i = true.
    Hypothesis Hld : forall j, (j < n2)%nat -> (0 < ld j)%Z -> t j = false.
    Hypothesis Hsat : forall i j, (i < n1)%nat -> (j < n2)%nat -> s i = true -> t j = false -> X i j = U i j.
    Hypothesis Hzero : forall i j, (i < n1)%nat -> (j < n2)%nat -> s i = false -> t j = true -> X i j = 0%Z.

    Definition slack1 (Y : nat -> nat -> R) (i : nat) : R := (1 - b2r (s i)) * (IZR (A i) - row Y i).
    Definition slack2 (Y : nat -> nat -> R) (j : nat) : R := b2r (t j) * (IZR (B j) - col Y j).
    Definition slack3 (Y : nat -> nat -> R) (i j : nat) : R := (b2r (t j) - b2r (s i)) * (Y i j - IZR (X i j)).

    Lemma slacks_nonneg : forall Y, within Y ->
      (forall i, (i < n1)%nat -> 0 <= slack1 Y i) /\ (forall j, (j < n2)%nat -> 0 <= slack2 Y j) /\
      (forall i j, (i < n1)%nat -> (j < n2)%nat -> 0 <= slack3 Y i j).
    Proof.
      intros Y (H1 & H2 & H3). unfold slack1, slack2, slack3, b2r. split; [|split].
      - intros i Hi. specialize (H2 i Hi). destruct (s i); lra.
      - intros j Hj. specialize (H3 j Hj). destruct (t j); lra.
      - intros i j Hi Hj. specialize (H1 i j Hi Hj). specialize (Hsat i j Hi Hj). specialize (Hzero i j Hi Hj).
        destruct (s i), (t j); try lra.
        + rewrite Hsat by auto. lra.
        + rewrite Hzero by auto. lra.
    Qed.

    Lemma cut_identity : forall Y,
      mss XR - mss Y = Sum n1 (slack1 Y) + Sum n2 (slack2 Y) + Sum n1 (fun i => Sum n2 (fun j => slack3 Y i j)).
    Proof.
      intros Y. unfold slack3.
      rewrite (Sum_ext n1 (fun i => Sum n2 (fun j => (b2r (t j) - b2r (s i)) * (Y i j - IZR (X i j))))
        (fun i => Sum n2 (fun j => (- b2r (s i) - (- b2r (t j))) * (Y i j - IZR (X i j)))))
        by (intros i Hi; apply Sum_ext; intros j Hj; ring).
      rewrite (weigh n1 n2 (fun i => - b2r (s i)) (fun j => - b2r (t j)) Y XR).
      assert (E1 : Sum n1 (fun i => b2r (s i) * (IZR (A i) - row XR i)) = Sum n1 (fun i => IZR (A i) - row XR i)).
      { apply Sum_ext. intros i Hi. unfold b2r. destruct (s i) eqn:E; [lra|].
        assert (IZR (A i) - row XR i = 0); [|lra].
        rewrite <- (c_row _ _ _ _ _ _ _ _ _ _ _ _ K i Hi), plus_IZR, IZR_ZSum. unfold rowR.
        pose proof (c_ls _ _ _ _ _ _ _ _ _ _ _ _ K i Hi). destruct (Z_lt_ge_dec 0 (ls i)); [rewrite Hls in E by auto; discriminate|].
        replace (ls i) with 0%Z by lia. lra. }
      assert (E2 : Sum n2 (fun j => b2r (t j) * (IZR (B j) - col XR j)) = 0).
      { apply Sum_zero. intros j Hj. unfold b2r. destruct (t j) eqn:E; [|lra].
        assert (IZR (B j) - col XR j = 0); [|lra].
        rewrite <- (c_col _ _ _ _ _ _ _ _ _ _ _ _ K j Hj), plus_IZR, IZR_ZSum. unfold colR.
        pose proof (c_ld _ _ _ _ _ _ _ _ _ _ _ _ K j Hj). destruct (Z_lt_ge_dec 0 (ld j)); [rewrite Hld in E by auto; discriminate|].
        replace (ld j) with 0%Z by lia. lra. }
      assert (E3 : Sum n1 (slack1 Y) + Sum n1 (fun i => - b2r (s i) * (row Y i - row XR i)) =
                   Sum n1 (fun i => IZR (A i) - row Y i) - Sum n1 (fun i => b2r (s i) * (IZR (A i) - row XR i))).
      { rewrite <- Sum_plus, <- Sum_minus. apply Sum_ext. intros i Hi. unfold slack1. ring. }
      assert (E4 : Sum n2 (slack2 Y) - Sum n2 (fun j => - b2r (t j) * (col Y j - col XR j)) =
                   Sum n2 (fun j => b2r (t j) * (IZR (B j) - col XR j))).
      { rewrite <- Sum_minus. apply Sum_ext. intros j Hj. unfold slack2. ring. }
      rewrite E1 in E3. rewrite E2 in E4. rewrite !Sum_minus in E3.
      change (mss XR) with (Sum n1 (row XR)). change (mss Y) with (Sum n1 (row Y)). lra.
    Qed.

    (** A plan shipping as much respects the cut too. *)
    Lemma tight : forall Y, within Y -> mss Y = mss XR ->
      (forall i, (i < n1)%nat -> s i = false -> row Y i = IZR (A i)) /\
      (forall j, (j < n2)%nat -> t j = true -> col Y j = IZR (B j)) /\
      (forall i j, (i < n1)%nat -> (j < n2)%nat -> s i = true -> t j = false -> Y i j = IZR (U i j)).
    Proof.
      intros Y HY E. pose proof (cut_identity Y) as Q. rewrite E in Q. destruct (slacks_nonneg Y HY) as (N1 & N2 & N3).
      pose proof (Sum_nonneg n1 (slack1 Y) N1) as P1. pose proof (Sum_nonneg n2 (slack2 Y) N2) as P2.
      assert (N3' : forall i, (i < n1)%nat -> 0 <= Sum n2 (fun j => slack3 Y i j)) by (intros i Hi; apply Sum_nonneg; auto).
      pose proof (Sum_nonneg n1 _ N3') as P3. cbv beta in P3.
      split; [|split].
      - intros i Hi Hs. pose proof (Sum_zero_inv n1 (slack1 Y) N1 ltac:(lra) i Hi) as Z0. unfold slack1, b2r in Z0.
        rewrite Hs in Z0. lra.
      - intros j Hj Ht. pose proof (Sum_zero_inv n2 (slack2 Y) N2 ltac:(lra) j Hj) as Z0. unfold slack2, b2r in Z0.
        rewrite Ht in Z0. lra.
      - intros i j Hi Hj Hs Ht. pose proof (Sum_zero_inv n1 _ N3' ltac:(lra) i Hi) as Z0. cbv beta in Z0.
        pose proof (Sum_zero_inv n2 _ (fun j => N3 i j Hi) Z0 j Hj) as Z1. cbv beta in Z1. unfold slack3, b2r in Z1.
        rewrite Hs, Ht in Z1. rewrite <- (Hsat i j Hi Hj Hs Ht). lra.
    Qed.
  End Cut.

  (** One row is larger by [d] than the weights the capacities come from. *)
  Variables (a : nat -> Z) (k : nat) (d : Z).
  Hypothesis Hk : (k < n1)%nat.
  Hypothesis HA : forall i, (i < n1)%nat -> A i = (a i + (if Nat.eqb i k then d else 0))%Z.
  Hypothesis Ha1 : forall i, (i < n1)%nat -> (1 <= a i)%Z.
  Hypothesis Hak : forall i, (i < n1)%nat -> (a i <= a k)%Z.
  Hypothesis HB1 : forall j, (j < n2)%nat -> (1 <= B j)%Z.
  Hypothesis HU : forall i j, (i < n1)%nat -> (j < n2)%nat -> U i j = Z.min (a i) (B j).
  Hypothesis Hd : (0 <= d)%Z.

  Lemma sum_A : Sum n1 (fun i => IZR (A i)) = Sum n1 (fun i => IZR (a i)) + IZR d.
  Proof.
    rewrite (Sum_ext n1 _ (fun i => IZR (a i) + IZR (if Nat.eqb i k then d else 0))) by (intros i Hi; now rewrite HA, plus_IZR).
    rewrite Sum_plus. f_equal. rewrite (Sum_single n1 _ k Hk).
    - now rewrite Nat.eqb_refl.
    - intros j Hj Hne. apply Nat.eqb_neq in Hne. now rewrite Hne.
  Qed.

  Lemma sum_AB : Sum n1 (fun i => IZR (A i)) = Sum n2 (fun j => IZR (B j)).
  Proof. pose proof (c_bal _ _ _ _ _ _ _ _ _ _ _ _ K) as E. rewrite <- !IZR_ZSum. now rewrite E. Qed.

  Definition product (i j : nat) : R := IZR (a i) * IZR (B j) / Sum n2 (fun j => IZR (B j)).

  Lemma sum_a_pos : 0 < Sum n1 (fun i => IZR (a i)).
  Proof.
    assert (IZR (a k) <= Sum n1 (fun i => IZR (a i))).
    { apply (Sum_ge_one n1 (fun i => IZR (a i))); auto. intros i Hi. apply IZR_le. specialize (Ha1 i Hi). lia. }
    pose proof (IZR_le _ _ (Ha1 k Hk)). lra.
  Qed.

  Lemma sum_B_pos : 0 < Sum n2 (fun j => IZR (B j)).
  Proof. rewrite <- sum_AB, sum_A. pose proof sum_a_pos. pose proof (IZR_le 0 d ltac:(lia)). lra. Qed.

  Lemma row_product : forall i, (i < n1)%nat -> row product i = IZR (a i).
  Proof.
    intros i Hi. unfold rowR, product. rewrite (Sum_ext n2 _ (fun j => IZR (a i) / Sum n2 (fun j => IZR (B j)) * IZR (B j))).
    - rewrite Sum_scal. pose proof sum_B_pos. field. lra.
    - intros j Hj. field. pose proof sum_B_pos. lra.
  Qed.

  Lemma mass_product : mss product = Sum n1 (fun i => IZR (a i)).
  Proof. unfold massR. apply Sum_ext. intros i Hi. apply row_product, Hi. Qed.

  Lemma within_product : within product.
  Proof.
    pose proof sum_B_pos as SB. pose proof sum_a_pos as Sa. pose proof (IZR_le 0 d ltac:(lia)) as Sd.
    pose proof sum_AB as E. rewrite sum_A in E.
    split; [|split].
    - intros i j Hi Hj. rewrite HU by auto. unfold product.
      pose proof (IZR_le _ _ (Ha1 i Hi)) as P1. pose proof (IZR_le _ _ (HB1 j Hj)) as P2.
      assert (Q1 : IZR (B j) <= Sum n2 (fun j => IZR (B j))).
      { apply (Sum_ge_one n2 (fun j => IZR (B j))); auto. intros j' Hj'. apply IZR_le. specialize (HB1 j' Hj'). lia. }
      assert (Q2 : IZR (a i) <= Sum n1 (fun i => IZR (a i))).
      { apply (Sum_ge_one n1 (fun i => IZR (a i))); auto. intros i' Hi'. apply IZR_le. specialize (Ha1 i' Hi'). lia. }
      split.
      + unfold Rdiv. apply Rmult_le_pos; [nra|]. left. now apply Rinv_0_lt_compat.
      + apply (Rmult_le_reg_r (Sum n2 (fun j => IZR (B j)))); auto. unfold Rdiv. rewrite Rmult_assoc, Rinv_l by lra.
        destruct (Z.min_spec (a i) (B j)) as [[_ ->] | [_ ->]]; nra.
    - intros i Hi. rewrite row_product by auto. rewrite HA by auto. apply IZR_le. destruct (Nat.eqb i k); lia.
    - intros j Hj. unfold colR, product.
      rewrite (Sum_ext n1 _ (fun i => IZR (B j) / Sum n2 (fun j => IZR (B j)) * IZR (a i))) by (intros i Hi; field; lra).
      rewrite Sum_scal. pose proof (IZR_le _ _ (HB1 j Hj)) as P2.
      apply (Rmult_le_reg_r (Sum n2 (fun j => IZR (B j)))); auto.
      replace (IZR (B j) / Sum n2 (fun j => IZR (B j)) * Sum n1 (fun i => IZR (a i)) * Sum n2 (fun j => IZR (B j)))
        with (IZR (B j) * Sum n1 (fun i => IZR (a i))) by (field; lra). nra.
  Qed.

  (** At least the smaller total is shipped. *)
  Theorem ship_most : Sum n1 (fun i => IZR (a i)) <= mss XR.
  Proof.
    rewrite <- mass_product. destruct within_product as (W1 & W2 & W3). eapply cert_ship; eauto.
  Qed.

  Lemma mass_cols : forall Y, mss Y = Sum n2 (col Y).
  Proof. intros Y. unfold massR, colR. apply Sum_swap. Qed.

  Lemma sum_others : forall m (f g : nat -> R) q, (q < m)%nat -> (forall i, (i < m)%nat -> i <> q -> f i = g i) ->
    Sum m f = Sum m g -> f q = g q.
  Proof.
    intros m f g q Hq H E.
    assert (Q : Sum m (fun i => f i - g i) = f q - g q) by (apply (Sum_single m (fun i => f i - g i) q Hq); intros j Hj Hne; rewrite H by auto; lra).
    rewrite Sum_minus in Q. lra.
  Qed.

  Hypothesis Hda : (d <= a k)%Z.

  Theorem marginals_unique : forall Y, within Y -> mss Y = mss XR ->
    (forall i, (i < n1)%nat -> row Y i = row XR i) /\ (forall j, (j < n2)%nat -> col Y j = col XR j).
  Proof.
    intros Y HY HM.
    assert (Hcase : (exists i, (i < n1)%nat /\ (0 < ls i)%Z) \/ (forall i, (i < n1)%nat -> ls i = 0%Z)).
    { destruct (Z_lt_ge_dec 0 (ZSum n1 ls)) as [L|L].
      - left. now apply ZSum_pos.
      - right. intros i Hi. pose proof (ZSum_ge_one n1 ls i (c_ls _ _ _ _ _ _ _ _ _ _ _ _ K) Hi).
        pose proof (c_ls _ _ _ _ _ _ _ _ _ _ _ _ K i Hi). lia. }
    assert (EL : ZSum n1 ls = ZSum n2 ld).
    { assert (E1 : ZSum n1 A = (ZSum n1 (fun i => ZSum n2 (fun j => X i j)) + ZSum n1 ls)%Z).
      { rewrite <- ZSum_plus. apply ZSum_ext. intros i Hi. symmetry. apply (c_row _ _ _ _ _ _ _ _ _ _ _ _ K i Hi). }
      assert (E2 : ZSum n2 B = (ZSum n2 (fun j => ZSum n1 (fun i => X i j)) + ZSum n2 ld)%Z).
      { rewrite <- ZSum_plus. apply ZSum_ext. intros j Hj. symmetry. apply (c_col _ _ _ _ _ _ _ _ _ _ _ _ K j Hj). }
      pose proof (c_bal _ _ _ _ _ _ _ _ _ _ _ _ K) as E3. rewrite ZSum_swap in E1. lia. }
    destruct Hcase as [(i0 & Hi0 & Hl0) | Hz].
    - (* some mass stays *)
      assert (HL : (0 < ZSum n1 ls)%Z).
      { pose proof (ZSum_ge_one n1 ls i0 (c_ls _ _ _ _ _ _ _ _ _ _ _ _ K) Hi0). lia. }
      destruct (the_cut) as (s & t & C1 & C2 & C3 & C4).
      assert (Hks : s k = true).
      { destruct (s k) eqn:E; auto. exfalso.
        pose proof (cut_identity s t C1 C2 product) as Q. destruct (slacks_nonneg s t C3 C4 _ within_product) as (N1 & N2 & N3).
        pose proof (Sum_ge_one n1 (slack1 s product) k N1 Hk) as P1. unfold slack1 at 1 in P1. rewrite E in P1. cbn [b2r] in P1.
        rewrite row_product, HA, Nat.eqb_refl, plus_IZR in P1 by auto.
        pose proof (Sum_nonneg n2 _ N2) as P2.
        assert (P3 : 0 <= Sum n1 (fun i => Sum n2 (fun j => slack3 s t product i j)))
          by (apply Sum_nonneg; intros i Hi; apply Sum_nonneg; auto).
        rewrite mass_product in Q. pose proof (mass_left _ _ _ _ _ _ _ _ _ _ _ _ K) as ML. rewrite sum_A in ML.
        apply IZR_lt in HL. rewrite IZR_ZSum in HL. cbn beta in *. lra. }
      destruct (ZSum_pos n2 ld ltac:(lia)) as (q & Hq & Hlq).
      assert (Htq : t q = false) by (apply C2; auto).
      assert (Hbq : (a k < B q)%Z).
      { pose proof (C3 k q Hk Hq Hks Htq) as E. rewrite HU in E by auto.
        pose proof (c_col _ _ _ _ _ _ _ _ _ _ _ _ K q Hq) as E2.
        pose proof (ZSum_ge_one n1 (fun i => X i q) k) as G1. cbv beta in G1.
        assert (X k q <= ZSum n1 (fun i => X i q))%Z.
        { apply G1; auto. intros i Hi. apply (c_x _ _ _ _ _ _ _ _ _ _ _ _ K i q Hi Hq). }
        lia. }
      assert (Rows : forall Z, within Z -> mss Z = mss XR -> forall i, (i < n1)%nat -> i <> k -> row Z i = IZR (A i)).
      { intros Z HZ EZ i Hi Hne. destruct (tight s t C1 C2 C3 C4 Z HZ EZ) as (T1 & T2 & T3).
        destruct (s i) eqn:E; [|auto]. destruct HZ as (Z1 & Z2 & Z3). apply Rle_antisym; [auto|].
        rewrite HA by auto. apply Nat.eqb_neq in Hne. rewrite Hne, Z.add_0_r.
        pose proof (T3 i q Hi Hq E Htq) as E3. rewrite HU in E3 by auto. rewrite Z.min_l in E3 by (specialize (Hak i Hi); lia).
        rewrite <- E3. unfold rowR. apply (Sum_ge_one n2 (fun j => Z i j)); auto. intros j Hj. apply Z1; auto. }
      assert (Rall : forall i, (i < n1)%nat -> row Y i = row XR i).
      { intros i Hi. destruct (Nat.eq_dec i k) as [-> | Hne].
        - apply (sum_others n1); [exact Hk | | exact HM]. intros i' Hi' Hne'. rewrite (Rows Y), (Rows XR); auto. apply within_X.
        - rewrite (Rows Y), (Rows XR); auto. apply within_X. }
      split; [exact Rall|].
      assert (Hrk : row XR k < IZR (A k)).
      { pose proof (mass_left _ _ _ _ _ _ _ _ _ _ _ _ K) as ML. apply IZR_lt in HL. rewrite IZR_ZSum in HL.
        assert (Q : Sum n1 (fun i => IZR (A i) - row XR i) = IZR (A k) - row XR k).
        { apply (Sum_single n1 (fun i => IZR (A i) - row XR i) k Hk). intros i Hi Hne. rewrite (Rows XR within_X eq_refl i Hi Hne). lra. }
        rewrite Sum_minus in Q. change (mss XR) with (Sum n1 (row XR)) in ML. cbn beta in *. lra. }
      assert (Cols : forall Z, within Z -> mss Z = mss XR -> (forall i, (i < n1)%nat -> row Z i = row XR i) ->
        forall j, (j < n2)%nat -> j <> q -> col Z j = IZR (B j)).
      { intros Z HZ EZ HR j Hj Hne. destruct (tight s t C1 C2 C3 C4 Z HZ EZ) as (T1 & T2 & T3).
        destruct (t j) eqn:E; [auto|]. destruct HZ as (Z1 & Z2 & Z3). apply Rle_antisym; [auto|].
        pose proof (T3 k j Hk Hj Hks E) as E3. rewrite HU in E3 by auto.
        destruct (Z_le_gt_dec (B j) (a k)) as [L|L].
        - rewrite Z.min_r in E3 by auto. rewrite <- E3. unfold colR. apply (Sum_ge_one n1 (fun i => Z i j)); auto.
          intros i Hi. apply Z1; auto.
        - exfalso. rewrite Z.min_l in E3 by lia. pose proof (T3 k q Hk Hq Hks Htq) as E4. rewrite HU in E4 by auto.
          rewrite Z.min_l in E4 by lia.
          assert (Q : Z k j + Z k q <= row Z k).
          { unfold rowR.
            assert (Q : Sum n2 (fun j' => if Nat.eqb j' j then Z k j else if Nat.eqb j' q then Z k q else 0) = Z k j + Z k q).
            { rewrite (Sum_ext n2 _ (fun j' => (if Nat.eqb j' j then Z k j else 0) + (if Nat.eqb j' q then Z k q else 0))).
              - rewrite Sum_plus. f_equal.
                + rewrite (Sum_single n2 _ j Hj); [now rewrite Nat.eqb_refl|]. intros j' _ H. apply Nat.eqb_neq in H. now rewrite H.
                + rewrite (Sum_single n2 _ q Hq); [now rewrite Nat.eqb_refl|]. intros j' _ H. apply Nat.eqb_neq in H. now rewrite H.
              - intros j' Hj'. destruct (Nat.eqb_spec j' j); destruct (Nat.eqb_spec j' q); try lra. subst. congruence. }
            rewrite <- Q. apply Sum_le. intros j' Hj'. destruct (Nat.eqb_spec j' j); [subst; lra|].
            destruct (Nat.eqb_spec j' q); [subst; lra|]. apply Z1; auto. }
          rewrite E3, E4, (HR k Hk) in Q. rewrite HA, Nat.eqb_refl, plus_IZR in Hrk by auto.
          pose proof (IZR_le d (a k) ltac:(lia)). lra. }
      intros j Hj. destruct (Nat.eq_dec j q) as [-> | Hne].
      + apply (sum_others n2); [exact Hq | | rewrite <- (mass_cols Y), <- (mass_cols XR); exact HM]. intros j' Hj' Hne'.
        rewrite (Cols Y), (Cols XR); auto. apply within_X.
      + rewrite (Cols Y), (Cols XR); auto. apply within_X.
    - (* everything is shipped *)
      assert (Hz2 : forall j, (j < n2)%nat -> ld j = 0%Z).
      { assert (E0 : ZSum n1 ls = 0%Z) by (apply ZSum_zero; auto). intros j Hj.
        pose proof (ZSum_ge_one n2 ld j (c_ld _ _ _ _ _ _ _ _ _ _ _ _ K) Hj). pose proof (c_ld _ _ _ _ _ _ _ _ _ _ _ _ K j Hj). lia. }
      assert (RX : forall i, (i < n1)%nat -> row XR i = IZR (A i)).
      { intros i Hi. rewrite <- (c_row _ _ _ _ _ _ _ _ _ _ _ _ K i Hi), Hz, plus_IZR, IZR_ZSum by auto. unfold rowR. lra. }
      assert (CX : forall j, (j < n2)%nat -> col XR j = IZR (B j)).
      { intros j Hj. rewrite <- (c_col _ _ _ _ _ _ _ _ _ _ _ _ K j Hj), Hz2, plus_IZR, IZR_ZSum by auto. unfold colR. lra. }
      destruct HY as (Y1 & Y2 & Y3). split.
      + intros i Hi. rewrite RX by auto.
        assert (Q : Sum n1 (fun i => IZR (A i) - row Y i) = 0).
        { assert (EA : mss XR = Sum n1 (fun i => IZR (A i))) by (exact (Sum_ext n1 _ _ RX)).
          transitivity (Sum n1 (fun i => IZR (A i)) - mss Y); [rewrite Sum_minus; reflexivity|]. rewrite HM, EA. lra. }
        pose proof (Sum_zero_inv n1 (fun i => IZR (A i) - row Y i)) as Z0. cbv beta in Z0.
        specialize (Z0 ltac:(intros i' Hi'; specialize (Y2 i' Hi'); lra) Q i Hi). lra.
      + intros j Hj. rewrite CX by auto.
        assert (Q : Sum n2 (fun j => IZR (B j) - col Y j) = 0).
        { assert (EB : mss XR = Sum n2 (fun j => IZR (B j))) by (rewrite (mass_cols XR); exact (Sum_ext n2 _ _ CX)).
          transitivity (Sum n2 (fun j => IZR (B j)) - mss Y); [rewrite Sum_minus, (mass_cols Y); reflexivity|]. rewrite HM, EB. lra. }
        pose proof (Sum_zero_inv n2 (fun j => IZR (B j) - col Y j)) as Z0. cbv beta in Z0.
        specialize (Z0 ltac:(intros j' Hj'; specialize (Y3 j' Hj'); lra) Q j Hj). lra.
  Qed.
End Uniq.
