(** From motifs to the Earth mover's distance of their PDDs, with rounded operations throughout. *)
From Coq Require Import List ZArith Arith Bool Reals Lia Lra Psatz Permutation FinFun.
From Verif Require Import CalcProofs CalcProofs2 Num Outcome Base NNModel CalcModel EmdModel VecR Sums SpecGeom SpecCalc SpecEmd SpecEmd64 EmdReal EmdSym EmdTop
  Props_NN Props_Calc Props_Emd Props_EmdPdd RoundModel SpecRound RoundSum RoundProofs RoundCalc RoundCollapse Props_Round RoundEmdModel RoundEmd RoundEmdTop RoundEmdArgs.
Import ListNotations.
Open Scope R_scope.

(** ** Order of rows *)
Lemma Sum_eq_r : forall n f g, (forall i, (i < n)%nat -> f i = g i) -> Sum n f = Sum n g.
Proof. intros. now apply Sum_ext. Qed.

Lemma within_rows : forall n1 n2 f a b d eps v, bFun n1 f -> bInjective n1 f ->
  emd_within n1 n2 (fun i => a (f i)) b (fun i j => d (f i) j) eps v -> emd_within n1 n2 a b d eps v.
Proof.
  intros n1 n2 f a b d eps v Hf Hi [H1 (Y & (C1 & C2 & C3) & H3)].
  destruct (bij_inverse n1 f Hf Hi) as (g & Hg & Hgi & E1 & E2).
  assert (SB : forall h, Sum n1 (fun i => h (f i)) = Sum n1 h) by (intros h; now apply Sum_bij).
  split.
  - intros Z (Z1 & Z2 & Z3). eapply Rle_trans; [apply (H1 (fun i j => Z (f i) j))|].
    + split; [|split].
      * intros i j Hi' Hj. apply Z1; auto.
      * intros i Hi'. apply Z2. auto.
      * intros j Hj. rewrite <- Z3 by auto. apply (SB (fun i => Z i j)).
    + apply Rplus_le_compat_r, Req_le. apply (SB (fun i => Sum n2 (fun j => d i j * Z i j))).
  - exists (fun i j => Y (g i) j). split; [split; [|split]|].
    + intros i j Hi' Hj. apply C1; auto.
    + intros i Hi'. transitivity (row_total n2 Y (g i)); [reflexivity|]. rewrite C2, E2; auto.
    + intros j Hj. rewrite <- C3 by auto. unfold col_total. rewrite <- (SB (fun i => Y (g i) j)). apply Sum_ext.
      intros i Hi'. now rewrite E1.
    + eapply Rle_trans; [|exact H3]. apply Req_le. unfold transport_cost.
      rewrite <- (SB (fun i => Sum n2 (fun j => d i j * Y (g i) j))). apply Sum_ext.
      intros i Hi'. now rewrite E1.
Qed.

Lemma within_ext : forall n1 n2 a a' b b' d d' eps v, (forall i, (i < n1)%nat -> a i = a' i) -> (forall j, (j < n2)%nat -> b j = b' j) ->
  (forall i j, (i < n1)%nat -> (j < n2)%nat -> d i j = d' i j) -> emd_within n1 n2 a b d eps v -> emd_within n1 n2 a' b' d' eps v.
Proof.
  intros n1 n2 a a' b b' d d' eps v Ha Hb Hd [H1 (Y & (C1 & C2 & C3) & H3)].
  assert (T : forall Z, transport_cost n1 n2 d Z = transport_cost n1 n2 d' Z) by (intros Z; unfold transport_cost; apply Sum_ext; intros i Hi; apply Sum_ext; intros j Hj; rewrite Hd; auto).
  split.
  - intros Z (Z1 & Z2 & Z3). rewrite <- T. apply H1. split; [auto|split]; intros i Hi; [rewrite Z2, Ha|rewrite Z3, Hb]; auto.
  - exists Y. rewrite <- T. split; auto. split; [auto|split]; intros i Hi; [rewrite C2, Ha|rewrite C3, Hb]; auto.
Qed.

(** Exact matrices with rows in another order. *)
Lemma within_perm_both : forall k p p0 q q0 eps v, pdd_like k p -> pdd_like k q -> Permutation p p0 -> Permutation q q0 ->
  (forall d0, row_distance k p0 q0 d0 -> emd_within (length p0) (length q0) (fun i => mx p0 i 0) (fun j => mx q0 j 0) d0 eps v) ->
  forall d, row_distance k p q d -> emd_within (length p) (length q) (fun i => mx p i 0) (fun j => mx q j 0) d eps v.
Proof.
  intros k p p0 q q0 eps v P Q Hp Hq H d D.
  destruct (perm_index p p0 Hp) as (Lp & f & Hf & Hi & Hn). destruct (perm_index q q0 Hq) as (Lq & h & Hh & Hj & Hm).
  specialize (H (fun i j => d (f i) (h j))). rewrite Lp, Lq in H.
  assert (X : row_distance k p0 q0 (fun i j => d (f i) (h j))).
  { intros i j H1 H2. rewrite Lp in H1. rewrite Lq in H2. rewrite Hn, Hm by auto. apply D; auto. }
  specialize (H X). apply (within_rows _ _ f); auto. apply within_flip. apply (within_rows _ _ h); auto. apply within_flip.
  eapply within_ext; [| | |exact H]; intros; cbv beta; auto; unfold mx; [now rewrite Hn|now rewrite Hm].
Qed.

Lemma F2_flip : forall A B (P : A -> B -> Prop) l l', Forall2 P l l' -> Forall2 (fun b a => P a b) l' l.
Proof. intros A B P l l' H. induction H; constructor; auto. Qed.
Lemma F2_perm_r : forall A B (P : A -> B -> Prop) e r r0, Forall2 P e r -> Permutation r r0 -> exists e0, Permutation e e0 /\ Forall2 P e0 r0.
Proof.
  intros A B P e r r0 F H. apply F2_flip in F. destruct (Permutation_Forall2 H F) as (e0 & H1 & H2). exists e0. split; auto. apply F2_flip in H2. exact H2.
Qed.
Lemma map_fst_combine : forall A B (a : list A) (b : list B), length a = length b -> map fst (combine a b) = a.
Proof. induction a as [|x a IH]; intros [|y b] L; cbn in *; try lia; auto. f_equal. apply IH. lia. Qed.
Lemma pdd_lengths : forall (Nm : Num R) fuel ps k lexsort collapse tol pdd g, @PDD R Nm fuel ps k lexsort collapse tol = Done (pdd, g) -> length pdd = length g.
Proof.
  intros Nm fuel ps k lexsort collapse tol pdd g E. unfold PDD in E. destruct (query ps) as [[x mu]| | |]; try discriminate. cbn [obind] in E.
  destruct (nearest_neighbors _ _ _ _ _) as [rows| | |]; try discriminate. cbn [obind] in E. unfold assemble in E. destruct (collapse_rows _ _ _ _) as [[w d] gr]. inversion E. now rewrite !map_length.
Qed.

Lemma mean_range : forall D (rows : list (list R)) j, rows <> [] -> 0 <= D -> (forall r, In r rows -> 0 <= nth j r 0 <= D) -> 0 <= mean rows j <= D.
Proof.
  intros D rows j Hne HD H. unfold mean. assert (L : 0 < INR (length rows)) by (apply lt_0_INR; destruct rows; [congruence|cbn; lia]).
  assert (X : 0 <= rsum (map (fun r => nth j r 0) rows) <= INR (length rows) * D).
  { clear Hne L. induction rows as [|r rows IH]; [unfold rsum; cbn; lra|]. cbn [length]. rewrite S_INR. unfold rsum in *. cbn [map fold_right]. specialize (IH (fun r0 H0 => H r0 (or_intror H0))). specialize (H r (or_introl eq_refl)). lra. }
  split; [apply Rmult_le_pos; [lra|left; apply Rinv_0_lt_compat; auto]|]. apply (Rmult_le_reg_r (INR (length rows))); auto. unfold Rdiv. rewrite Rmult_assoc, Rinv_l by lra. lra.
Qed.

Section Pdd.
  Variables (dims : nat) (ps : pset R) (k : nat) (D : R).
  Hypothesis Hwf : pset_wf dims ps.
  Hypothesis H4 : (dims <= 4)%nat.
  Hypothesis Hin : spread dims (ps_cell ps) (ps_motif ps).
  Hypothesis HD : distances_within dims (ps_motif ps) (ps_cell ps) (points_of ps) k D.
  Notation m := (length (ps_motif ps)).

  Lemma full_range : forall fuel tol full idx, PDD fuel ps k false false tol = Done (full, idx) -> 0 <= D /\
    forall i j, (i < length full)%nat -> (j < k)%nat -> 0 <= nth j (snd (nth i full (0, []))) 0 <= D.
  Proof.
    intros fuel tol full idx E. rewrite (PDD_run dims ps Hwf) in E.
    destruct (nearest_neighbors fuel (ps_motif ps) (ps_cell ps) (points_of ps) (S k)) as [rows| | |] eqn:En; try discriminate. cbn [obind] in E.
    destruct (nn_rows_ok dims ps Hwf fuel k rows En) as [Lr Hr].
    pose proof (C05_rows_are_nearest dims _ _ _ k fuel rows (wf_ok _ _ Hwf) H4 Hin (points_incl _ _ Hwf) (points_nonempty _ _ Hwf) En) as ND.
    assert (NDi : forall i, (i < length rows)%nat -> nearest_distances dims (ps_motif ps) (ps_cell ps) (nth i (points_of ps) []) (S k) (nth i rows [])) by (intros i Hi; apply (F2_nth _ _ _ _ _ [] [] ND); lia).
    assert (RI : forall i j, (i < length rows)%nat -> (j < S k)%nat -> 0 <= nth j (nth i rows []) 0 <= D).
    { intros i j Hi Hj. rewrite Forall_forall in Hr. destruct (Hr (nth i rows []) ltac:(apply nth_In; auto)) as (Z1 & Z2 & Z3 & _).
      pose proof (HD (nth i (points_of ps) []) (nth i rows []) ltac:(apply nth_In; lia) (NDi i Hi)) as Y. rewrite Forall_forall in Y, Z3.
      assert (I : In (nth j (nth i rows []) 0) (nth i rows [])) by (apply nth_In; unfold vec in *; lia). split; [apply Z3|apply Y]; auto. }
    assert (L0 : (0 < length rows)%nat) by (pose proof (points_nonempty _ _ Hwf); destruct (points_of ps); [congruence|cbn in Lr; lia]).
    split; [pose proof (RI 0%nat 0%nat L0 ltac:(lia)); lra|].
    unfold collapse_rows in E. cbn [andb] in E. unfold assemble in E. injection E as E _. intros i j Hi Hj. rewrite <- E in *. rewrite map_length, seq_length, map_length in Hi.
    rewrite nth_map_seq by (rewrite map_length; auto). cbn [snd]. rewrite (map_nth (@tl R) rows []). replace (nth j (tl (nth i rows [])) 0) with (nth (S j) (nth i rows []) 0) by (destruct (nth i rows []); [destruct j|]; reflexivity).
    apply RI; auto. lia.
  Qed.

  Lemma pdd_range : forall fuel lexsort collapse tol pdd g, PDD fuel ps k lexsort collapse tol = Done (pdd, g) ->
    0 <= D /\ Forall (fun r => Forall (fun x => 0 <= x <= D) (snd r)) pdd.
  Proof.
    intros fuel lexsort collapse tol pdd g E. destruct (C19_groups_identify_rows _ _ _ _ _ _ _ _ _ Hwf E) as (full & idx & E0 & _ & Hlen & Hrow & HP & H2).
    destruct (full_range _ _ _ _ E0) as [D0 FR]. split; auto. apply Forall_forall. intros r Hr. apply (In_nth _ _ (0, [])) in Hr as (i & Hi & <-).
    destruct (F2_nth _ _ _ _ _ (0, []) [] H2 i Hi) as (G1 & _ & G2 & _). rewrite G2. apply Forall_forall. intros x Hx. apply in_map_iff in Hx as (j & <- & Hj). apply in_seq in Hj.
    apply mean_range; auto; [destruct (nth i g []); [congruence|discriminate]|]. intros r Hr. apply in_map_iff in Hr as (t & <- & Ht). apply FR; [|lia].
    assert (I : In t (concat g)) by (apply in_concat; exists (nth i g []); split; auto; apply nth_In; rewrite <- (F2_len _ _ _ _ _ H2); auto).
    apply (Permutation_in _ HP) in I. apply in_seq in I. lia.
  Qed.

  Lemma pdd_multiples : forall fuel lexsort collapse tol pdd g, PDD fuel ps k lexsort collapse tol = Done (pdd, g) ->
    multiples m (map fst pdd) /\ (length pdd <= m)%nat.
  Proof.
    intros fuel lexsort collapse tol pdd g E. destruct (C19_groups_identify_rows _ _ _ _ _ _ _ _ _ Hwf E) as (full & idx & E0 & _ & Hlen & Hrow & HP & H2).
    pose proof (wf_pos _ _ Hwf) as WP. pose proof (points_length _ _ Hwf) as PL.
    assert (CL : (length (counts_of ps) <= m)%nat). { rewrite <- (wf_sum _ _ Hwf). clear - WP. unfold list_sum. induction WP as [|c l Hc WP IH]; cbn in *; lia. }
    pose proof (wf_len _ _ Hwf) as WL. split.
    - apply Forall_forall. intros x Hx. apply in_map_iff in Hx as (r & <- & Hr). apply (In_nth _ _ (0, [])) in Hr as (i & Hi & <-).
      destruct (F2_nth _ _ _ _ _ (0, []) [] H2 i Hi) as (G1 & G2 & _). rewrite G2.
      assert (GI : forall t, In t (nth i g []) -> (t < length full)%nat).
      { intros t Ht. assert (I : In t (concat g)) by (apply in_concat; exists (nth i g []); split; auto; apply nth_In; rewrite <- (F2_len _ _ _ _ _ H2); auto).
        apply (Permutation_in _ HP) in I. apply in_seq in I. lia. }
      assert (X : forall l, (forall t, In t l -> (t < length full)%nat) -> exists c, (length l <= c)%nat /\ rsum (map (fun i0 => fst (nth i0 full (0, []))) l) = INR c / INR m).
      { induction l as [|t l IH]; intros Hl; [exists 0%nat; split; auto; unfold rsum; cbn; lra|]. destruct IH as (c & C1 & C2); [intros s Hs; apply Hl; right; auto|].
        specialize (Hl t (or_introl eq_refl)). destruct (Hrow t Hl) as [F1 _]. exists (nth t (counts_of ps) 0 + c)%nat. split.
        - rewrite Forall_forall in WP. assert (1 <= nth t (counts_of ps) 0)%nat by (apply WP, nth_In; lia). cbn [length]. lia.
        - unfold rsum in *. cbn [map fold_right]. rewrite C2, F1, plus_INR. unfold Rdiv. ring. }
      destruct (X (nth i g []) GI) as (c & C1 & C2). exists c. split; auto. destruct (nth i g []); [congruence|cbn in C1; lia].
    - rewrite (F2_len _ _ _ _ _ H2). apply Permutation_length in HP. rewrite seq_length in HP. assert (GN : Forall (fun x => x <> []) g).
      { clear - H2. induction H2 as [|? ? ? ? H]; constructor; auto. apply H. }
      assert (length g <= length (concat g))%nat. { clear - GN. induction GN as [|x l Hx GN IH]; cbn; [lia|]. rewrite app_length. destruct x; [congruence|]. cbn. lia. }
      lia.
  Qed.
End Pdd.
