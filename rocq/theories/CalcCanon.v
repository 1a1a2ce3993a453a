(** When rows within the tolerance of each other are equal, a collapsed and sorted PDD is
    determined by the total weight of every row value. *)
From Coq Require Import List ZArith Arith Bool Lia Reals Lra Permutation Sorted.
From Verif Require Import Num Base Spec SpecGeom SpecCalc Outcome Condensed CollapseModel CollapseProofs
  NNModel VecR NNComplete CalcModel CalcProofs CalcProofs2.
Import ListNotations.
Open Scope R_scope.

Definition row_dec : forall u v : list R, {u = v} + {u <> v} := list_eq_dec Req_EM_T.

(** Total weight of the rows equal to [r]. *)
Definition row_weight (pdd : list (R * list R)) (r : list R) : R :=
  rsum (map (fun p => if row_dec (snd p) r then fst p else 0) pdd).

Lemma row_weight_perm : forall p q r, Permutation p q -> row_weight p r = row_weight q r.
Proof. intros. apply rsum_perm, Permutation_map. auto. Qed.

Lemma row_weight_pos : forall pdd r, Forall (fun p => 0 < fst p) pdd ->
  (0 < row_weight pdd r <-> In r (map snd pdd)) /\ 0 <= row_weight pdd r.
Proof.
  intros pdd r H. induction H as [|[w u] pdd Hw H IH].
  - unfold row_weight. simpl. split; [split; [lra|tauto]|lra].
  - unfold row_weight in *. simpl in *. destruct IH as [[IH1 IH2] IH3]. destruct (row_dec u r) as [->|Hn].
    + split; [split; auto; lra|lra].
    + rewrite Rplus_0_l. split; auto. split; auto. intros [->|Hi]; auto. congruence.
Qed.

(** Lexicographic order *)
Lemma lex_lt_irrefl : forall u, ~ lex_lt u u.
Proof. intros u (j & _ & _ & H). lra. Qed.

Lemma lex_lt_trans : forall u v w, length u = length v -> lex_lt u v -> lex_lt v w -> lex_lt u w.
Proof.
  intros u v w L (j & H1 & H2 & H3) (j' & H1' & H2' & H3').
  destruct (Nat.lt_trichotomy j j') as [H|[H|H]].
  - exists j. split; auto. split.
    + intros i Hi. rewrite H2 by auto. apply H2'. lia.
    + rewrite <- (H2' j) by auto. auto.
  - subst j'. exists j. split; auto. split.
    + intros i Hi. rewrite H2 by auto. auto.
    + lra.
  - exists j'. split; [lia|]. split.
    + intros i Hi. rewrite H2 by lia. auto.
    + rewrite (H2 j') by auto. auto.
Qed.

Lemma lex_le_antisym : forall u v, length u = length v -> lex_le u v -> lex_le v u -> u = v.
Proof.
  intros u v L [H|H] [H'|H']; auto. exfalso. eapply lex_lt_irrefl. eapply lex_lt_trans; eauto.
Qed.

Lemma strict_unique : forall k (p q : list (R * list R)),
  Forall (fun a => 0 < fst a) p -> Forall (fun a => 0 < fst a) q ->
  Forall (fun r => length r = k) (map snd p) -> Forall (fun r => length r = k) (map snd q) ->
  StronglySorted lex_lt (map snd p) -> StronglySorted lex_lt (map snd q) ->
  (forall r, row_weight p r = row_weight q r) -> p = q.
Proof.
  intros k p. induction p as [|[w u] p IH]; intros q Hp Hq Lp Lq Sp Sq E.
  - destruct q as [|[w' u'] q]; auto. exfalso.
    destruct (row_weight_pos _ u' Hq) as [[_ H] _]. simpl in H. specialize (H (or_introl eq_refl)).
    rewrite <- E in H. unfold row_weight in H. simpl in H. lra.
  - assert (Hin : forall r, In r (map snd ((w, u) :: p)) <-> In r (map snd q)).
    { intros r. destruct (row_weight_pos _ r Hp) as [H1 _]. destruct (row_weight_pos _ r Hq) as [H2 _].
      rewrite <- H1, <- H2, E. tauto. }
    destruct q as [|[w' u'] q]; [exfalso; apply (proj1 (Hin u)); simpl; auto|].
    simpl in *. inversion Sp as [|? ? Sp1 Sp2]. inversion Sq as [|? ? Sq1 Sq2]. subst.
    inversion Lp as [|? ? Lp1 Lp2]. inversion Lq as [|? ? Lq1 Lq2]. subst.
    rewrite Forall_forall in Sp2, Sq2.
    assert (u = u').
    { destruct (proj1 (Hin u) (or_introl eq_refl)) as [H|H]; auto.
      destruct (proj2 (Hin u') (or_introl eq_refl)) as [H'|H']; auto.
      exfalso. apply (lex_lt_irrefl u). eapply lex_lt_trans; [|apply Sp2; exact H'|apply Sq2; exact H]. congruence. }
    subst u'.
    assert (Hz : forall (l : list (R * list R)), (forall r, In r (map snd l) -> lex_lt u r) -> row_weight l u = 0).
    { intros l Hl. unfold row_weight. induction l as [|[a r] l IHl]; auto. simpl.
      destruct (row_dec r u) as [->|Hn].
      - exfalso. apply (lex_lt_irrefl u), Hl. simpl; auto.
      - rewrite IHl; [lra|]. intros; apply Hl; simpl; auto. }
    assert (w = w').
    { specialize (E u). unfold row_weight in E. simpl in E.
      destruct (row_dec u u) as [_|]; [|congruence].
      fold (row_weight p u) in E. fold (row_weight q u) in E.
      rewrite (Hz p), (Hz q) in E; auto. lra. }
    subst w'. f_equal. inversion Hp. inversion Hq. subst. apply IH; auto.
    intros r. specialize (E r). unfold row_weight in *. simpl in E. lra.
Qed.

Section Canon.
  Variables (w : list R) (d : list (list R)) (kk : nat) (tol : R).
  Hypothesis Hwd : length w = length d.
  Hypothesis Hd : Forall (fun r => length r = kk) d.
  Hypothesis Hw : Forall (fun a => 0 < a) w.
  Hypothesis Htol : 0 <= tol.
  Hypothesis Hsep : forall u v, In u d -> In v d -> close_rows tol u v -> u = v.

  Lemma mean_const : forall g u, g <> [] -> (forall i, In i g -> nth i d [] = u) -> length u = kk ->
    map (mean (rows_of d g)) (seq 0 kk) = u.
  Proof.
    intros g u Hne H Lu. symmetry. apply list_eq_nth; auto. intros j Hj. unfold mean, rows_of.
    rewrite map_map, map_length.
    rewrite (map_ext_in _ (fun _ => nth j u 0)) by (intros i Hi; rewrite H; auto).
    rewrite rsum_map_const. pose proof (INR_length_pos _ _ Hne). field. lra.
  Qed.

  Theorem canonical : exists pdd groups,
    assemble (collapse_rows w d true tol) true = (pdd, groups) /\
    Forall (fun p => 0 < fst p) pdd /\ Forall (fun r => length r = kk) (map snd pdd) /\
    StronglySorted lex_lt (map snd pdd) /\
    (forall r, row_weight pdd r = row_weight (combine w d) r).
  Proof.
    destruct (assemble_spec w d kk Hwd Hd true true tol) as (g0 & g & E1 & _ & HG & HP & HS).
    specialize (HS eq_refl).
    exists (map (pdd_row w d kk) g), g. split; [auto|].
    assert (Hrng : forall x i, In x g -> In i x -> (i < length d)%nat) by (intros; eapply group_range; eauto).
    assert (Hne : forall x, In x g -> x <> []) by (intros; eapply group_ne; eauto).
    assert (Hrow : forall i, (i < length d)%nat -> In (nth i d []) d) by (intros; apply nth_In; auto).
    assert (Hhd : forall x, In x g -> In (hd 0%nat x) x).
    { intros x Hx. specialize (Hne x Hx). destruct x; [congruence|left; auto]. }
    assert (Heq : forall x i, In x g -> In i x -> nth i d [] = nth (hd 0%nat x) d []).
    { intros x i Hx Hi. destruct (Nat.eq_dec i (hd 0%nat x)) as [->|Hn]; auto.
      destruct (gr_close _ _ _ _ HG x i) as (_ & _ & Hc); auto.
      - eapply groups_In; eauto.
      - symmetry. apply Hsep; eauto. }
    assert (Hsnd : forall x, In x g -> snd (pdd_row w d kk x) = nth (hd 0%nat x) d []).
    { intros x Hx. apply mean_const; auto. apply (nth_row_length d kk Hd). eauto. }
    (* different groups have different rows *)
    assert (Hdist0 : forall a b, (a < length g0)%nat -> (b < length g0)%nat -> a <> b ->
      nth (hd 0%nat (nth a g0 [])) d [] <> nth (hd 0%nat (nth b g0 [])) d []).
    { assert (X : forall a b, (a < b < length g0)%nat ->
        nth (hd 0%nat (nth a g0 [])) d [] <> nth (hd 0%nat (nth b g0 [])) d []).
      { intros a b Hab E. apply (gr_apart _ _ _ _ HG eq_refl a b (hd 0%nat (nth b g0 [])) Hab).
        - apply Hhd. eapply Permutation_in; [exact HP|]. apply nth_In; lia.
        - split; auto. rewrite E. intros j Hj. rewrite Rminus_diag_eq, Rabs_R0; auto. }
      intros a b Ha Hb Hn. destruct (Nat.lt_ge_cases a b) as [H|H]; [apply X; lia|].
      intros E. apply (X b a); [lia|congruence]. }
    assert (Hnd : NoDup (map snd (map (pdd_row w d kk) g))).
    { eapply Permutation_NoDup; [apply Permutation_map, Permutation_map, HP|]. rewrite map_map.
      rewrite (map_ext_in _ (fun x => nth (hd 0%nat x) d [])).
      2: { intros x Hx. apply Hsnd. eapply Permutation_in; eauto. }
      rewrite <- (map_nth_seq g0 []), map_map.
      apply (NoDup_nth _ (nth (hd 0%nat (nth (length g0) g0 [])) d [])). rewrite map_length, seq_length.
      intros a b Ha Hb E.
      rewrite !(map_nth (fun i => nth (hd 0%nat (nth i g0 [])) d [])), !seq_nth in E by auto.
      destruct (Nat.eq_dec a b) as [|Hn]; auto. exfalso. apply (Hdist0 a b); auto. }
    split; [|split; [|split]].
    - apply Forall_forall. intros p Hp. apply in_map_iff in Hp as (x & <- & Hx). simpl. unfold weight_of.
      apply rsum_pos; [specialize (Hne x Hx); destruct x; [congruence|discriminate]|].
      apply Forall_forall. intros y Hy. apply in_map_iff in Hy as (i & <- & Hi).
      rewrite Forall_forall in Hw. apply Hw, nth_In. rewrite Hwd. eauto.
    - apply Forall_forall. intros r Hr. apply in_map_iff in Hr as (p & <- & Hp).
      apply in_map_iff in Hp as (x & <- & Hx). simpl. rewrite map_length, seq_length. auto.
    - clear - HS Hnd. induction HS as [|u l HS IH HF]; constructor.
      + apply IH. inversion Hnd; auto.
      + inversion Hnd as [|? ? Hn _]. subst. rewrite Forall_forall in HF |- *. intros v Hv.
        destruct (HF v Hv) as [<-|H]; auto. contradiction.
    - intros r. unfold row_weight at 1. rewrite map_map.
      transitivity (rsum (map (fun x => rsum (map (fun i => if row_dec (nth i d []) r then nth i w 0 else 0) x)) g)).
      { f_equal. apply map_ext_in. intros x Hx. rewrite (Hsnd x Hx). simpl fst. unfold weight_of.
        destruct (row_dec (nth (hd 0%nat x) d []) r) as [Hr|Hr].
        - f_equal. apply map_ext_in. intros i Hi. rewrite (Heq x i Hx Hi).
          destruct (row_dec (nth (hd 0%nat x) d []) r); congruence.
        - rewrite (map_ext_in _ (fun _ => 0)); [rewrite rsum_map_const; lra|].
          intros i Hi. rewrite (Heq x i Hx Hi). destruct (row_dec (nth (hd 0%nat x) d []) r); congruence. }
      rewrite <- (map_map (map (fun i => if row_dec (nth i d []) r then nth i w 0 else 0)) rsum).
      rewrite <- rsum_concat, <- concat_map.
      rewrite (rsum_perm _ _ (Permutation_map _ (groups_perm d tol true g0 g HG HP))).
      unfold row_weight. clear - Hwd. revert d Hwd.
      induction w as [|a w' IH]; intros [|u d'] L; simpl in L; try lia; auto.
      cbn [length seq map rsum fold_right combine fst snd nth]. f_equal.
      rewrite <- seq_shift, map_map. apply (IH d'). lia.
  Qed.
End Canon.

(** Two lists of weighted rows with the same total weights collapse to the same PDD. *)
Theorem canonical_unique : forall kk tol w d w' d',
  length w = length d -> length w' = length d' ->
  Forall (fun r => length r = kk) d -> Forall (fun r => length r = kk) d' ->
  Forall (fun a => 0 < a) w -> Forall (fun a => 0 < a) w' -> 0 <= tol ->
  (forall u v, In u d -> In v d -> close_rows tol u v -> u = v) ->
  (forall r, row_weight (combine w d) r = row_weight (combine w' d') r) ->
  fst (assemble (collapse_rows w d true tol) true) = fst (assemble (collapse_rows w' d' true tol) true).
Proof.
  intros kk tol w d w' d' L L' D D' W W' Ht Hsep E.
  assert (Hin : forall r, In r d' -> In r d).
  { assert (X : forall w d, length w = length d -> Forall (fun a => 0 < a) w ->
       Forall (fun p : R * list R => 0 < fst p) (combine w d) /\ map snd (combine w d) = d).
    { clear. intros w d L H. revert d L. induction H as [|a w Ha H IH]; intros [|u d] L; simpl in *; try lia; auto.
      destruct (IH d) as [X1 X2]; [lia|]. split; auto. congruence. }
    intros r Hr. destruct (X _ _ L W) as [A1 A2]. destruct (X _ _ L' W') as [B1 B2].
    destruct (row_weight_pos _ r A1) as [[C1 _] _]. destruct (row_weight_pos _ r B1) as [[_ C2] _].
    rewrite A2 in C1. rewrite B2 in C2. apply C1. rewrite E. auto. }
  destruct (canonical w d kk tol L D W Ht Hsep) as (p & g & -> & P1 & P2 & P3 & P4).
  destruct (canonical w' d' kk tol L' D' W' Ht) as (p' & g' & -> & P1' & P2' & P3' & P4').
  { intros u v Hu Hv. apply Hsep; auto. }
  simpl. apply (strict_unique kk); auto. intros r. rewrite P4, P4'. auto.
Qed.
