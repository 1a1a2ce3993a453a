(** C71 and C72: objects of ase and pymatgen. *)
From Coq Require Import List ZArith Reals Arith Bool Ascii String Lia Lra Sorted Permutation.
From Verif Require Import Num Base Outcome LatticeProofs2 NNModel Spec SpecGeom SpecCalc SpecSymmetry NNProofs NNSpecProofs NNComplete CalcModel CalcProofs CalcProofs2 Props_Calc Props_Inv Props_Geo
  CompareModel TextModel SpecText TextProofs Props_Text
  SitesModel SpecSites SitesProofs SitesExpand Props_Sites BlocksModel SpecBlocks BlocksProofs Props_Blocks SymmetryProofs Props_Symmetry ObjectsModel SpecObjects ObjectsProofs Props_Objects SpecSymmetry.
Import ListNotations.
Open Scope string_scope.
Open Scope R_scope.
Open Scope list_scope.
Notation length := List.length.

(** ** ase *)
Lemma filtered_fun : forall A (P : A -> Prop) (p : A -> bool) l l', (forall a, p a = true <-> P a) -> filtered P l l' -> l' = filter p l.
Proof. intros A P p l l' E F. symmetry. apply (filtered_filter _ P); auto. Qed.
Lemma combine_fst : forall A B (l : list A) (l' : list B), length l = length l' -> map fst (combine l l') = l.
Proof. intros A B l. induction l as [|a l IH]; intros [|b l'] E; try discriminate; auto. cbn. f_equal. auto. Qed.
Lemma combine_snd : forall A B (l : list A) (l' : list B), length l = length l' -> map snd (combine l l') = l'.
Proof. intros A B l. induction l as [|a l IH]; intros [|b l'] E; try discriminate; auto. cbn. f_equal. auto. Qed.

(** Atoms left by removing hydrogens. *)
Lemma popped : forall h a l, ase_left h a l -> (if h then pop_hydrogens a else a) = ase_with a l.
Proof.
  intros h a l [L F]. unfold ase_with. destruct h.
  - assert (E : l = filter (fun nt => negb (fst nt =? 1)%nat) (combine (ao_numbers a) (ao_scaled a))).
    { apply (filtered_fun _ (fun nt : nat * list R => ~ (true = true /\ fst nt = 1%nat))); auto. intros nt. rewrite negb_true_iff, Nat.eqb_neq. tauto. }
    unfold pop_hydrogens. set (pairs := combine (ao_numbers a) (ao_scaled a)) in *.
    assert (E1 : ao_numbers a = map fst pairs) by (symmetry; apply combine_fst; auto).
    assert (E2 : ao_scaled a = map snd pairs) by (symmetry; apply combine_snd; auto).
    set (remove := map fst (filter (fun it => (snd it =? 1)%nat) (enumerate (ao_numbers a)))).
    assert (R0 : forall i, (i < length pairs)%nat -> forall d, existsb (Nat.eqb i) remove = negb (negb (fst (nth i pairs d) =? 1)%nat)).
    { intros i Hi d. rewrite negb_involutive. unfold remove. rewrite E1.
      rewrite (existsb_positions _ (fst d) (fun n => (n =? 1)%nat)) by (rewrite map_length; auto). rewrite map_nth. auto. }
    rewrite E. f_equal.
    + rewrite E1 at 1. exact (without_filter _ _ fst (fun nt => negb (fst nt =? 1)%nat) remove pairs R0).
    + rewrite E2 at 1. exact (without_filter _ _ snd (fun nt => negb (fst nt =? 1)%nat) remove pairs R0).
  - assert (E : l = combine (ao_numbers a) (ao_scaled a)).
    { rewrite <- (filter_true _ (combine (ao_numbers a) (ao_scaled a))). apply (filtered_fun _ (fun nt : nat * list R => ~ (false = true /\ fst nt = 1%nat))); auto. intros nt. cbn. intuition discriminate. }
    rewrite E, combine_fst, combine_snd by auto. destruct a. auto.
Qed.

(** The expansion is that of the readers of CIFs. *)
Lemma ase_finish : forall tol get_basis a h l ops asym, ase_left h a l -> l <> [] -> get_basis (ase_with a l) = Done asym ->
  (ao_group a = Some ops \/ (ao_group a = None /\ ops = [P1 (T := R)])) ->
  forall cs w, finish mod1 tol true (ao_cell a) asym (repeat 0%nat (length asym)) ops = Done (cs, w) ->
  exists w', fst (ase_object_convert mod1 tol get_basis a h) = Done ({| cs_set := cs_set cs; cs_types := map fst l |}, w') /\
    (ao_group a = None -> In NoSymmetry w').
Proof.
  intros tol get_basis a h l ops asym HL HN HB HG cs w F. unfold ase_object_convert. rewrite (popped h a l HL). cbn [fst ase_with ao_numbers ao_group ao_cell].
  destruct (map fst l) as [|n ns] eqn:E; [destruct l; [congruence|discriminate]|].
  assert (X : exists w0, (match ao_group a with Some ops => (ops, []) | None => ([P1 (T := R)], [NoSymmetry]) end) = (ops, w0) /\ (ao_group a = None -> In NoSymmetry w0)).
  { destruct HG as [->|[-> ->]]; eexists; split; try reflexivity; [discriminate|left; auto]. }
  destruct X as (w0 & -> & W0).
  rewrite HB. cbn [obind]. unfold finish in F. destruct (expand_asym_unit mod1 tol true asym ops) as [[[frac invs] w1]| | |]; try discriminate. cbn [obind] in *.
  destruct (np_unique_counts invs) as [vs mult]. destruct (take (repeat 0%nat (length asym)) invs) as [ts| | |]; try discriminate. cbn [obind] in F. injection F as <- <-.
  exists (w0 ++ w1). split; auto. intros Q. apply in_or_app. auto.
Qed.

Lemma basis_crystal : forall tol cell frac ops asym, 0 <= tol < 1 -> crystal 3 tol cell frac ops -> basis ops frac asym -> crystal 3 tol cell asym ops.
Proof.
  intros tol cell frac ops asym Ht [D1 D2 D3 D4 D5 D6 D7 D8] [B1 B2]. rewrite Forall_forall in D6.
  assert (L : forall p, In p asym -> length p = 3%nat) by (intros p Hp; destruct (B1 p Hp) as (q & Hq & [E _]); rewrite E; auto).
  constructor; auto.
  - destruct frac as [|q frac]; [congruence|]. destruct (B2 q) as (p & _ & Hp & _); [left; auto|]. destruct asym; [destruct Hp|discriminate].
  - apply Forall_forall. auto.
  - intros p q g h Hp Hq Hg Hh C. destruct (B1 p Hp) as (p' & Hp' & Sp). destruct (B1 q Hq) as (q' & Hq' & Sq).
    pose proof (affine_same 3 cell ops g p p' D7 Hg (L p Hp) (D6 p' Hp') Sp) as S1. pose proof (affine_same 3 cell ops h q q' D7 Hh (L q Hq) (D6 q' Hq') Sq) as S2.
    apply (same_trans _ _ _ S1). apply same_sym. apply (same_trans _ _ _ S2). apply same_sym. apply D8; auto.
    apply (close_same_l _ _ _ _ S1). eapply close_same; [exact S2| |exact C]. rewrite !affine_length, (L p Hp), (L q Hq). auto.
Qed.

(** With the spacegroup given, and one of its operations' orbits after the other: all atoms, and
    the AMD of all atoms. *)
Theorem C71_atoms : forall tol get_basis a h l ops asym, 0 <= tol < 1 -> ase_left h a l -> ao_group a = Some ops ->
  crystal 3 tol (ao_cell a) (map snd l) ops -> symmetric ops (map snd l) -> distinct (map snd l) ->
  get_basis (ase_with a l) = Done asym -> basis ops (map snd l) asym ->
  exists cs w, fst (ase_object_convert mod1 tol get_basis a h) = Done (cs, w) /\ ps_cell (cs_set cs) = ao_cell a /\
    Permutation (ps_motif (cs_set cs)) (map (fun p => cartesian (ao_cell a) (map frac_part p)) (map snd l)) /\ cs_types cs = map fst l /\
    (half_dominant 3 (ao_cell a) -> forall fuel fuel' k x y, AMD fuel (cs_set cs) k = Done x ->
       AMD fuel' {| ps_motif := map (fun p => cartesian (ao_cell a) (map frac_part p)) (map snd l); ps_cell := ao_cell a; ps_asym := None; ps_mult := None |} k = Done y -> x = y).
Proof.
  intros tol get_basis a h l ops asym Ht HL HG HC HS HD HB HA. set (frac := map snd l) in *. set (cell := ao_cell a) in *.
  pose proof (basis_crystal tol cell frac ops asym Ht HC HA) as HC'. pose proof (cr_group _ _ _ _ _ HC) as G.
  assert (LN : l <> []) by (intros ->; apply (cr_some _ _ _ _ _ HC); reflexivity).
  destruct (C46_total 3 tol true cell asym (repeat 0%nat (length asym)) ops Ht (sg_ok _ _ _ G) (cr_some _ _ _ _ _ HC') (cr_sites _ _ _ _ _ HC')) as [[cs0 w0] F]; [apply repeat_length|].
  destruct (C46_expansion 3 tol true cell asym _ ops cs0 w0 Ht (sg_some _ _ _ G) (sg_ok _ _ _ G) (cr_some _ _ _ _ _ HC') (cr_sites _ _ _ _ _ HC') (cr_cell _ _ _ _ _ HC') F) as (fr & origin & which & starts & mult & CV).
  destruct (ase_finish tol get_basis a h l ops asym HL LN HB (or_introl HG) cs0 w0 F) as (w & E & _).
  exists {| cs_set := cs_set cs0; cs_types := map fst l |}, w. split; auto. cbn [cs_set cs_types]. split; [apply (cv_cell _ _ _ _ _ _ _ _ _ _ _ _ _ CV)|].
  pose proof (cr_sites _ _ _ _ _ HC) as L3. pose proof (cr_sites _ _ _ _ _ HC') as L3'. rewrite Forall_forall in L3, L3'.
  destruct (cv_points _ _ _ _ _ _ _ _ _ _ _ _ _ CV) as [_ _ EU ER EI _ _]. rewrite Forall_forall in EU.
  assert (P : Permutation fr (map (map frac_part) frac)).
  { apply NoDup_Permutation.
    - exact (expanded_NoDup _ _ _ _ _ _ _ _ _ _ _ _ _ (proj1 Ht) (cr_sites _ _ _ _ _ HC') (or_introl eq_refl) CV).
    - apply (NoDup_nth _ []). assert (Q : forall i j, (i < j < length frac)%nat -> nth i (map (map frac_part) frac) [] <> nth j (map (map frac_part) frac) []).
      { intros i j Hij Q. rewrite !(nth_map' _ _ _ _ _ []) in Q by lia. apply (HD i j Hij). eapply same_trans; [apply same_sym, mod1_same|]. change mod1 with frac_part. rewrite Q. apply mod1_same. }
      rewrite map_length. intros i j Hi Hj Eij. destruct (lt_eq_lt_dec i j) as [[Q'|Q']|Q']; auto; exfalso; [apply (Q i j); auto|apply (Q j i); auto].
    - intros f. split.
      + intros Hf. destruct (In_nth _ _ [] Hf) as (k & Hk & <-). destruct (ER k Hk) as [R1 R2]. pose proof (EI k Hk) as I1.
        set (p := nth (nth k origin 0%nat) asym []) in *. set (g := nth (nth k which 0%nat) ops ([], [])) in *.
        assert (Hp : In p asym) by (apply nth_In; auto). assert (Hg : In g ops) by (apply (nth_In ops ([], []) R2)).
        destruct (proj1 HA p Hp) as (q & Hq & Sq). destruct (HS q g Hq Hg) as (q' & Hq' & Sq').
        apply in_map_iff. exists q'. split; auto. symmetry. apply unit_unique; [apply EU, nth_In; auto|apply mod1_same|].
        apply (same_trans _ _ _ I1). apply (same_trans _ (affine g q)); [apply (affine_same 3 cell ops); auto|]. apply (same_trans _ _ _ Sq'). apply same_sym, mod1_same.
      + intros Hf. apply in_map_iff in Hf as (q & <- & Hq). destruct (proj2 HA q Hq) as (p & g & Hp & Hg & Sg).
        destruct (In_nth _ _ [] Hp) as (i & Hi & Ei). destruct (In_nth _ _ ([], []) Hg) as (v & Hv & Ev).
        destruct (cv_represented _ _ _ _ _ _ _ _ _ _ _ _ _ CV (separated_transitive tol asym ops Ht (cr_separated _ _ _ _ _ HC')) i v Hi Hv) as (k & K1 & _ & _ & K4).
        assert (K5 : close_mod1 tol (nth k fr []) (affine g p)) by (rewrite <- Ev, <- Ei; exact K4). destruct (ER k K1) as [F1 F2]. pose proof (EI k K1) as F3.
        assert (S1 : same_mod1 (nth k fr []) (affine g p)).
        { apply (same_trans _ _ _ F3). apply (cr_separated _ _ _ _ _ HC'); auto; [apply nth_In; auto|apply (nth_In ops ([], []) F2)|]. apply (close_same_l _ _ _ _ F3). auto. }
        replace (map frac_part q) with (nth k fr []); [apply nth_In; auto|]. apply unit_unique; [apply EU, nth_In; auto|apply mod1_same|].
        apply (same_trans _ _ _ S1). apply (same_trans _ _ _ Sg). apply same_sym, mod1_same. }
  assert (PM : Permutation (ps_motif (cs_set cs0)) (map (fun p => cartesian cell (map frac_part p)) frac)).
  { rewrite (cv_motif _ _ _ _ _ _ _ _ _ _ _ _ _ CV). rewrite <- (map_map (map frac_part) (cartesian cell)). apply Permutation_map. auto. }
  split; auto. split; auto. intros HH fuel fuel' k x y E1 E2.
  destruct (whole_facts 3 tol true cell asym _ ops cs0 fr origin which starts mult Ht HC' CV) as (_ & _ & _ & _ & EA & OK).
  rewrite <- (C12_amd_reordering 3 _ _ _ k fuel' OK PM) in E2. refine (C67_amd 3 tol true cell asym _ ops cs0 w0 fuel fuel' k x y _ Ht HC' HH F E1 _); auto. rewrite EA. exact E2.
Qed.

(** *** Concrete atoms *)
Definition tol3 : R := 1 / 1000.
Definition coc_sites : list (list R) := [[1 / 4; 1 / 4; 1 / 4]; [0; 0; 0]; [3 / 4; 3 / 4; 3 / 4]].
Definition coc : ase_object (T := R) :=
  {| ao_numbers := [6; 8; 6]%nat; ao_scaled := coc_sites; ao_cell := unit_cell; ao_group := Some [identity; inversion] |}.
Definition coc_pairs : list (nat * list R) := [(6%nat, [1 / 4; 1 / 4; 1 / 4]); (8%nat, [0; 0; 0]); (6%nat, [3 / 4; 3 / 4; 3 / 4])].
Definition coc_asym : list (list R) := [[1 / 4; 1 / 4; 1 / 4]; [0; 0; 0]].

Lemma in_coc : forall p, In p coc_sites -> In p three_sites.
Proof. intros p Hp. cbn in *. tauto. Qed.
Lemma coc_left : ase_left false coc coc_pairs.
Proof. split; auto. cbn. repeat (apply filtered_keep; [intros [Q _]; discriminate|]). constructor. Qed.
Lemma coc_crystal : crystal 3 tol3 unit_cell coc_sites [identity; inversion].
Proof.
  constructor; auto; try (repeat constructor; fail); [apply unit_nonsingular|discriminate|apply inversion_group|].
  intros p q g h Hp Hq Hg Hh C. destruct (images_quarters p g (in_coc _ Hp) Hg) as [Q1 L1]. destruct (images_quarters q h (in_coc _ Hq) Hh) as [Q2 L2].
  apply (quarters_separated (1 / 1000)); auto; [lra|congruence].
Qed.
Lemma zero_opp : same_mod1 (map Ropp [0; 0; 0]) [0; 0; 0].
Proof. cbn [map]. rewrite Ropp_0. apply same_refl. Qed.
Lemma coc_symmetric : symmetric [identity; inversion] coc_sites.
Proof.
  intros q g Hq [<-|[<-|[]]]; [exists q; split; auto; rewrite id_affine; [apply same_refl|]; cbn in Hq; intuition (subst; auto)|].
  rewrite inv_affine by (cbn in Hq; intuition (subst; auto)). destruct Hq as [<-|[<-|[<-|[]]]].
  - exists [3 / 4; 3 / 4; 3 / 4]. split; [cbn; auto|]. apply same_sym, quarter_same.
  - exists [0; 0; 0]. split; [cbn; auto|]. apply zero_opp.
  - exists [1 / 4; 1 / 4; 1 / 4]. split; [cbn; auto|]. split; auto. intros [|[|[|j]]] Hj; cbn in *; try lia; exists (-1)%Z; lra.
Qed.
Lemma not_same : forall x y p q, -1 < x - y < 1 -> x <> y -> ~ same_mod1 (x :: p) (y :: q).
Proof.
  intros x y p q B N [_ Q]. destruct (Q 0%nat) as [n Hn]; [cbn; lia|]. cbn in Hn. rewrite Hn in B. destruct B as [B1 B2]. apply lt_IZR in B1, B2.
  assert (n = 0)%Z as -> by lia. apply N. lra.
Qed.
Lemma coc_distinct : distinct coc_sites.
Proof. intros [|[|[|i]]] [|[|[|j]]] H; cbn in H; try lia; cbn [nth coc_sites]; apply not_same; lra. Qed.
Lemma coc_basis : basis [identity; inversion] coc_sites coc_asym.
Proof.
  split.
  - intros p Hp. exists p. split; [cbn in *; tauto|apply same_refl].
  - intros q [<-|[<-|[<-|[]]]].
    + exists [1 / 4; 1 / 4; 1 / 4], identity. rewrite id_affine by auto. cbn; auto using same_refl.
    + exists [0; 0; 0], identity. rewrite id_affine by auto. cbn; auto using same_refl.
    + exists [1 / 4; 1 / 4; 1 / 4], inversion. rewrite inv_affine by auto. split; [cbn; auto|]. split; [cbn; auto|]. apply same_sym, quarter_same.
Qed.
Lemma coc_reduced : reduced [identity; inversion] coc_asym.
Proof.
  intros [|[|i]] [|[|j]] g H [<-|[<-|[]]]; cbn in H; try lia; cbn [nth coc_asym]; rewrite ?id_affine, ?inv_affine by auto; cbn [map]; apply not_same; lra.
Qed.

(** Carbon, oxygen, carbon with an inversion: all three atoms. *)
Example C71_case : ase_left false coc coc_pairs /\ crystal 3 tol3 unit_cell (map snd coc_pairs) [identity; inversion] /\
  symmetric [identity; inversion] (map snd coc_pairs) /\ distinct (map snd coc_pairs) /\ basis [identity; inversion] (map snd coc_pairs) coc_asym /\
  exists cs w, fst (ase_object_convert mod1 tol3 (fun _ => Done coc_asym) coc false) = Done (cs, w) /\ length (ps_motif (cs_set cs)) = 3%nat /\
    cs_types cs = [6; 8; 6]%nat.
Proof.
  split; [apply coc_left|]. split; [apply coc_crystal|]. split; [apply coc_symmetric|]. split; [apply coc_distinct|]. split; [apply coc_basis|].
  destruct (C71_atoms tol3 (fun _ => Done coc_asym) coc false coc_pairs [identity; inversion] coc_asym) as (cs & w & E & _ & P & T & _);
    auto using coc_left, coc_crystal, coc_symmetric, coc_distinct, coc_basis.
  { unfold tol3; lra. }
  exists cs, w. split; auto. split; auto. rewrite (Permutation_length P). auto.
Qed.

(** The types are those of the atoms in their order, the motif has a different order. *)
Theorem C71_types_refuted : exists tol get_basis a l ops asym cs w k n p, 0 <= tol < 1 /\ ase_left false a l /\ ao_group a = Some ops /\
  crystal 3 tol (ao_cell a) (map snd l) ops /\ symmetric ops (map snd l) /\ distinct (map snd l) /\
  get_basis a = Done asym /\ basis ops (map snd l) asym /\ reduced ops asym /\
  fst (ase_object_convert mod1 tol get_basis a false) = Done (cs, w) /\
  In (n, p) l /\ (k < length (ps_motif (cs_set cs)))%nat /\ nth k (ps_motif (cs_set cs)) [] = cartesian (ao_cell a) (map frac_part p) /\
  nth k (cs_types cs) 0%nat <> n.
Proof.
  assert (Ht : 0 <= tol3 < 1) by (unfold tol3; lra). pose proof coc_crystal as HC. pose proof (cr_group _ _ _ _ _ HC) as G.
  pose proof (basis_crystal tol3 unit_cell coc_sites _ coc_asym Ht HC coc_basis) as HC'.
  destruct (C46_total 3 tol3 true unit_cell coc_asym (repeat 0%nat 2) [identity; inversion] Ht (sg_ok _ _ _ G) (cr_some _ _ _ _ _ HC') (cr_sites _ _ _ _ _ HC')) as [[cs0 w0] F]; [auto|].
  destruct (C46_expansion 3 tol3 true unit_cell coc_asym _ _ cs0 w0 Ht (sg_some _ _ _ G) (sg_ok _ _ _ G) (cr_some _ _ _ _ _ HC') (cr_sites _ _ _ _ _ HC') (cr_cell _ _ _ _ _ HC') F) as (fr & origin & which & starts & mult & CV).
  assert (LN : coc_pairs <> []) by discriminate.
  destruct (ase_finish tol3 (fun _ => Done coc_asym) coc false coc_pairs _ coc_asym coc_left LN eq_refl (or_introl eq_refl) cs0 w0 F) as (w & E & _).
  destruct C71_case as (_ & _ & _ & _ & _ & cs' & w' & E' & L & _). rewrite E in E'. injection E' as <- <-. cbn [cs_set] in L.
  pose proof (cv_motif _ _ _ _ _ _ _ _ _ _ _ _ _ CV) as M. assert (LF : length fr = 3%nat) by (rewrite <- L, M, map_length; auto).
  destruct (cv_points _ _ _ _ _ _ _ _ _ _ _ _ _ CV) as [_ _ EU ER EI EO _]. rewrite Forall_forall in EU.
  (** images of the two sites *)
  assert (I0 : forall k, (k < 3)%nat -> nth k origin 0%nat = 0%nat -> same_mod1 (nth k fr []) [1 / 4; 1 / 4; 1 / 4] \/ same_mod1 (nth k fr []) [3 / 4; 3 / 4; 3 / 4]).
  { intros k Hk O. pose proof (EI k ltac:(lia)) as I. destruct (ER k ltac:(lia)) as [_ R2]. rewrite O in I. cbn [nth coc_asym] in I. destruct (nth k which 0%nat) as [|[|v]]; [| |cbn in R2; lia]; cbn [nth] in I.
    - left. rewrite id_affine in I by auto. auto.
    - right. rewrite inv_affine in I by auto. apply (same_trans _ _ _ I). apply same_sym, quarter_same. }
  assert (I1 : forall k, (k < 3)%nat -> nth k origin 0%nat = 1%nat -> nth k fr [] = map frac_part [0; 0; 0]).
  { intros k Hk O. pose proof (EI k ltac:(lia)) as I. destruct (ER k ltac:(lia)) as [_ R2]. rewrite O in I. cbn [nth coc_asym] in I.
    apply unit_unique; [apply EU, nth_In; lia|apply mod1_same|]. apply (same_trans _ [0; 0; 0]); [|apply same_sym, mod1_same]. apply (same_trans _ _ _ I).
    destruct (nth k which 0%nat) as [|[|v]]; [| |cbn in R2; lia]; cbn [nth]; [rewrite id_affine by auto; apply same_refl|rewrite inv_affine by auto; apply zero_opp]. }
  assert (OR : forall k, (k < 3)%nat -> nth k origin 0%nat = 0%nat \/ nth k origin 0%nat = 1%nat) by (intros k Hk; destruct (ER k ltac:(lia)) as [R1 _]; cbn in R1; lia).
  pose proof (expanded_NoDup _ _ _ _ _ _ _ _ _ _ _ _ _ (proj1 Ht) (cr_sites _ _ _ _ _ HC') (or_introl eq_refl) CV) as ND.
  (** the last point is the image of the second site *)
  assert (O2 : nth 2 origin 0%nat = 1%nat).
  { destruct (OR 2%nat ltac:(lia)) as [O|O]; auto. exfalso.
    assert (A : forall k, (k < 3)%nat -> nth k origin 0%nat = 0%nat).
    { intros k Hk. destruct (Nat.eq_dec k 2) as [->|N]; auto. destruct (OR k Hk) as [Q|Q]; auto. destruct (EO k 2%nat ltac:(lia)) as [X|[X _]]; lia. }
    assert (U : forall j k, (j < k < 3)%nat -> nth j fr [] <> nth k fr []).
    { intros j k Hjk Q. apply (NoDup_nth fr []) in Q; auto; lia. }
    assert (S3 : forall j k c, (j < k < 3)%nat -> same_mod1 (nth j fr []) c -> same_mod1 (nth k fr []) c -> False).
    { intros j k c Hjk S1 S2. apply (U j k Hjk). apply unit_unique; [apply EU, nth_In; lia|apply EU, nth_In; lia|]. apply (same_trans _ _ _ S1), same_sym, S2. }
    destruct (I0 0%nat ltac:(lia) (A 0%nat ltac:(lia))) as [X|X], (I0 1%nat ltac:(lia) (A 1%nat ltac:(lia))) as [Y|Y], (I0 2%nat ltac:(lia) (A 2%nat ltac:(lia))) as [Z|Z];
      first [exact (S3 0%nat 1%nat _ ltac:(lia) X Y)|exact (S3 0%nat 2%nat _ ltac:(lia) X Z)|exact (S3 1%nat 2%nat _ ltac:(lia) Y Z)]. }
  exists tol3, (fun _ => Done coc_asym), coc, coc_pairs, [identity; inversion], coc_asym, {| cs_set := cs_set cs0; cs_types := map fst coc_pairs |}, w, 2%nat, 8%nat, [0; 0; 0].
  split; auto. split; [apply coc_left|]. split; auto. split; auto. split; [apply coc_symmetric|]. split; [apply coc_distinct|]. split; auto. split; [apply coc_basis|].
  split; [apply coc_reduced|]. split; auto. split; [cbn; auto|]. cbn [cs_set cs_types]. split; [rewrite L; lia|]. split; [|cbn; lia].
  rewrite M, (nth_map' _ _ _ _ _ []) by lia. rewrite (I1 2%nat ltac:(lia) O2). auto.
Qed.

(** Without a spacegroup: the atoms are reduced to a basis by the group found, but not expanded. *)
Definition centring : operation := (unit_cell, [1 / 2; 1 / 2; 1 / 2]).
Definition halves (p : list R) : list R := map (fun x => x + 1 / 2) p.
Lemma centring_affine : forall p, length p = 3%nat -> affine centring p = halves p.
Proof. intros p Hp. triple p Hp. unfold affine, centring, unit_cell, halves. cbn -[IZR]. repeat (apply f_equal2; [ring|]). reflexivity. Qed.
Lemma halves_length : forall p, length (halves p) = length p.
Proof. intros; apply map_length. Qed.
Lemma halves_twice : forall p, length p = 3%nat -> halves (halves p) = shifted [1; 1; 1]%Z p.
Proof. intros p Hp. triple p Hp. unfold halves, shifted. cbn -[IZR]. repeat (apply f_equal2; [field|]). reflexivity. Qed.
Lemma centring_group : symmetry_group 3 unit_cell [identity; centring].
Proof.
  constructor.
  - discriminate.
  - repeat constructor.
  - intros g i j [<-|[<-|[]]]; [apply (operation_integer identity)|apply (operation_integer identity)]; cbn; auto.
  - intros g h [<-|[<-|[]]] [<-|[<-|[]]].
    + exists identity, [0; 0; 0]%Z. split; [cbn; auto|]. split; auto. intros p Hp. rewrite zero_shift by (rewrite !id_affine; auto). rewrite !id_affine; auto. rewrite id_affine; auto.
    + exists centring, [0; 0; 0]%Z. split; [cbn; auto|]. split; auto. intros p Hp. rewrite zero_shift, id_affine; auto; rewrite centring_affine, halves_length; auto.
    + exists centring, [0; 0; 0]%Z. split; [cbn; auto|]. split; auto. intros p Hp. rewrite zero_shift, id_affine; auto; rewrite centring_affine, halves_length; auto.
    + exists identity, [1; 1; 1]%Z. split; [cbn; auto|]. split; auto. intros p Hp. rewrite id_affine by auto. rewrite !centring_affine, halves_twice; auto. rewrite centring_affine, halves_length; auto.
  - intros g [<-|[<-|[]]].
    + exists identity, [0; 0; 0]%Z, [0; 0; 0]%Z. split; [cbn; auto|]. split; auto. split; auto. intros p Hp. rewrite !zero_shift by auto. rewrite !id_affine; auto. rewrite id_affine; auto.
    + exists centring, [1; 1; 1]%Z, [1; 1; 1]%Z. split; [cbn; auto|]. split; auto. split; auto. intros p Hp. rewrite !centring_affine, halves_twice; auto. rewrite centring_affine, halves_length; auto.
  - intros g p q [<-|[<-|[]]] Hp Hq; [rewrite !id_affine; auto|]. rewrite !centring_affine by auto. triple p Hp. triple q Hq. unfold edist, cartesian, comb_coord, unit_cell, rsum, halves. cbn. f_equal. ring.
Qed.
Definition bcc_sites : list (list R) := [[0; 0; 0]; [1 / 2; 1 / 2; 1 / 2]].
Definition bcc : ase_object (T := R) := {| ao_numbers := [26; 26]%nat; ao_scaled := bcc_sites; ao_cell := unit_cell; ao_group := None |}.
Lemma bcc_images : forall p g, In p bcc_sites -> In g [identity; centring] -> quarters (affine g p) /\ length (affine g p) = 3%nat.
Proof.
  intros p g Hp Hg. assert (HL : length p = 3%nat) by (destruct Hp as [<-|[<-|[]]]; auto). split; [|rewrite affine_length; auto].
  destruct Hg as [<-|[<-|[]]]; [rewrite id_affine by auto|rewrite centring_affine by auto; unfold halves]; destruct Hp as [<-|[<-|[]]]; cbn [map];
    repeat (constructor; [first [exists 0%Z; lra|exists 2%Z; lra|exists 4%Z; lra]|]); constructor.
Qed.
Lemma bcc_crystal : crystal 3 tol3 unit_cell bcc_sites [identity; centring].
Proof.
  constructor; auto; try (repeat constructor; fail); [apply unit_nonsingular|discriminate|apply centring_group|].
  intros p q g h Hp Hq Hg Hh C. destruct (bcc_images p g Hp Hg) as [Q1 L1]. destruct (bcc_images q h Hq Hh) as [Q2 L2].
  apply (quarters_separated (1 / 1000)); auto; [lra|congruence].
Qed.
Lemma bcc_halves : same_mod1 (halves [1 / 2; 1 / 2; 1 / 2]) [0; 0; 0] /\ same_mod1 (halves [0; 0; 0]) [1 / 2; 1 / 2; 1 / 2].
Proof. split; (split; [auto|]); intros [|[|[|j]]] Hj; cbn in *; try lia; first [exists 1%Z; lra|exists 0%Z; lra]. Qed.

Theorem C71_no_group_refuted : exists tol get_basis a l found asym cs w, 0 <= tol < 1 /\ ase_left false a l /\ ao_group a = None /\
  crystal 3 tol (ao_cell a) (map snd l) found /\ symmetric found (map snd l) /\ distinct (map snd l) /\
  get_basis a = Done asym /\ basis found (map snd l) asym /\ reduced found asym /\
  fst (ase_object_convert mod1 tol get_basis a false) = Done (cs, w) /\ (length (ps_motif (cs_set cs)) < length l)%nat.
Proof.
  assert (Ht : 0 <= tol3 < 1) by (unfold tol3; lra). set (asym := [[0; 0; 0]] : list (list R)). set (l := [(26%nat, [0; 0; 0]); (26%nat, [1 / 2; 1 / 2; 1 / 2])]).
  assert (HL : ase_left false bcc l). { split; auto. cbn. repeat (apply filtered_keep; [intros [Q _]; discriminate|]). constructor. }
  assert (PI : P1 (T := R) = identity) by reflexivity.
  assert (A3 : Forall (fun p : list R => length p = 3%nat) asym) by (repeat constructor). assert (AN : asym <> []) by discriminate.
  destruct (C46_total 3 tol3 true unit_cell asym (repeat 0%nat 1) [identity] Ht identity_ok AN A3) as [[cs0 w0] F]; [auto|].
  assert (IN : [identity] <> []) by discriminate.
  destruct (C46_expansion 3 tol3 true unit_cell asym _ _ cs0 w0 Ht IN identity_ok AN A3 eq_refl F) as (fr & origin & which & starts & mult & CV).
  assert (LN : l <> []) by discriminate.
  destruct (ase_finish tol3 (fun _ => Done asym) bcc false l [identity] asym HL LN eq_refl (or_intror (conj eq_refl eq_refl)) cs0 w0 F) as (w & E & _).
  exists tol3, (fun _ => Done asym), bcc, l, [identity; centring], asym, {| cs_set := cs_set cs0; cs_types := map fst l |}, w.
  split; auto. split; auto. split; auto. split; [apply bcc_crystal|]. split.
  { intros q g Hq [<-|[<-|[]]]; destruct Hq as [<-|[<-|[]]]; rewrite ?id_affine, ?centring_affine by auto; destruct bcc_halves as [B1 B2].
    - exists [0; 0; 0]. cbn; auto using same_refl.
    - exists [1 / 2; 1 / 2; 1 / 2]. cbn; auto using same_refl.
    - exists [1 / 2; 1 / 2; 1 / 2]. split; [cbn; auto|exact B2].
    - exists [0; 0; 0]. split; [cbn; auto|exact B1]. }
  split; [intros [|[|i]] [|[|j]] H; cbn in H; try lia; cbn [nth map snd l]; apply not_same; lra|]. split; auto. split.
  { split.
    - intros p [<-|[]]. exists [0; 0; 0]. split; [cbn; auto|apply same_refl].
    - intros q [<-|[<-|[]]].
      + exists [0; 0; 0], identity. rewrite id_affine by auto. cbn; auto using same_refl.
      + exists [0; 0; 0], centring. rewrite centring_affine by auto. split; [cbn; auto|]. split; [cbn; auto|]. apply bcc_halves. }
  split; [intros i j g H; cbn in H; lia|]. split; auto. cbn [cs_set]. rewrite (cv_motif _ _ _ _ _ _ _ _ _ _ _ _ _ CV), map_length.
  destruct (cv_points _ _ _ _ _ _ _ _ _ _ _ _ _ CV) as [_ _ _ ER _ EO _]. cbn [length l]. destruct (le_lt_dec 2 (length fr)) as [Q|Q]; [exfalso|auto].
  destruct (ER 0%nat ltac:(lia)) as [R1 R2]. destruct (ER 1%nat ltac:(lia)) as [R3 R4]. cbn in R1, R2, R3, R4. destruct (EO 0%nat 1%nat ltac:(lia)); lia.
Qed.

(** The object passed is changed if and only if hydrogens are removed from it. *)
Theorem C71_unchanged : forall tol get_basis a l, ase_left true a l ->
  snd (ase_object_convert mod1 tol get_basis a false) = a /\ snd (ase_object_convert mod1 tol get_basis a true) = ase_with a l.
Proof. intros tol get_basis a l HL. unfold ase_object_convert. cbn [snd]. split; auto. apply (popped true a l HL). Qed.
Theorem C71_unchanged_refuted : exists tol get_basis a h, snd (ase_object_convert mod1 tol get_basis a h) <> a.
Proof.
  exists tol3, (fun _ => Done []), {| ao_numbers := [1]%nat; ao_scaled := [[0; 0; 0]]; ao_cell := unit_cell; ao_group := None |}, true. cbn. discriminate.
Qed.

(** ** pymatgen *)
Lemma is_one_ok : forall x : R, is_one x = true <-> x = 1.
Proof. intros x. unfold is_one. rewrite andb_true_iff. cbn [nleb NumR n1]. rewrite !Rleb_true. split; [lra|intros ->; lra]. Qed.
Lemma ordered_ok : forall s : psite, site_ordered s = true <-> exists sym, pm_species s = [(sym, 1)].
Proof.
  intros s. unfold site_ordered. destruct (pm_species s) as [|[sym occ] [|x l]]; try (split; [discriminate|intros [y Q]; discriminate]).
  rewrite is_one_ok. split; [intros ->; eauto|intros [y Q]; injection Q; auto].
Qed.
Definition hydrogen_names : list chars := map text ["H"; "D"].
Lemma names_ok : forall s, existsb (text_eqb s) hydrogen_names = true <-> hydrogen_name s.
Proof. intros s. unfold hydrogen_names. cbn [map existsb]. rewrite !orb_true_iff, !text_eqb_eq. unfold hydrogen_name. cbn. intuition discriminate. Qed.
Lemma without_ok : forall s s', without_hydrogen s s' ->
  s' = {| pm_species := filter (fun so => negb (existsb (text_eqb (fst so)) hydrogen_names)) (pm_species s); pm_coords := pm_coords s |}.
Proof.
  intros s [sp co] [E F]. cbn in E, F. subst co. f_equal. symmetry. apply (filtered_filter _ _ _ _ _ F). intros so _. rewrite negb_true_iff, <- not_true_iff_false, names_ok. tauto.
Qed.
Lemma removed_ok : forall l l', dehydrogenated l l' -> forall cell,
  remove_species hydrogen_names {| pm_sites := l; pm_cell := cell |} = {| pm_sites := l'; pm_cell := cell |}.
Proof.
  intros l l' D cell. unfold remove_species. cbn [pm_sites pm_cell]. f_equal.
  induction D as [|s s' l l' W N D IH|s s' l l' W N D IH]; auto; cbn [map filter]; rewrite <- (without_ok s s' W).
  - destruct (pm_species s'); [congruence|]. f_equal. auto.
  - rewrite N. auto.
Qed.
Lemma occupied_ok : forall s : psite, negb (nltb (num_atoms s) n1) = true <-> 1 <= total_occupancy s.
Proof.
  intros s. unfold num_atoms, total_occupancy. rewrite negb_true_iff, <- not_true_iff_false, nsum_rsum. cbn [nltb NumR n1]. rewrite Rltb_true. split; [apply Rnot_lt_le|apply Rle_not_lt].
Qed.

Section Pymatgen.
  Variables (conventional : pm_structure (T := R) -> outcome (pm_structure (T := R))) (st : pm_structure (T := R)) (h : bool) (d : disorder_option).
  Variables (l1 l2 : list psite).
  Hypothesis HL : sites_left h d (pm_sites st) l1 l2.
  Notation result := (pymatgen_object_convert conventional st h d).

  (** The sites left are given to SpacegroupAnalyzer; with skip all must be ordered, and ParseError
      is raised otherwise. *)
  Lemma pymatgen_steps : result =
    (if match d with Skip => negb (forallb site_ordered l1) | _ => false end
     then (Raise ParseError, {| pm_sites := l1; pm_cell := pm_cell st |})
     else (obind (conventional {| pm_sites := l2; pm_cell := pm_cell st |}) (fun sym => obind (omap specie_number (pm_sites sym)) (fun types =>
             let n := length (pm_sites sym) in
             Done {| cs_set := {| ps_motif := map pm_coords (pm_sites sym); ps_cell := pm_cell sym; ps_asym := Some (seq 0 n); ps_mult := Some (repeat 1%nat n) |};
                     cs_types := types |})), {| pm_sites := l2; pm_cell := pm_cell st |})).
  Proof.
    destruct HL as [H1 H2]. unfold pymatgen_object_convert.
    assert (E : (if h then remove_species (map text ["H"; "D"]) st else st) = {| pm_sites := l1; pm_cell := pm_cell st |}).
    { destruct h; [|subst l1; destruct st; auto]. destruct st as [sites cell]. cbn [pm_sites pm_cell] in *. apply removed_ok. auto. }
    rewrite E. cbn [pm_sites pm_cell]. destruct (match d with Skip => negb (forallb site_ordered l1) | _ => false end); auto.
    assert (E2 : (match d with OrderedSites => {| pm_sites := filter (fun s => negb (nltb (num_atoms s) n1)) l1; pm_cell := pm_cell st |} | _ => {| pm_sites := l1; pm_cell := pm_cell st |} end)
      = {| pm_sites := l2; pm_cell := pm_cell st |}).
    { destruct d; try (subst l2; auto; fail). f_equal. apply (filtered_filter _ _ _ _ _ H2). intros s _. apply occupied_ok. }
    rewrite E2. auto.
  Qed.

  Theorem C72_read : forall sym types, (d = Skip -> Forall (fun s => exists e, pm_species s = [(e, 1)]) l1) ->
    conventional {| pm_sites := l2; pm_cell := pm_cell st |} = Done sym -> Forall2 one_element (pm_sites sym) types ->
    exists cs, fst result = Done cs /\ ps_motif (cs_set cs) = map pm_coords (pm_sites sym) /\ ps_cell (cs_set cs) = pm_cell sym /\ cs_types cs = types /\
      (forall fuel k, AMD fuel (cs_set cs) k = AMD fuel (all_motif (cs_set cs)) k) /\
      (forall fuel k lexsort collapse t, PDD fuel (cs_set cs) k lexsort collapse t = PDD fuel (all_motif (cs_set cs)) k lexsort collapse t).
  Proof.
    intros sym types HS HC HT. rewrite pymatgen_steps.
    assert (E : match d with Skip => negb (forallb site_ordered l1) | _ => false end = false).
    { destruct d; auto. apply negb_false_iff, forallb_forall. intros s Hs. apply ordered_ok. specialize (HS eq_refl). rewrite Forall_forall in HS. auto. }
    rewrite E. cbn [fst]. rewrite HC. cbn [obind].
    assert (ET : omap specie_number (pm_sites sym) = Done types).
    { rewrite <- (map_id types). refine (omap_Forall2 _ _ _ _ _ _ _ _ HT _). intros s n (e & Q & T). unfold specie_number.
      rewrite (proj2 (ordered_ok s)) by eauto. rewrite Q. f_equal. apply type_of_number. auto. }
    rewrite ET. cbn [obind]. eexists. split; [reflexivity|]. cbn [cs_set cs_types ps_motif ps_cell]. repeat (split; [reflexivity|]).
    set (motif := map pm_coords (pm_sites sym)). assert (LM : length (pm_sites sym) = length motif) by (unfold motif; rewrite map_length; auto).
    assert (Q : query (T := R) {| ps_motif := motif; ps_cell := pm_cell sym; ps_asym := Some (seq 0 (length (pm_sites sym))); ps_mult := Some (repeat 1%nat (length (pm_sites sym))) |}
      = query {| ps_motif := motif; ps_cell := pm_cell sym; ps_asym := None; ps_mult := None |}).
    { unfold query. cbn [ps_asym ps_mult ps_motif]. rewrite LM, (take_ok (vec R) motif [] (seq 0 (length motif))).
      - pose proof (BlocksProofs.map_nth_seq (vec R) [] motif (length motif) eq_refl) as N. unfold vec in *. rewrite N. reflexivity.
      - apply Forall_forall. intros i Hi. apply in_seq in Hi. lia. }
    split; [intros fuel k|intros fuel k lexsort collapse t]; unfold all_motif, AMD, PDD; cbn [ps_motif ps_cell]; rewrite Q; reflexivity.
  Qed.

  Theorem C72_skip : d = Skip -> Exists (fun s => ~ exists e, pm_species s = [(e, 1)]) l1 -> fst result = Raise ParseError.
  Proof.
    intros Hd HE. rewrite pymatgen_steps. rewrite Hd at 1. apply Exists_exists in HE as (s & Hs & N).
    assert (E : forallb site_ordered l1 = false).
    { apply not_true_iff_false. intros Q. rewrite forallb_forall in Q. apply N, ordered_ok. auto. }
    rewrite E. auto.
  Qed.

  (** Structures with disorder left cannot be converted. *)
  Theorem C72_disordered : forall sym, d <> Skip -> conventional {| pm_sites := l2; pm_cell := pm_cell st |} = Done sym ->
    Exists (fun s => ~ exists e, pm_species s = [(e, 1)]) (pm_sites sym) -> fst result = Raise AttributeError.
  Proof.
    intros sym Hd HC HE. rewrite pymatgen_steps. assert (E : match d with Skip => negb (forallb site_ordered l1) | _ => false end = false) by (destruct d; congruence).
    rewrite E. cbn [fst]. rewrite HC. cbn [obind].
    assert (ET : omap (specie_number (T := R)) (pm_sites sym) = Raise AttributeError).
    { induction HE as [s l N|s l HE IH]; cbn [omap].
      - unfold specie_number at 1. destruct (site_ordered s) eqn:Q; [|reflexivity]. exfalso. apply N, ordered_ok. auto.
      - unfold specie_number at 1. destruct (site_ordered s); [|reflexivity]. destruct (pm_species s) as [|[y o] t]; [reflexivity|]. cbn [obind]. rewrite IH. reflexivity. }
    rewrite ET. reflexivity.
  Qed.

  (** The structure passed has lost the sites left out. *)
  Theorem C72_changed : (d = Skip -> Forall (fun s => exists e, pm_species s = [(e, 1)]) l1) -> snd result = {| pm_sites := l2; pm_cell := pm_cell st |}.
  Proof.
    intros HS. rewrite pymatgen_steps. destruct (match d with Skip => negb (forallb site_ordered l1) | _ => false end) eqn:E; auto.
    exfalso. destruct d; try discriminate. apply negb_true_iff in E. apply not_true_iff_false in E. apply E, forallb_forall. intros s Hs. apply ordered_ok.
    specialize (HS eq_refl). rewrite Forall_forall in HS. auto.
  Qed.
End Pymatgen.

(** *** Concrete structures *)
Definition pm_C : psite := {| pm_species := [(["C"%char], 1)]; pm_coords := [0; 0; 0] |}.
Definition pm_H : psite := {| pm_species := [(["H"%char], 1)]; pm_coords := [1 / 2; 0; 0] |}.
Definition pm_half : psite := {| pm_species := [(["O"%char], 1 / 2)]; pm_coords := [0; 1 / 2; 0] |}.
Definition pm_mixed : psite := {| pm_species := [(["C"%char], 1 / 2); (["O"%char], 1 / 2)]; pm_coords := [0; 0; 1 / 2] |}.
Definition pm_of (l : list psite) : pm_structure (T := R) := {| pm_sites := l; pm_cell := unit_cell |}.

Lemma carbon_type : one_element pm_C 6.
Proof. exists ["C"%char]. split; auto. left. exists 5%nat, "C". auto. Qed.
Lemma pm_left : sites_left true OrderedSites [pm_C; pm_H; pm_half] [pm_C; pm_half] [pm_C].
Proof.
  split.
  - apply deh_keep with (s' := pm_C); [split; auto; cbn; apply filtered_keep; [intros [Q|Q]; discriminate Q|constructor]|discriminate|].
    apply deh_drop with (s' := {| pm_species := []; pm_coords := [1 / 2; 0; 0] |}); [split; auto; cbn; apply filtered_drop; [intros Q; apply Q; left; auto|constructor]|reflexivity|].
    apply deh_keep with (s' := pm_half); [split; auto; cbn; apply filtered_keep; [intros [Q|Q]; discriminate Q|constructor]|discriminate|constructor].
  - apply filtered_keep; [cbn; lra|]. apply filtered_drop; [cbn; lra|constructor].
Qed.
(** Without hydrogen and the site half occupied, carbon is left. *)
Example C72_case : sites_left true OrderedSites [pm_C; pm_H; pm_half] [pm_C; pm_half] [pm_C] /\
  exists cs, fst (pymatgen_object_convert (T := R) (fun s => Done s) (pm_of [pm_C; pm_H; pm_half]) true OrderedSites) = Done cs /\
    ps_motif (cs_set cs) = [[0; 0; 0]] /\ cs_types cs = [6%nat].
Proof.
  split; [apply pm_left|].
  destruct (C72_read (fun s => Done s) (pm_of [pm_C; pm_H; pm_half]) true OrderedSites [pm_C; pm_half] [pm_C] pm_left (pm_of [pm_C]) [6%nat]) as (cs & E & M & _ & T & _);
    [discriminate|reflexivity|repeat constructor; apply carbon_type|]. eauto.
Qed.
(** all_sites is documented to include all atoms regardless of disorder. *)
Theorem C72_all_sites_refuted : exists conventional st e, (forall s, conventional s = Done s) /\
  fst (pymatgen_object_convert (T := R) conventional st false AllSites) = Raise e /\ e <> ParseError.
Proof.
  exists (fun s => Done s), (pm_of [pm_C; pm_half]), AttributeError. split; auto. split; [|discriminate].
  apply (C72_disordered (fun s => Done s) (pm_of [pm_C; pm_half]) false AllSites [pm_C; pm_half] [pm_C; pm_half]) with (sym := pm_of [pm_C; pm_half]); [split; reflexivity|discriminate|reflexivity|].
  right. left. intros [e Q]. injection Q as _ Q. lra.
Qed.
(** ordered_sites is documented to remove atoms with disorder. *)
Theorem C72_ordered_sites_refuted : exists conventional st e, (forall s, conventional s = Done s) /\
  fst (pymatgen_object_convert (T := R) conventional st false OrderedSites) = Raise e /\ e <> ParseError.
Proof.
  exists (fun s => Done s), (pm_of [pm_C; pm_mixed]), AttributeError. split; auto. split; [|discriminate].
  apply (C72_disordered (fun s => Done s) (pm_of [pm_C; pm_mixed]) false OrderedSites [pm_C; pm_mixed] [pm_C; pm_mixed]) with (sym := pm_of [pm_C; pm_mixed]); [|discriminate|reflexivity|].
  - split; auto. repeat (apply filtered_keep; [cbn; lra|]). constructor.
  - right. left. intros [e Q]. discriminate Q.
Qed.
Theorem C72_unchanged_refuted : exists conventional st h d, snd (pymatgen_object_convert (T := R) conventional st h d) <> st.
Proof.
  exists (fun s => Done s), (pm_of [pm_C; pm_H; pm_half]), true, OrderedSites. rewrite (C72_changed _ (pm_of [pm_C; pm_H; pm_half]) true OrderedSites _ _ pm_left) by discriminate. discriminate.
Qed.

Print Assumptions C71_atoms.
Print Assumptions C71_types_refuted.
Print Assumptions C71_no_group_refuted.
Print Assumptions C71_unchanged.
Print Assumptions C71_unchanged_refuted.
Print Assumptions C72_read.
Print Assumptions C72_skip.
Print Assumptions C72_disordered.
Print Assumptions C72_changed.
Print Assumptions C72_all_sites_refuted.
Print Assumptions C72_ordered_sites_refuted.
Print Assumptions C72_unchanged_refuted.
