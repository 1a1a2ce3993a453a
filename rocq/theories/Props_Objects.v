(** C68, C69 and C70: crystals of csd-python-api. *)
From Coq Require Import List ZArith Reals Arith Bool Ascii String Lia Lra Sorted.
From Verif Require Import Num Base Outcome LatticeProofs2 NNModel SpecGeom CalcModel CalcProofs CompareModel TextModel SpecText TextProofs Props_Text
  SitesModel SpecSites SitesProofs SitesExpand Props_Sites BlocksModel SpecBlocks BlocksProofs Props_Blocks ObjectsModel SpecObjects ObjectsProofs.
Import ListNotations.
Open Scope string_scope.
Open Scope R_scope.
Open Scope list_scope.
Notation length := List.length.

(** ** Atoms *)
Lemma xyz_spelled : parse_sitesyms (T := R) [text "x,y,z"] = Done [identity].
Proof.
  unfold parse_sitesyms, identity, unit_cell. vm_compute. repeat (f_equal; try lra).
Qed.

Lemma convert_warnings : forall tol d cell asym types ops w cs w', convert mod1 tol d cell asym types (Done (ops, w)) = Done (cs, w') -> incl w w'.
Proof.
  intros tol d cell asym types ops w cs w' E. unfold convert in E. destruct (if is_all_sites d then _ else _) as [[a t] w1]. cbn [obind] in E.
  destruct (finish _ _ _ _ _ _ _) as [[cs3 w3]| | |]; try discriminate. cbn [obind] in E. injection E as _ <-.
  intros x Hx. apply in_or_app. right. apply in_or_app. auto.
Qed.
Lemma spelled_ok : forall texts ops, Forall2 spells_operation texts ops -> Forall (operation_ok 3) ops.
Proof.
  intros texts ops F. induction F as [|s g texts ops (s1 & s2 & s3 & t1 & t2 & t3 & _ & _ & _ & _ & ->) F IH]; constructor; auto.
  repeat split; auto. repeat constructor; apply map_length.
Qed.
Lemma symmetry_ok : forall texts ops, symmetry_of texts ops -> ops <> [] /\ Forall (operation_ok 3) ops /\
  (match texts with
   | [] => obind (parse_sitesyms (T := R) [text "x,y,z"]) (fun ops => Done (ops, [NoSymmetry]))
   | syms => obind (parse_sitesyms syms) (fun ops => Done (ops, []))
   end) = Done (ops, if texts then [NoSymmetry] else []).
Proof.
  intros texts ops [[-> ->]|[HN F]].
  - split; [discriminate|]. split; [exact identity_ok|]. rewrite xyz_spelled. reflexivity.
  - pose proof (operations_parsed _ _ F) as P. split; [intros ->; inversion F; subst; congruence|]. split; [eapply spelled_ok; eauto|].
    destruct texts as [|s texts]; [congruence|]. unfold parse_sitesyms. unfold chars in *. rewrite P. reflexivity.
Qed.

Section Crystal.
  Variables (tol : R) (c2c : list (fval (T := R)) -> outcome (list (vec R))) (c : ccdc_crystal (T := R)) (h : bool) (d : disorder_option) (heavy : bool).
  Notation converts := (ccdc_convert mod1 tol c2c c h d heavy).

  (** Without csd-python-api reporting disorder, the crystal has the atoms asked for which have a
      position, or the heaviest of their components, expanded by the operations. *)
  Theorem C68_crystal : forall mol ops par cell, 0 <= tol < 1 -> Forall plain_atom (cc_atoms c) ->
    (d = Skip -> cc_has_disorder c = false /\ Forall (fun a => ~ is_disordered a) (cc_atoms c)) ->
    filtered (stays h d) (cc_atoms c) mol ->
    (heavy = true -> Forall (fun comp => exists m, total_mass comp m) (cc_components c mol)) ->
    cc_cellpar c = map Some par -> c2c (map Fin par) = Done cell -> length cell = 3%nat ->
    symmetry_of (cc_operators c) ops ->
    exists molecule, molecule_used c heavy mol molecule /\
      forall kept, Forall2 gives_atom (cc_asymmetric c molecule) kept ->
        (kept = [] -> converts false = Raise ParseError) /\
        (kept <> [] -> exists cs w, converts false = Done (cs, w) /\ reads tol d cell ops kept cs /\
           (Exists (fun a => asked h d a /\ ca_coords a = None) (cc_atoms c) -> In MissingSites w) /\
           (cc_operators c = [] -> In NoSymmetry w)).
  Proof.
    intros mol ops par cell Ht HP HS HF HM EP EC LC HO.
    destruct (molecule_ok c h d heavy mol HP HS HF HM) as (molecule & w & E & HU & HW & _). exists molecule. split; auto. intros kept FK.
    assert (EA : omap (fun a => match ca_coords a with Some p => Done p | None => Raise TypeError end) (cc_asymmetric c molecule) = Done (map at_coords kept)).
    { refine (omap_Forall2 _ _ _ _ _ _ _ _ FK _). intros a x (-> & _). auto. }
    assert (ET : map ca_number (cc_asymmetric c molecule) = map at_type kept).
    { clear -FK. induction FK as [|a x l l' (_ & _ & E) F IH]; auto. cbn [map]. rewrite E, IH. auto. }
    assert (E3 : Forall (fun a => length (at_coords a) = 3%nat) kept).
    { clear -FK. induction FK as [|a x l l' (_ & E & _) F IH]; constructor; auto. }
    assert (EV : omap (fun v => match v with Some x => Done (Fin x) | None => Raise ParseError end) (cc_cellpar c) = Done (map Fin par)).
    { rewrite EP. clear. induction par as [|x par IH]; auto. cbn [map omap]. cbn [obind]. rewrite IH. auto. }
    destruct (symmetry_ok _ _ HO) as (ON & OK & OP). unfold ccdc_convert. rewrite E. cbn [obind]. rewrite EV. cbn [obind]. rewrite EC. cbn [obind]. rewrite EA. cbn [obind]. split.
    - intros ->. reflexivity.
    - intros HK. destruct (convert_reads tol d cell kept ops (if cc_operators c then [NoSymmetry] else []) Ht HK E3 LC ON OK) as (cs & w' & CE & RD).
      exists cs, (w ++ w'). destruct (map at_coords kept) as [|p ps] eqn:EK; [destruct kept; [congruence|discriminate]|]. rewrite <- EK, map_map, ET.
      match goal with |- context [convert mod1 tol d cell _ _ ?s] =>
        assert (OP' : s = Done (ops, if cc_operators c then [NoSymmetry] else [])) by (refine (eq_trans _ OP); destruct (cc_operators c); reflexivity); rewrite OP' end.
      rewrite CE. cbn [obind].
      split; auto. split; auto. split.
      + intros X. apply in_or_app. left. apply HW. auto.
      + intros X. apply in_or_app. right. apply (convert_warnings _ _ _ _ _ _ _ _ _ CE). rewrite X. left. auto.
  Qed.

  (** With skip a crystal with disorder is refused. *)
  Theorem C68_skip : forall centres, Forall plain_atom (cc_atoms c) -> d = Skip ->
    cc_has_disorder c = true \/ Exists is_disordered (cc_atoms c) -> converts centres = Raise ParseError.
  Proof.
    intros centres HP -> HD. unfold ccdc_convert, ccdc_molecule.
    match goal with |- context [if ?b then Raise ParseError else _] => assert (E : b = true) end.
    { apply orb_true_iff. destruct HD as [->|HD]; [auto|right]. apply Exists_exists in HD as (a & Ha & Q). apply existsb_exists. exists a. split; auto.
      rewrite Forall_forall in HP. apply (disordered_ok a (HP a Ha)). auto. }
    rewrite E. reflexivity.
  Qed.

  (** A missing cell parameter. *)
  Theorem C68_cell : forall centres mol, Forall plain_atom (cc_atoms c) -> filtered (stays h d) (cc_atoms c) mol ->
    (heavy = true -> Forall (fun comp => exists m, total_mass comp m) (cc_components c mol)) ->
    In None (cc_cellpar c) -> converts centres = Raise ParseError.
  Proof.
    intros centres mol HP HF HM HN.
    assert (EV : omap (fun v => match v with Some x => Done (Fin (T := R) x) | None => Raise ParseError end) (cc_cellpar c) = Raise ParseError).
    { induction (cc_cellpar c) as [|[x|] l IH]; [destruct HN| |auto]. cbn [omap obind]. destruct HN as [HN|HN]; [discriminate|]. rewrite (IH HN). auto. }
    assert (DD : (d = Skip -> cc_has_disorder c = false /\ Forall (fun a => ~ is_disordered a) (cc_atoms c)) \/ (d = Skip /\ (cc_has_disorder c = true \/ Exists is_disordered (cc_atoms c)))).
    { destruct d; try (left; discriminate). destruct (cc_has_disorder c); [right; auto|].
      destruct (existsb looks_disordered (cc_atoms c)) eqn:X.
      - right. split; auto. right. apply existsb_exists in X as (a & Ha & X). apply Exists_exists. exists a. split; auto. rewrite Forall_forall in HP. apply (disordered_ok a (HP a Ha)). auto.
      - left. intros _. split; auto. apply Forall_forall. intros a Ha Q. rewrite Forall_forall in HP. apply (disordered_ok a (HP a Ha)) in Q.
        assert (Y : existsb looks_disordered (cc_atoms c) = true) by (apply existsb_exists; eauto). congruence. }
    destruct DD as [DD|[DD Q]]; [|apply C68_skip; auto].
    destruct (molecule_ok c h d heavy mol HP DD HF HM) as (molecule & w & E & _). unfold ccdc_convert. rewrite E. cbn [obind]. rewrite EV. reflexivity.
  Qed.

  (** ** The centres of molecules *)
  Theorem C70_centres : forall mol par cell, 0 <= tol < 1 -> Forall plain_atom (cc_atoms c) ->
    (d = Skip -> cc_has_disorder c = false /\ Forall (fun a => ~ is_disordered a) (cc_atoms c)) ->
    filtered (stays h d) (cc_atoms c) mol ->
    (heavy = true -> Forall (fun comp => exists m, total_mass comp m) (cc_components c mol)) ->
    cc_cellpar c = map Some par -> c2c (map Fin par) = Done cell -> length cell = 3%nat ->
    exists molecule, molecule_used c heavy mol molecule /\
      forall centres, Forall2 geometric_centre (cc_packing c molecule) centres -> centres <> [] ->
        exists cs w sel, converts true = Done (cs, w) /\ StronglySorted lt sel /\
          (forall i, In i sel <-> (i < length centres)%nat /\ forall j, (j < i)%nat -> ~ close_mod1 tol (nth j centres []) (nth i centres [])) /\
          cs_set cs = {| ps_motif := map (fun i => cartesian cell (map frac_part (nth i centres []))) sel; ps_cell := cell; ps_asym := None; ps_mult := None |}.
  Proof.
    intros mol par cell Ht HP HS HF HM EP EC LC.
    destruct (molecule_ok c h d heavy mol HP HS HF HM) as (molecule & w & E & HU & _ & _). exists molecule. split; auto. intros centres FC HN.
    assert (EV : omap (fun v => match v with Some x => Done (Fin x) | None => Raise ParseError end) (cc_cellpar c) = Done (map Fin par)).
    { rewrite EP. clear. induction par as [|x par IH]; auto. cbn [map omap]. cbn [obind]. rewrite IH. auto. }
    assert (EM : omap (molecular_centre (T := R)) (cc_packing c molecule) = Done centres).
    { rewrite <- (map_id centres). refine (omap_Forall2 _ _ _ _ _ _ _ _ FC _). intros a x. apply centre_ok. }
    assert (L3 : Forall (fun p => length p = 3%nat) centres).
    { clear -FC. induction FC as [|a x l l' (cs & _ & _ & E & _) F IH]; constructor; auto. }
    set (frac := map (map mod1) centres). assert (LF : length frac = length centres) by apply map_length.
    assert (HS3 : Forall (fun p => length p = 3%nat /\ in_unit p) frac).
    { apply Forall_forall. intros p Hp. apply in_map_iff in Hp as (q & <- & Hq). rewrite Forall_forall in L3. split; [rewrite map_length; auto|apply mod1_same]. }
    destruct (C45_unique_sites 3 tol frac (proj2 Ht) HS3) as [LU U].
    assert (NF : forall j, (j < length centres)%nat -> nth j frac [] = map mod1 (nth j centres [])).
    { intros j Hj. unfold frac. rewrite (nth_map' _ _ _ _ _ []) by auto. auto. }
    assert (L3n : forall j, (j < length centres)%nat -> length (nth j centres []) = 3%nat) by (intros j Hj; rewrite Forall_forall in L3; apply L3, nth_In; auto).
    exists {| cs_set := {| ps_motif := map (to_cartesian cell) (select (unique_sites tol frac) frac); ps_cell := cell; ps_asym := None; ps_mult := None |}; cs_types := [] |}, w,
      (chosen (unique_sites tol frac)).
    split.
    { unfold ccdc_convert. rewrite E. cbn [obind]. rewrite EV. cbn [obind]. rewrite EC. cbn [obind]. unfold molecular_centres. rewrite EM. cbn [obind].
      destruct centres as [|p ps]; [congruence|]. reflexivity. }
    split; [apply chosen_sorted|]. split.
    - intros i. rewrite chosen_In, LU, LF. apply and_iff_compat_l_dep. intros Hi. rewrite U by lia. split; intros Q j Hj C; apply (Q j Hj).
      + rewrite !NF by lia. apply (proj2 (close_mod tol _ _ (eq_trans (L3n j ltac:(lia)) (eq_sym (L3n i ltac:(lia)))))). exact C.
      + rewrite !NF in C by lia. exact (proj1 (close_mod tol _ _ (eq_trans (L3n j ltac:(lia)) (eq_sym (L3n i ltac:(lia))))) C).
    - cbn [cs_set]. f_equal. rewrite (select_chosen _ []) by (rewrite LU; auto). rewrite map_map. apply map_ext_in. intros i Hi. apply chosen_In in Hi as [Hi _]. rewrite LU, LF in Hi.
      rewrite NF by auto. apply to_cartesian_ok. rewrite map_length, L3n by auto. auto.
  Qed.

End Crystal.

(** An entry without a 3D structure is refused, and with skip one marked as disordered; others
    are read as their crystal. *)
Theorem C68_entry : forall tol c2c e h d heavy centres,
  (ce_has_3d e = false \/ (d = Skip /\ ce_has_disorder e = true) -> ccdc_entry_convert mod1 tol c2c e h d heavy centres = Raise ParseError) /\
  (ce_has_3d e = true -> (d = Skip -> ce_has_disorder e = false) ->
     ccdc_entry_convert mod1 tol c2c e h d heavy centres = ccdc_convert mod1 tol c2c (ce_crystal e) h d heavy centres).
Proof.
  intros tol c2c e h d heavy centres. unfold ccdc_entry_convert. split.
  - intros [->|[-> ->]]; auto. destruct (ce_has_3d e); auto.
  - intros -> HD. destruct d; auto. rewrite HD by auto. auto.
Qed.

(** ** The heaviest component *)
Theorem C69_heaviest : forall comps, comps <> [] -> Forall (fun c => exists m, total_mass c m) comps ->
  exists c, heaviest_component (T := R) comps = Done c /\ heaviest comps c.
Proof. apply heaviest_found. Qed.

Lemma mass_unique : forall a m m', mass a m -> mass a m' -> m = m'.
Proof.
  intros a m m' (o & Ho & H) (o' & Ho' & H'). rewrite (occupancy_of_unique _ _ _ Ho' Ho) in H'.
  destruct H as [(w & E & ->)|[E ->]], H' as [(w' & E' & ->)|[E' ->]]; congruence.
Qed.
Lemma total_unique : forall l m m', total_mass l m -> total_mass l m' -> m = m'.
Proof.
  intros l m m' (ms & F & ->) (ms' & F' & ->). f_equal. revert ms' F'. induction F as [|a x l ms H F IH]; intros ms' F'; inversion F' as [|? y ? ys H' F'']; subst; auto.
  f_equal; [eapply mass_unique; eauto|auto].
Qed.
(** There is only one. *)
Theorem C69_unique : forall comps c c', heaviest comps c -> heaviest comps c' -> c = c'.
Proof.
  intros comps c c' (ms & i & F & E & G1 & G2) (ms' & i' & F' & E' & G1' & G2').
  assert (ms' = ms) as ->.
  { clear -F F'. revert ms' F'. induction F as [|a x l ms H F IH]; intros ms' F'; inversion F' as [|? y ? ys H' F'']; subst; auto.
    f_equal; [eapply total_unique; eauto|auto]. }
  pose proof (F2_length _ _ _ _ _ F) as L.
  assert (I : (i < length ms)%nat) by (rewrite <- L; apply nth_error_Some; congruence).
  assert (I' : (i' < length ms)%nat) by (rewrite <- L; apply nth_error_Some; congruence).
  assert (i = i') as <-.
  { destruct (lt_eq_lt_dec i i') as [[Q|Q]|Q]; auto; exfalso.
    - specialize (G2' i Q). specialize (G1 i' I'). lra.
    - specialize (G2 i' Q). specialize (G1' i I). lra. }
  congruence.
Qed.

(** ** Concrete crystals *)
Definition atom_of (label symbol : string) (number : nat) (weight : R) (coords : option (list R)) : catom :=
  {| ca_label := text label; ca_symbol := text symbol; ca_number := number; ca_occupancy := Nothing; ca_weight := Number (Fin weight); ca_coords := coords |}.
Definition C1 := atom_of "C1" "C" 6 12 (Some [0; 0; 0]).
Definition O1 := atom_of "O1" "O" 8 16 (Some [1 / 2; 0; 0]).
Definition H1 := atom_of "H1" "H" 1 1 (Some [1 / 2; 1 / 2; 1 / 2]).
Definition N1 := atom_of "N1" "N" 7 14 None.
(** All atoms are one component, and the asymmetric unit. *)
Definition crystal_of (atoms : list catom) : ccdc_crystal (T := R) :=
  {| cc_atoms := atoms; cc_has_disorder := false; cc_cellpar := map Some [1; 1; 1; 90; 90; 90]; cc_operators := [];
     cc_components := fun l => [l]; cc_asymmetric := fun l => l; cc_packing := fun l => match l with [] => [] | _ => [l] end |}.

Ltac not_question := intros [(x & [[Q|(sg & n & Q & _)]|[_ ->]] & L)|[s Q]]; [discriminate Q|discriminate Q|lra|
  apply (f_equal (fun l => last l "0"%char)) in Q; rewrite last_last in Q; discriminate Q].
Lemma atoms_plain : forall a, In a [C1; O1; H1; N1] -> plain_atom a /\ ~ is_disordered a.
Proof.
  intros a Ha. split.
  - split; [right|exists 1; right]; destruct Ha as [<-|[<-|[<-|[<-|[]]]]]; auto; cbn [map elements In]; unfold C1, O1, H1, N1; cbn [ca_symbol atom_of]; auto 15.
  - destruct Ha as [<-|[<-|[<-|[<-|[]]]]]; not_question.
Qed.

Lemma filtered_ex : forall h d, filtered (stays h d) [] [].
Proof. constructor. Qed.
Lemma stays_ok : forall h d a, In a [C1; O1; H1] -> (h = true -> a <> H1) -> stays h d a.
Proof.
  intros h d a Ha HH. split; [split|].
  - intros [-> [E|E]]; destruct Ha as [<-|[<-|[<-|[]]]]; try discriminate E. apply HH; auto.
  - intros [_ Q]. revert Q. apply atoms_plain. cbn in *. tauto.
  - destruct Ha as [<-|[<-|[<-|[]]]]; discriminate.
Qed.

(** Carbon, hydrogen, and nitrogen without a position: hydrogens removed, carbon remains. *)
Example C68_case : let c := crystal_of [C1; H1; N1] in
  Forall plain_atom (cc_atoms c) /\ Forall (fun a => ~ is_disordered a) (cc_atoms c) /\ filtered (stays true Skip) (cc_atoms c) [C1] /\
  symmetry_of (cc_operators c) [identity] /\ Forall2 gives_atom (cc_asymmetric c [C1]) [carbon_atom] /\
  exists cs w, ccdc_convert mod1 (1 / 1000) to_unit c true Skip false false = Done (cs, w) /\
    reads (1 / 1000) Skip unit_cell [identity] [carbon_atom] cs /\ In MissingSites w /\ In NoSymmetry w.
Proof.
  intros c.
  assert (P : Forall plain_atom (cc_atoms c)) by (apply Forall_forall; intros a Ha; apply atoms_plain; cbn in *; tauto).
  assert (D : Forall (fun a => ~ is_disordered a) (cc_atoms c)) by (apply Forall_forall; intros a Ha; apply atoms_plain; cbn in *; tauto).
  assert (F : filtered (stays true Skip) (cc_atoms c) [C1]).
  { cbn [c crystal_of cc_atoms]. apply filtered_keep; [apply stays_ok; [cbn; auto|intros _ E; discriminate E]|]. apply filtered_drop.
    { intros [[Q _] _]. apply Q. split; auto. left. reflexivity. }
    apply filtered_drop; [intros [_ Q]; apply Q; reflexivity|constructor]. }
  assert (S0 : symmetry_of (cc_operators c) [identity]) by (left; auto).
  assert (G : Forall2 gives_atom (cc_asymmetric c [C1]) [carbon_atom]) by (repeat constructor).
  split; auto. split; auto. split; auto. split; auto. split; auto.
  destruct (C68_crystal (1 / 1000) to_unit c true Skip false [C1] [identity] [1; 1; 1; 90; 90; 90] unit_cell) as (mol & U & Q); auto; [lra|discriminate|].
  destruct U as [(E & _)|(_ & ->)]; [discriminate|]. destruct (Q [carbon_atom] G) as [_ (cs & w & E & RD & W1 & W2)]; [discriminate|].
  exists cs, w. split; auto. split; auto. split; auto. apply W1. apply Exists_exists. exists N1. split; [cbn; auto|]. split; [|reflexivity]. split.
  - intros [_ [Q'|Q']]; discriminate Q'.
  - intros [Q' _]. discriminate Q'.
Qed.

(** The documentation says that ParseError is raised if an atom has no fractional coordinates. *)
Theorem C68_missing_refuted : exists tol c2c c h d cs w a, 0 <= tol < 1 /\ In a (cc_atoms c) /\ ca_coords a = None /\
  ccdc_convert mod1 tol c2c c h d false false = Done (cs, w).
Proof.
  destruct C68_case as (_ & _ & _ & _ & _ & cs & w & E & _).
  exists (1 / 1000), to_unit, (crystal_of [C1; H1; N1]), true, Skip, cs, w, N1. split; [lra|]. split; [cbn; auto|]. auto.
Qed.

Lemma weight_mass : forall label symbol n w coords, mass (atom_of label symbol n w coords) w.
Proof. intros. exists 1. split; [right; auto|]. left. exists w. split; auto. ring. Qed.
(** Water, and carbon with oxygen. *)
Example C69_case : let comps := [[O1; H1; H1]; [C1; O1]] in Forall (fun c => exists m, total_mass c m) comps /\
  heaviest_component (T := R) comps = Done [C1; O1] /\ heaviest comps [C1; O1].
Proof.
  intros comps. assert (F : Forall2 total_mass comps [18; 28]).
  { constructor; [exists [16; 1; 1]|constructor; [exists [12; 16]|constructor]]; (split; [repeat constructor; apply weight_mass|unfold rsum; cbn; lra]). }
  assert (F' : Forall (fun c => exists m, total_mass c m) comps).
  { revert F. generalize comps. generalize [18; 28]. intros ms l F. induction F; constructor; eauto. }
  assert (G : heaviest comps [C1; O1]).
  { exists [18; 28], 1%nat. split; auto. split; auto. split; intros [|[|j]] Hj; cbn in *; try lia; lra. }
  split; auto. split; auto. destruct (C69_heaviest comps) as (c & E & Hc); [discriminate|auto|]. rewrite E. f_equal. eapply C69_unique; eauto.
Qed.

Lemma CO_centre : geometric_centre [C1; O1] [1 / 4; 0; 0].
Proof.
  exists [[0; 0; 0]; [1 / 2; 0; 0]]. split; [repeat constructor|]. split; [discriminate|]. split; auto. intros [|[|[|j]]] Hj; try lia; unfold rsum; cbn; lra.
Qed.
Lemma CO_mass_centre : mass_centre [C1; O1] [2 / 7; 0; 0].
Proof.
  exists [[0; 0; 0]; [1 / 2; 0; 0]], [12; 16]. split; [repeat constructor|]. split; [repeat constructor; apply weight_mass|]. split; auto.
  intros [|[|[|j]]] Hj; try lia; unfold rsum; cbn; lra.
Qed.
Lemma unit_cartesian : forall f, length f = 3%nat -> cartesian unit_cell f = f.
Proof. intros [|x [|y [|z [|]]]] Hf; try discriminate Hf. unfold cartesian, comb_coord, unit_cell, rsum. cbn. repeat (f_equal; try ring). Qed.

(** One molecule of carbon and oxygen: the only point is the average of the positions. *)
Example C70_case : let c := crystal_of [C1; O1] in Forall plain_atom (cc_atoms c) /\ filtered (stays false Skip) (cc_atoms c) [C1; O1] /\
  Forall2 geometric_centre (cc_packing c [C1; O1]) [[1 / 4; 0; 0]] /\
  exists cs w, ccdc_convert mod1 (1 / 1000) to_unit c false Skip false true = Done (cs, w) /\
    ps_motif (cs_set cs) = [map frac_part [1 / 4; 0; 0]].
Proof.
  intros c.
  assert (P : Forall plain_atom (cc_atoms c)) by (apply Forall_forall; intros a Ha; apply atoms_plain; cbn in *; tauto).
  assert (D : Forall (fun a => ~ is_disordered a) (cc_atoms c)) by (apply Forall_forall; intros a Ha; apply atoms_plain; cbn in *; tauto).
  assert (F : filtered (stays false Skip) (cc_atoms c) [C1; O1]).
  { cbn [c crystal_of cc_atoms]. repeat (apply filtered_keep; [apply stays_ok; [cbn; auto|discriminate]|]). constructor. }
  assert (G : Forall2 geometric_centre (cc_packing c [C1; O1]) [[1 / 4; 0; 0]]) by (constructor; [apply CO_centre|constructor]).
  split; auto. split; auto. split; auto.
  destruct (C70_centres (1 / 1000) to_unit c false Skip false [C1; O1] [1; 1; 1; 90; 90; 90] unit_cell) as (mol & U & Q); auto; [lra|discriminate|].
  destruct U as [(E & _)|(_ & ->)]; [discriminate|]. destruct (Q _ G) as (cs & w & sel & E & S1 & S2 & S3); [discriminate|].
  exists cs, w. split; auto. rewrite S3. cbn [ps_motif]. assert (E1 : sel = [0%nat]).
  { assert (I : In 0%nat sel) by (apply S2; split; [cbn; lia|intros; lia]). assert (A : forall i, In i sel -> i = 0%nat) by (intros i Hi; apply S2 in Hi; cbn in Hi; lia).
    destruct sel as [|a [|b sel]]; [destruct I| |].
    - f_equal. apply A. left. auto.
    - exfalso. inversion S1 as [|? ? S1' S4]; subst. inversion S4; subst. pose proof (A a (or_introl eq_refl)). pose proof (A b (or_intror (or_introl eq_refl))). lia. }
  rewrite E1. cbn [map nth]. rewrite unit_cartesian by reflexivity. auto.
Qed.

(** The documentation says that the motif consists of the centres of mass of the molecules. *)
Theorem C70_mass_refuted : exists tol c2c c cell cs w comp p, 0 <= tol < 1 /\ (forall l, c2c l = Done cell) /\
  cc_packing c (cc_atoms c) = [comp] /\ comp = cc_atoms c /\ mass_centre comp p /\
  ccdc_convert mod1 tol c2c c false Skip false true = Done (cs, w) /\
  forall f, length f = 3%nat -> same_mod1 f p -> ~ In (cartesian cell f) (ps_motif (cs_set cs)).
Proof.
  destruct C70_case as (_ & _ & _ & cs & w & E & M).
  exists (1 / 1000), to_unit, (crystal_of [C1; O1]), unit_cell, cs, w, [C1; O1], [2 / 7; 0; 0]. split; [lra|]. split; [auto|]. split; auto. split; auto.
  split; [apply CO_mass_centre|]. split; auto. intros f Hf Sf I. rewrite M, unit_cartesian in I by auto. destruct I as [I|[]]. rewrite <- I in Sf.
  assert (Sg : same_mod1 [1 / 4; 0; 0] [2 / 7; 0; 0]) by (eapply same_trans; [apply same_sym, mod1_same|exact Sf]).
  destruct Sg as [_ Sg]. destruct (Sg 0%nat) as [n Hn]; [cbn; lia|]. cbn [nth] in Hn.
  assert (B : -1 < IZR n < 0) by lra. destruct B as [B1 B2]. apply lt_IZR in B1, B2. lia.
Qed.

(** Nothing left is a ParseError for atoms, but not for centres of molecules. *)
Theorem C70_empty_refuted : exists tol c2c c h, 0 <= tol < 1 /\ ccdc_convert mod1 tol c2c c h Skip false false = Raise ParseError /\
  exists e, ccdc_convert mod1 tol c2c c h Skip false true = Raise e /\ e <> ParseError.
Proof.
  exists (1 / 1000), to_unit, (crystal_of [H1]), true. split; [lra|].
  assert (E : ccdc_molecule (T := R) (crystal_of [H1]) true Skip false = Done ([], [])).
  { unfold ccdc_molecule. cbn [crystal_of cc_has_disorder cc_atoms orb existsb]. assert (Q : looks_disordered H1 = false).
    { apply not_true_iff_false. intros Q. apply disordered_ok in Q; [|apply atoms_plain; cbn; auto]. revert Q. apply atoms_plain. cbn. auto. }
    unfold looks_disordered in Q. rewrite Q. reflexivity. }
  unfold ccdc_convert. rewrite E. split; [reflexivity|]. exists TypeError. split; [reflexivity|discriminate].
Qed.

Print Assumptions C68_crystal.
Print Assumptions C68_skip.
Print Assumptions C68_cell.
Print Assumptions C70_centres.
Print Assumptions C68_entry.
Print Assumptions C69_heaviest.
Print Assumptions C69_unique.
Print Assumptions C68_missing_refuted.
Print Assumptions C70_mass_refuted.
Print Assumptions C70_empty_refuted.
