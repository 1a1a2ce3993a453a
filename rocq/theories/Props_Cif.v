(** C59: reading a file with a block which lacks data or has malformed numbers. *)
From Coq Require Import List ZArith Reals Arith Bool Ascii String Lia Lra Sorted.
From Verif Require Import Num Base Outcome NNModel CalcModel TextModel SpecText TextProofs
  SitesModel SpecSites SitesProofs BlocksModel SpecBlocks BlocksProofs Props_Blocks ReaderModel Props_Reader.
Import ListNotations.
Open Scope string_scope.
Open Scope R_scope.
Open Scope list_scope.
Notation length := List.length.

(** The converters as a reader uses them: a named block gives warnings and a named crystal.
    Warnings issued before an exception are lost, so they are left out. *)
Definition as_item {block} (convert : block -> outcome (crystal_set (T := R) * list warning)) (nb : string * block)
  : list warning * outcome (string * crystal_set (T := R)) :=
  match convert (snd nb) with
  | Done (cs, ws) => (ws, Done (fst nb, cs))
  | Raise e => ([], Raise e)
  | OutOfBounds => ([], OutOfBounds)
  | OutOfFuel => ([], OutOfFuel)
  end.

(** Blocks whose conversion succeeds or raises ParseError are read as far as possible; this is
    C43 for the three converters. *)
Theorem C59_other_blocks : forall block (convert : block -> outcome (crystal_set (T := R) * list warning)) blocks show w fuel,
  Forall (fun nb => (exists r, convert (snd nb) = Done r) \/ convert (snd nb) = Raise ParseError) blocks -> (length blocks < fuel)%nat ->
  fst (to_list fst fuel (with_steps (as_item convert) (map Yields blocks) show) w) =
    Done (flat_map (fun nb => match convert (snd nb) with Done (cs, _) => [(fst nb, cs)] | _ => [] end) blocks).
Proof.
  intros block convert blocks show w fuel HB HF.
  destruct (C43_all_items fst (as_item convert) blocks show w fuel) as [-> _]; auto.
  - apply Forall_forall. intros nb Hnb. rewrite Forall_forall in HB. unfold tolerable, as_item.
    destruct (HB nb Hnb) as [[[cs ws] ->]| ->]; [exists ws; left; eauto|exists []; right; auto].
  - f_equal. unfold conversions. apply flat_map_ext. intros nb. unfold as_item. destruct (convert (snd nb)) as [[cs ws]|e| |]; auto.
Qed.

(** Missing data: gemmi and pymatgen raise ParseError. For missing cell parameters see
    [C42_gemmi_cell_partial] and [C42_pymatgen_cell_partial]. *)
Theorem C59_gemmi_coordinates : forall tol c2c lib b par cell h d, gemmi_cell b par -> c2c (map Fin par) = Done cell -> gb_fract b = None ->
  gemmi_convert mod1 tol c2c lib b h d = Raise (A := crystal_set (T := R) * list warning) ParseError.
Proof.
  intros tol c2c lib b par cell h d HP HC HF. destruct (gemmi_cell_read denotes b par denotes_float HP) as (pars & P1 & P2).
  unfold gemmi_convert. unfold chars in *. rewrite P1, P2. cbn [obind]. rewrite sum_finite, HC, HF. auto.
Qed.
Theorem C59_pymatgen_coordinates : forall tol c2c lib b par cell h d t, pymatgen_cell b par -> c2c (map Fin par) = Done cell ->
  In t (map text ["_atom_site_fract_x"; "_atom_site_fract_y"; "_atom_site_fract_z"]) -> pb_get b t = Nothing ->
  pymatgen_convert mod1 tol c2c lib b h d = Raise (A := crystal_set (T := R) * list warning) ParseError.
Proof.
  intros tol c2c lib b par cell h d t HP HC Ht HN. destruct (pymatgen_cell_read b par HP) as [P1 P2].
  unfold pymatgen_convert. rewrite P1, P2. cbn [reraise obind]. rewrite HC. cbn [obind].
  assert (E : existsb (fun t => is_nothing (pb_get b t)) fract_tags = true).
  { apply existsb_exists. exists t. split; auto. rewrite HN. auto. }
  rewrite E. auto.
Qed.

(** A coordinate which is not a number raises ValueError with gemmi, which stops the reader
    although the other block is fine. *)
Definition bad_coordinate : list string := ["C1"; "C"; "zero"; "0"; "0"; "1"].
Theorem C59_malformed_refuted : exists tol c2c lib bad good h d (w : wstate warning),
  (exists r, gemmi_convert mod1 tol c2c lib good h d = Done r) /\
  fst (to_list fst 3 (with_steps (as_item (fun b => gemmi_convert mod1 tol c2c lib b h d)) [Yields ("bad", bad); Yields ("good", good)] true) w) =
    Raise ValueError.
Proof.
  exists (1 / 1000), to_unit, no_glib, (gemmi_of "1" [bad_coordinate]), (gemmi_of "1" [carbon]), false, Skip, {| ignoring := false; shown := [] |}.
  destruct (table_cell denotes "1" 1 [bad_coordinate] plainly_denotes (plainly_denotes _ _ plainly_1)) as [D _].
  destruct (gemmi_cell_read denotes _ _ denotes_float D) as (pars & P1 & P2).
  assert (E : gemmi_convert mod1 (1 / 1000) to_unit no_glib (gemmi_of "1" [bad_coordinate]) false Skip = Raise ValueError).
  { unfold gemmi_convert. unfold chars in *. rewrite P1, P2. cbn [obind]. rewrite sum_finite. reflexivity. }
  split.
  - destruct (table_symmetry "1" [carbon]) as (S1 & _ & _).
    rewrite (gemmi_form denotes (1 / 1000) to_unit no_glib _ [carbon_atom] [1; 1; 1; 90; 90; 90] unit_cell false Skip denotes_float).
    + rewrite S1. apply one_reads; auto.
    + apply table_atoms. constructor; [apply carbon_row|constructor].
    + apply table_cell; [apply plainly_denotes|apply plainly_denotes, plainly_1].
    + auto.
  - cbn [to_list]. unfold next. cbn [with_steps rd_show rd_convert rd_steps next_item]. unfold as_item at 1. cbn [snd]. rewrite E. reflexivity.
Qed.
(** With ase, a missing cell parameter raises ValueError and missing coordinates raise
    TypeError, instead of the documented ParseError. *)
Theorem C59_ase_missing_refuted : exists tol c2c spg b1 b2 par cell, ab_get b1 (text "_cell_length_a") = Nothing /\
  (forall h d, ase_convert mod1 tol c2c spg b1 h d = Raise (A := crystal_set (T := R) * list warning) ValueError) /\
  ase_cell b2 par /\ c2c (map Fin par) = Done cell /\ ab_get b2 (text "_atom_site_fract_x") = Nothing /\
  (forall h d, ase_convert mod1 tol c2c spg b2 h d = Raise (A := crystal_set (T := R) * list warning) TypeError).
Proof.
  pose (without_tag t0 := {| ab_get t := if text_eqb t (text t0) then Nothing else column_of "1" [carbon] t |}).
  exists (1 / 1000), to_unit, no_spg, (without_tag "_cell_length_a"), (without_tag "_atom_site_fract_x"), [1; 1; 1; 90; 90; 90], unit_cell.
  assert (A : ase_cell (without_tag "_atom_site_fract_x") [1; 1; 1; 90; 90; 90]).
  { unfold ase_cell, cell_tags. cbn [map].
    repeat (apply Forall2_cons; [right; eexists; split; [reflexivity|]; apply plainly_denotes; first [apply plainly_1 | apply plainly_90]|]).
    apply Forall2_nil. }
  refine (conj eq_refl (conj (fun _ _ => eq_refl) (conj A (conj eq_refl (conj eq_refl _))))).
  intros h d. unfold ase_convert. rewrite (ase_cell_read _ _ A). reflexivity.
Qed.

Print Assumptions C59_other_blocks.
Print Assumptions C59_gemmi_coordinates.
Print Assumptions C59_pymatgen_coordinates.
Print Assumptions C59_malformed_refuted.
Print Assumptions C59_ase_missing_refuted.
