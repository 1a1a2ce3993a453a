(** Model of the converters of library objects, src/amd/io.py:1078-1147 (ase.Atoms), 1150-1239
    (pymatgen.Structure), 1242-1453 and 1757-1791 (csd-python-api).

    An object is what the library gives for it. What the libraries compute are parameters:
    [ase.spacegroup.get_basis], the conventional standard structure of pymatgen, components,
    asymmetric unit and packing of csd-python-api, besides [cellpar_to_cell] and [np.mod(_, 1)]
    as in BlocksModel.v. Names of crystals are left out. *)
From Coq Require Import List ZArith Arith Bool Ascii String.
From Verif Require Import Num Base Outcome NNModel CalcModel CompareModel TextModel SitesModel BlocksModel.
Import ListNotations.
Open Scope outcome_scope.
Open Scope string_scope.
Open Scope list_scope.
Notation length := List.length.

(** [s in t] for strings: [s] is a substring. *)
Definition in_text (s t : chars) : bool := existsb (fun i => text_eqb s (firstn (length s) (skipn i t))) (seq 0 (S (length t))).

Section Objects.
  Context {T : Type} `{Num T} (mod1 : T -> T) (tol : T).
  Context (cellpar_to_cell : list (fval (T := T)) -> outcome (list (vec T))).
  Notation fval := (fval (T := T)).
  Notation cifval := (cifval (T := T)).
  Notation op := (op (T := T)).

  (** ** csd-python-api *)
  Record ccdc_atom := {
    ca_label : chars;
    ca_symbol : chars;               (* atomic_symbol *)
    ca_number : nat;                 (* atomic_number *)
    ca_occupancy : cifval;
    ca_weight : cifval;              (* atomic_weight *)
    ca_coords : option (vec T)       (* fractional_coordinates *)
  }.
  (** A molecule is the list of its atoms; the last three functions give what the crystal shows
      after [crystal.molecule = molecule]. *)
  Record ccdc_crystal := {
    cc_atoms : list ccdc_atom;                              (* disordered_molecule.atoms *)
    cc_has_disorder : bool;
    cc_cellpar : list (option T);                           (* cell_lengths + cell_angles *)
    cc_operators : list chars;                              (* symmetry_operators *)
    cc_components : list ccdc_atom -> list (list ccdc_atom);    (* molecule.components *)
    cc_asymmetric : list ccdc_atom -> list ccdc_atom;           (* asymmetric_unit_molecule.atoms *)
    cc_packing : list ccdc_atom -> list (list ccdc_atom)        (* packing(...).components *)
  }.

  (** [float(v)] *)
  Definition float_value (v : cifval) : outcome fval :=
    match v with
    | Str s => match py_float s with Some x => Done x | None => Raise ValueError end
    | Number x => Done x
    | _ => Raise TypeError
    end.
  (** Lines 1779-1787; infinite weights and occupancies are not modelled, which OutOfFuel stands for. *)
  Definition add_weight (weight : T) (a : ccdc_atom) : outcome T :=
    match float_value (ca_weight a), occupancy_value (ca_occupancy a) with
    | Done (Fin w), Fin occ => Done (nadd weight (nmul w occ))
    | Raise ValueError, _ => Done weight
    | Raise e, _ => Raise e
    | _, _ => OutOfFuel
    end.
  Definition component_weight (component : list ccdc_atom) : outcome T := ofold add_weight component n0.
  (** [np.argmax] *)
  Fixpoint argmax_from (i best : nat) (m : T) (l : list T) : nat :=
    match l with
    | [] => best
    | x :: t => if nltb m x then argmax_from (S i) i x t else argmax_from (S i) best m t
    end.
  Definition np_argmax (l : list T) : outcome nat :=
    match l with [] => Raise ValueError | x :: t => Done (argmax_from 1 0 x t) end.
  (** _heaviest_component_ccdc, lines 1770-1791 *)
  Definition heaviest_component (components : list (list ccdc_atom)) : outcome (list ccdc_atom) :=
    weights <- omap component_weight components ;;
    i <- np_argmax weights ;;
    get_at components i.

  (** _frac_molecular_centres_ccdc, lines 1757-1767. Without components _unique_sites gets an
      array with one axis, for which numba raises TypingError; TypeError stands for it. A component
      without atoms is not modelled, which OutOfFuel stands for. *)
  Definition molecular_centre (component : list ccdc_atom) : outcome (vec T) :=
    coords <- omap (fun a => match ca_coords a with Some c => Done c | None => Raise TypeError end) component ;;
    match coords with
    | [] => OutOfFuel
    | _ => Done (map (fun ax => ndiv (nsum ax) (nofnat (length coords))) (rows_of n0 coords))
    end.
  Definition molecular_centres (components : list (list ccdc_atom)) : outcome (list (vec T)) :=
    centres <- omap molecular_centre components ;;
    match centres with
    | [] => Raise TypeError
    | _ => let frac := map (map mod1) centres in Done (select (unique_sites tol frac) frac)
    end.

  (** Lines 1362-1391: the atoms left, and whether some had no coordinates. *)
  Definition ccdc_molecule (c : ccdc_crystal) (remove_hydrogens : bool) (disorder : disorder_option) (heaviest : bool)
    : outcome (list ccdc_atom * list warning) :=
    let disordered a := has_disorder (ca_label a) (ca_occupancy a) in
    atoms <- match disorder with
             | Skip => if (cc_has_disorder c || existsb disordered (cc_atoms c))%bool then Raise ParseError else Done (cc_atoms c)
             | OrderedSites => Done (filter (fun a => negb (disordered a)) (cc_atoms c))
             | AllSites => Done (cc_atoms c)
             end ;;
    let atoms := if remove_hydrogens then filter (fun a => negb (in_text (ca_symbol a) (text "HD"))) atoms else atoms in
    let placed a := match ca_coords a with Some _ => true | None => false end in
    let w := if forallb placed atoms then [] else [MissingSites] in
    let atoms := filter placed atoms in
    molecule <- (if (heaviest && (1 <? length (cc_components c atoms))%nat)%bool
                 then heaviest_component (cc_components c atoms) else Done atoms) ;;
    Done (molecule, w).

  (** periodicset_from_ccdc_crystal, lines 1313-1453. Molecular centres have no types. *)
  Definition ccdc_convert (c : ccdc_crystal) (remove_hydrogens : bool) (disorder : disorder_option) (heaviest centres : bool)
    : outcome (crystal_set (T := T) * list warning) :=
    '(molecule, w) <- ccdc_molecule c remove_hydrogens disorder heaviest ;;
    cellpar <- omap (fun v => match v with Some x => Done (Fin x) | None => Raise ParseError end) (cc_cellpar c) ;;
    cell <- cellpar_to_cell cellpar ;;
    if centres then
      frac <- molecular_centres (cc_packing c molecule) ;;
      Done ({| cs_set := {| ps_motif := map (to_cartesian cell) frac; ps_cell := cell; ps_asym := None; ps_mult := None |};
               cs_types := [] |}, w)
    else
      let asym_atoms := cc_asymmetric c molecule in
      asym_unit <- omap (fun a => match ca_coords a with Some p => Done p | None => Raise TypeError end) asym_atoms ;;
      match asym_unit with
      | [] => Raise ParseError
      | _ =>
          '(cs, w') <- convert mod1 tol disorder cell (map (map mod1) asym_unit) (map ca_number asym_atoms)
            (match cc_operators c with
             | [] => ops <- parse_sitesyms [text "x,y,z"] ;; Done (ops, [NoSymmetry])
             | syms => ops <- parse_sitesyms syms ;; Done (ops, [])
             end) ;;
          Done (cs, w ++ w')
      end.

  (** periodicset_from_ccdc_entry, lines 1242-1310 *)
  Record ccdc_entry := { ce_has_3d : bool; ce_has_disorder : bool; ce_crystal : ccdc_crystal }.
  Definition ccdc_entry_convert (e : ccdc_entry) (remove_hydrogens : bool) (disorder : disorder_option) (heaviest centres : bool)
    : outcome (crystal_set (T := T) * list warning) :=
    if negb (ce_has_3d e) then Raise ParseError
    else if (match disorder with Skip => ce_has_disorder e | _ => false end) then Raise ParseError
    else ccdc_convert (ce_crystal e) remove_hydrogens disorder heaviest centres.

  (** ** ase.Atoms, lines 1078-1147 *)
  Record ase_object := {
    ao_numbers : list nat;              (* get_atomic_numbers() *)
    ao_scaled : list (vec T);           (* get_scaled_positions() *)
    ao_cell : list (vec T);
    ao_group : option (list op)         (* info['spacegroup'] *)
  }.
  (** [get_basis(atoms, spacegroup=spg, tol)] *)
  Context (get_basis : ase_object -> outcome (list (vec T))).
  (** [atoms.pop(i)] for the hydrogens *)
  Definition pop_hydrogens (a : ase_object) : ase_object :=
    let remove := map fst (filter (fun it => (snd it =? 1)%nat) (enumerate (ao_numbers a))) in
    {| ao_numbers := without remove (ao_numbers a); ao_scaled := without remove (ao_scaled a);
       ao_cell := ao_cell a; ao_group := ao_group a |}.
  Definition P1 : op := (map (fun i => map (fun j => if (i =? j)%nat then n1 else n0) (seq 0 3)) (seq 0 3), repeat n0 3).
  (** The result, and the object passed as it is afterwards. *)
  Definition ase_object_convert (a : ase_object) (remove_hydrogens : bool)
    : outcome (crystal_set (T := T) * list warning) * ase_object :=
    let a := if remove_hydrogens then pop_hydrogens a else a in
    (match ao_numbers a with
     | [] => Raise ParseError
     | _ =>
         let '(ops, w) := match ao_group a with Some ops => (ops, []) | None => ([P1], [NoSymmetry]) end in
         asym_unit <- get_basis a ;;
         '(frac_motif, invs, w') <- expand_asym_unit mod1 tol true asym_unit ops ;;
         let '(_, wyc_muls) := np_unique_counts invs in
         Done ({| cs_set := {| ps_motif := map (to_cartesian (ao_cell a)) frac_motif; ps_cell := ao_cell a;
                               ps_asym := Some (asym_inds wyc_muls); ps_mult := Some wyc_muls |};
                  cs_types := ao_numbers a |}, w ++ w')
     end, a).

  (** ** pymatgen.Structure, lines 1150-1239 *)
  Record pm_site := { pm_species : list (chars * T); pm_coords : vec T }.
  Record pm_structure := { pm_sites : list pm_site; pm_cell : list (vec T) }.
  (** [SpacegroupAnalyzer(structure).get_conventional_standard_structure()] *)
  Context (conventional : pm_structure -> outcome pm_structure).
  Definition is_one (x : T) : bool := (nleb x n1 && nleb n1 x)%bool.
  (** [site.is_ordered] *)
  Definition site_ordered (s : pm_site) : bool := match pm_species s with [(_, occ)] => is_one occ | _ => false end.
  (** [structure.remove_species(['H', 'D'])] *)
  Definition remove_species (names : list chars) (st : pm_structure) : pm_structure :=
    {| pm_sites := filter (fun s => match pm_species s with [] => false | _ => true end)
         (map (fun s => {| pm_species := filter (fun so => negb (existsb (text_eqb (fst so)) names)) (pm_species s);
                           pm_coords := pm_coords s |}) (pm_sites st));
       pm_cell := pm_cell st |}.
  Definition num_atoms (s : pm_site) : T := nsum (map snd (pm_species s)).
  (** [site.specie.Z] *)
  Definition specie_number (s : pm_site) : outcome nat :=
    if site_ordered s then match pm_species s with (sym, _) :: _ => Done (atomic_number sym) | [] => Raise AttributeError end
    else Raise AttributeError.
  (** The result, and the structure passed as it is afterwards. *)
  Definition pymatgen_object_convert (st : pm_structure) (remove_hydrogens : bool) (disorder : disorder_option)
    : outcome (crystal_set (T := T)) * pm_structure :=
    let st := if remove_hydrogens then remove_species (map text ["H"; "D"]) st else st in
    let refused := match disorder with Skip => negb (forallb site_ordered (pm_sites st)) | _ => false end in
    if refused then (Raise ParseError, st) else
    let st := match disorder with
              | OrderedSites => {| pm_sites := filter (fun s => negb (nltb (num_atoms s) n1)) (pm_sites st); pm_cell := pm_cell st |}
              | _ => st
              end in
    (sym <- conventional st ;;
     types <- omap specie_number (pm_sites sym) ;;
     let n := length (pm_sites sym) in
     Done {| cs_set := {| ps_motif := map pm_coords (pm_sites sym); ps_cell := pm_cell sym;
                          ps_asym := Some (seq 0 n); ps_mult := Some (repeat 1%nat n) |};
             cs_types := types |}, st).
End Objects.
