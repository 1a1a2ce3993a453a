(** Model of the converters of CIF blocks, src/amd/io.py:505-706 (gemmi), 709-894 (ase),
    897-1075 and 1690-1741 (pymatgen).

    A block is what the CIF library gives for it: a record of lookup functions. Parameters of
    the model are the libraries' tables of space groups, [gemmi.cif.as_string] and [as_int],
    [cellpar_to_cell] (see UtilsModel.v) and [np.mod(_, 1)]. Names of crystals are left out.
    The option [disorder] is one of the three values CifReader accepts. *)
From Coq Require Import List ZArith Arith Bool Ascii String.
From Verif Require Import Num Base Outcome NNModel CalcModel CompareModel TextModel SitesModel.
Import ListNotations.
Open Scope outcome_scope.
Open Scope string_scope.
Open Scope list_scope.
Notation length := List.length.

Inductive disorder_option := Skip | OrderedSites | AllSites.
Definition is_all_sites (d : disorder_option) : bool := match d with AllSites => true | _ => false end.

(** _CIF_TAGS, lines 58-92 *)
Definition cellpar_tags : list chars := map text
  ["_cell_length_a"; "_cell_length_b"; "_cell_length_c"; "_cell_angle_alpha"; "_cell_angle_beta"; "_cell_angle_gamma"].
Definition fract_tags : list chars := map text ["_atom_site_fract_x"; "_atom_site_fract_y"; "_atom_site_fract_z"].
Definition cartn_tags : list chars := map text ["_atom_site_Cartn_x"; "_atom_site_Cartn_y"; "_atom_site_Cartn_z"].
Definition symop_tags : list chars := map text
  ["_space_group_symop_operation_xyz"; "_space_group_symop.operation_xyz"; "_symmetry_equiv_pos_as_xyz"].
Definition spacegroup_name_tags : list chars := map text ["_space_group_name_H-M_alt"; "_symmetry_space_group_name_H-M"].
Definition spacegroup_number_tags : list chars := map text ["_space_group_IT_number"; "_symmetry_Int_Tables_number"].
Definition label_tag : chars := text "_atom_site_label".
Definition type_symbol_tag : chars := text "_atom_site_type_symbol".
Definition occupancy_tag : chars := text "_atom_site_occupancy".

(** atomic_numbers.json; symbols which are not in the table get type 0. *)
Definition atomic_numbers : list (string * nat) :=
  [("", 0); ("Ac", 89); ("Ag", 47); ("Al", 13); ("Am", 95); ("Ar", 18); ("As", 33); ("At", 85);
   ("Au", 79); ("B", 5); ("Ba", 56); ("Be", 4); ("Bh", 107); ("Bi", 83); ("Bk", 97); ("Br", 35);
   ("C", 6); ("Ca", 20); ("Cd", 48); ("Ce", 58); ("Cf", 98); ("Cl", 17); ("Cm", 96); ("Cn", 112);
   ("Co", 27); ("Cr", 24); ("Cs", 55); ("Cu", 29); ("D", 1); ("Db", 105); ("Ds", 110);
   ("Dy", 66); ("Er", 68); ("Es", 99); ("Eu", 63); ("F", 9); ("Fe", 26); ("Fl", 114);
   ("Fm", 100); ("Fr", 87); ("Ga", 31); ("Gd", 64); ("Ge", 32); ("H", 1); ("He", 2); ("Hf", 72);
   ("Hg", 80); ("Ho", 67); ("Hs", 108); ("I", 53); ("In", 49); ("Ir", 77); ("K", 19); ("Kr", 36);
   ("La", 57); ("Li", 3); ("Lr", 103); ("Lu", 71); ("Lv", 116); ("Mc", 115); ("Md", 101);
   ("Mg", 12); ("Mn", 25); ("Mo", 42); ("Mt", 109); ("N", 7); ("Na", 11); ("Nb", 41); ("Nd", 60);
   ("Ne", 10); ("Nh", 113); ("Ni", 28); ("No", 102); ("Np", 93); ("O", 8); ("Og", 118);
   ("Os", 76); ("P", 15); ("Pa", 91); ("Pb", 82); ("Pd", 46); ("Pm", 61); ("Po", 84); ("Pr", 59);
   ("Pt", 78); ("Pu", 94); ("Ra", 88); ("Rb", 37); ("Re", 75); ("Rf", 104); ("Rg", 111);
   ("Rh", 45); ("Rn", 86); ("Ru", 44); ("S", 16); ("Sb", 51); ("Sc", 21); ("Se", 34);
   ("Sg", 106); ("Si", 14); ("Sm", 62); ("Sn", 50); ("Sr", 38); ("Ta", 73); ("Tb", 65);
   ("Tc", 43); ("Te", 52); ("Th", 90); ("Ti", 22); ("Tl", 81); ("Tm", 69); ("Ts", 117);
   ("U", 92); ("V", 23); ("W", 74); ("Xe", 54); ("Y", 39); ("Yb", 70); ("Zn", 30); ("Zr", 40)].
Fixpoint lookup (s : chars) (l : list (string * nat)) : option nat :=
  match l with
  | [] => None
  | (k, v) :: t => if text_eqb s (text k) then Some v else lookup s t
  end.
Definition atomic_number (s : chars) : nat := match lookup s atomic_numbers with Some n => n | None => 0%nat end.

(** [[a for i, a in enumerate(l) if i not in remove]] and [np.delete(l, remove, axis=0)] *)
Definition without {A} (remove : list nat) (l : list A) : list A :=
  map snd (filter (fun ia => negb (existsb (Nat.eqb (fst ia)) remove)) (enumerate l)).

(** The rows of a table given by its columns; as many as the shortest column has. *)
Definition shortest {A} (cols : list (list A)) : nat :=
  match cols with [] => 0%nat | c :: t => fold_left (fun n c => Nat.min n (length c)) t (length c) end.
Definition rows_of {A} (d : A) (cols : list (list A)) : list (list A) :=
  map (fun i => map (fun c => nth i c d) cols) (seq 0 (shortest cols)).

(** A dictionary built from pairs: the last entry with a key counts. *)
Fixpoint dict_get {A} (k : chars) (l : list (chars * A)) : option A :=
  match l with
  | [] => None
  | (k', v) :: t => match dict_get k t with
                    | Some v' => Some v'
                    | None => if text_eqb k k' then Some v else None
                    end
  end.

Section Blocks.
  Context {T : Type} `{Num T} (mod1 : T -> T) (tol : T).
  (** lengths and angles to vectors, utils.py:57-102 *)
  Context (cellpar_to_cell : list (fval (T := T)) -> outcome (list (vec T))).
  Notation fval := (fval (T := T)).
  Notation cifval := (cifval (T := T)).
  Notation op := (op (T := T)).

  Definition is_nan (v : fval) : bool := match v with NaN => true | _ => false end.
  (** [np.isnan(np.sum(a))] (finite numbers do not overflow) *)
  Definition sum_is_nan (l : list fval) : bool :=
    (existsb is_nan l ||
     (existsb (fun v => match v with Inf true => true | _ => false end) l &&
      existsb (fun v => match v with Inf false => true | _ => false end) l))%bool.
  (** [np.mod(v, 1)] *)
  Definition fmod1 (v : fval) : fval := match v with Fin x => Fin (mod1 x) | _ => NaN end.
  Definition fin_or_0 (v : fval) : T := match v with Fin x => x | _ => n0 end.

  Definition all_true (l : list bool) : bool := forallb (fun b => b) l.

  (** The end of all three converters: remove overlapping sites unless all sites are wanted,
      find the operations and expand. Lines 643-704, 849-894 and 1045-1075. *)
  Definition convert (disorder : disorder_option) (cell asym_unit : list (vec T)) (types : list nat)
    (symmetry : outcome (list op * list warning)) : outcome (crystal_set (T := T) * list warning) :=
    let keep := unique_sites tol asym_unit in
    let '(asym_unit, types, w1) :=
      if is_all_sites disorder then (asym_unit, types, [])
      else (select keep asym_unit, select keep types, if all_true keep then [] else [OverlappingSites]) in
    '(ops, w2) <- symmetry ;;
    '(cs, w3) <- finish mod1 tol (negb (is_all_sites disorder)) cell asym_unit types ops ;;
    Done (cs, w1 ++ w2 ++ w3).

  (** ** gemmi, lines 505-706 *)

  (** The loop of the coordinates; values row by row. *)
  Record loop := { lp_tags : list chars; lp_values : list chars }.
  Definition width (l : loop) : nat := length (lp_tags l).
  (** [Loop.length()] *)
  Definition loop_length (l : loop) : nat := (length (lp_values l) / width l)%nat.

  Record gemmi_block := {
    gb_find_value : chars -> option chars;   (* Block.find_value *)
    gb_fract : option loop;                  (* block.find(fract tags).loop *)
    gb_cartn : option loop;
    gb_column : chars -> list chars          (* [v.str(0) for v in block.find([tag])] *)
  }.
  (** the gemmi library *)
  Record gemmi_lib := {
    gl_as_string : chars -> chars;
    gl_as_int : chars -> outcome Z;
    gl_group_by_name : chars -> option (list op);       (* None: ValueError *)
    gl_group_by_number : Z -> outcome (list op)
  }.

  (** Lines 566-569: the columns of the loop, by tag. *)
  Definition loop_dict (l : loop) : list (chars * list chars) :=
    combine (lp_tags l)
      (map (fun j => map snd (filter (fun iv => (fst iv mod width l =? j)%nat) (enumerate (lp_values l))))
           (seq 0 (width l))).

  (** Lines 654-685. *)
  Fixpoint first_nonempty (f : chars -> list chars) (tags : list chars) : option (list chars) :=
    match tags with
    | [] => None
    | t :: ts => match f t with [] => first_nonempty f ts | l => Some l end
    end.
  Fixpoint first_some {A B} (f : A -> option B) (l : list A) : option B :=
    match l with
    | [] => None
    | a :: t => match f a with Some b => Some b | None => first_some f t end
    end.
  Definition gemmi_symmetry (lib : gemmi_lib) (b : gemmi_block) : outcome (list op * list warning) :=
    match first_nonempty (gb_column b) symop_tags with
    | Some sitesym => ops <- parse_sitesyms sitesym ;; Done (ops, [])
    | None =>
        match first_some (fun t => first_some (gl_group_by_name lib) (gb_column b t)) spacegroup_name_tags with
        | Some ops => Done (ops, [])
        | None =>
            '(num, w) <- match first_some (gb_find_value b) spacegroup_number_tags with
                         | Some s => n <- gl_as_int lib s ;; Done (n, [])
                         | None => Done (1%Z, [NoSymmetry])
                         end ;;
            ops <- gl_group_by_number lib num ;; Done (ops, w)
        end
    end.

  Definition get_key {A} (k : chars) (l : list (chars * A)) : outcome A :=
    match dict_get k l with Some v => Done v | None => Raise KeyError end.

  (** Labels, lines 580-586. *)
  Definition gemmi_labels (lib : gemmi_lib) (l : loop) : list chars :=
    match dict_get label_tag (loop_dict l) with
    | Some c => map (gl_as_string lib) c
    | None => repeat [] (loop_length l)
    end.
  (** Types, lines 588-612. *)
  Definition gemmi_types (lib : gemmi_lib) (l : loop) : list nat :=
    map atomic_number
      match dict_get type_symbol_tag (loop_dict l) with
      | Some c => map (fun s => find_symbol (gl_as_string lib s)) c
      | None => atomic_symbols_from_labels (gemmi_labels lib l)
      end.
  (** Occupancies, lines 614-621. *)
  Definition gemmi_occupancies (l : loop) : outcome (list fval) :=
    match dict_get occupancy_tag (loop_dict l) with
    | Some c => occs <- omap (fun s => str2float (Str s)) c ;;
                Done (map (fun v => if is_nan v then Fin n1 else v) occs)
    | None => Done (repeat (Fin n1) (loop_length l))
    end.

  Definition gemmi_convert (lib : gemmi_lib) (b : gemmi_block) (remove_hydrogens : bool) (disorder : disorder_option)
    : outcome (crystal_set (T := T) * list warning) :=
    (* lines 545-552; the values are read first, all of them *)
    cellpar <- match omap (fun t => match gb_find_value b t with Some s => Done s | None => Raise ParseError end) cellpar_tags with
               | Done l => omap (fun s => str2float (Str s)) l
               | _ => Raise ParseError
               end ;;
    if sum_is_nan cellpar then Raise ParseError else
    cell <- cellpar_to_cell cellpar ;;
    (* lines 554-574 *)
    match gb_fract b with
    | None => Raise ParseError       (* with or without Cartesian coordinates *)
    | Some l =>
        xyz_str <- omap (fun t => get_key t (loop_dict l)) fract_tags ;;
        xyz <- omap (omap (fun s => str2float (Str s))) xyz_str ;;
        if negb (forallb (fun c => (length c =? shortest xyz)%nat) xyz) then Raise ValueError else
        let asym_unit := map (map fmod1) (rows_of NaN xyz) in
        let labels := gemmi_labels lib l in
        let types := gemmi_types lib l in
        occupancies <- gemmi_occupancies l ;;
        (* lines 623-638 *)
        let missing := map fst (filter (fun ip => existsb is_nan (snd ip)) (enumerate asym_unit)) in
        let disordered := map (fun lo => has_disorder (fst lo) (Number (snd lo))) (combine labels occupancies) in
        remove <- match disorder with
                  | Skip => if existsb (fun d => d) disordered then Raise ParseError else Done missing
                  | OrderedSites => Done (missing ++ map fst (filter snd (enumerate disordered)))
                  | AllSites => Done missing
                  end ;;
        let remove := if remove_hydrogens
                      then remove ++ map fst (filter (fun it => (snd it =? 1)%nat) (enumerate types)) else remove in
        let asym_unit := without remove asym_unit in
        let types := without remove types in
        match asym_unit with
        | [] => Raise ParseError
        | _ => convert disorder cell (map (map fin_or_0) asym_unit) types (gemmi_symmetry lib b)
        end
    end.

  (** ** ase, lines 709-894 *)

  (** A value is what [block.get] returns; [Nothing] is None. *)
  Record ase_block := { ab_get : chars -> cifval }.
  (** [ase.spacegroup.Spacegroup(label_or_num).get_op()] *)
  Context (ase_spacegroup : cifval -> outcome (list op)).

  (** [str2float(str(v))]: the text of a number converts back to it, a list's text does not
      start with a number. *)
  Definition str2float_str (v : cifval) : outcome fval :=
    match v with
    | Str s => str_to_float s
    | Number x => Done x
    | _ => Raise ValueError
    end.
  (** [for x in v] *)
  Definition iterate (v : cifval) : outcome (list cifval) :=
    match v with
    | Items l => Done l
    | Str s => Done (map (fun c => Str [c]) s)
    | _ => Raise TypeError
    end.
  (** A symbol in _atomic_symbols_from_labels which need not be a string. *)
  Definition symbol_of (v : cifval) : outcome chars :=
    match v with
    | Str s => Done (nth 0 (atomic_symbols_from_labels [s]) [])
    | Number (Fin x) => if (nleb x n0 && nleb n0 x)%bool then Done [] else Raise TypeError
    | Items [] | Nothing => Done []
    | _ => Raise TypeError
    end.
  (** _has_disorder for a label which need not be a string. *)
  Definition has_disorder_value (label occupancy : cifval) : outcome bool :=
    match label with
    | Str s => Done (has_disorder s occupancy)
    | _ => if below_one (occupancy_value occupancy) then Done true else Raise AttributeError
    end.

  (** Lines 769-782 and 973-988: types of the [n] sites. *)
  Definition block_types (get : chars -> cifval) (n : nat) : outcome (list nat) :=
    match get type_symbol_tag with
    | Nothing => Done (repeat (atomic_number []) n)
    | v => l <- iterate v ;; syms <- omap symbol_of l ;; Done (map atomic_number syms)
    end.
  (** Lines 764-767, 968-971 and 1000-1002: labels of the sites. *)
  Definition block_labels (get : chars -> cifval) (n : nat) : outcome (list cifval) :=
    match get label_tag with
    | Nothing => Done (repeat (Str []) n)
    | v => iterate v
    end.

  (** Lines 814-842 and 1020-1040: hydrogens and disordered sites. *)
  Definition sites_to_remove (remove_hydrogens : bool) (disorder : disorder_option) (types : list nat)
    (disordered : list bool) : outcome (list nat) :=
    let hydrogens := if remove_hydrogens then map fst (filter (fun it => (snd it =? 1)%nat) (enumerate types)) else [] in
    ofold (fun (remove : list nat) (id : nat * bool) =>
             let '(i, dis) := id in
             if existsb (Nat.eqb i) remove then Done remove
             else if dis then
               match disorder with
               | Skip => Raise ParseError
               | OrderedSites => Done (remove ++ [i])
               | AllSites => Done remove
               end
             else Done remove) (enumerate disordered) hydrogens.

  (** Coordinates as numbers. An infinite or NaN coordinate stays in the array in these two
      converters; what happens with it is not modelled, which OutOfFuel stands for. *)
  Definition finite_coords (rows : list (list fval)) : outcome (list (vec T)) :=
    omap (omap (fun v => match v with Fin x => Done x | _ => OutOfFuel end)) rows.

  (** Lines 814-894 and 1020-1075. No site is found invalid in lines 799-812 and 1006-1018,
      since every coordinate is a float. *)
  Definition convert_sites (remove_hydrogens : bool) (disorder : disorder_option) (cell : list (vec T))
    (rows : list (list fval)) (types : list nat) (disordered : list bool) (symmetry : outcome (list op * list warning))
    : outcome (crystal_set (T := T) * list warning) :=
    remove <- sites_to_remove remove_hydrogens disorder types disordered ;;
    let rows := without remove rows in
    let types := without remove types in
    match rows with
    | [] => Raise ParseError
    | _ => coords <- finite_coords rows ;;
           convert disorder cell (map (map mod1) coords) types symmetry
    end.

  (** Block._get_any: the first tag present *)
  Fixpoint get_any (get : chars -> cifval) (tags : list chars) : cifval :=
    match tags with
    | [] => Nothing
    | t :: ts => match get t with Nothing => get_any get ts | v => v end
    end.
  Definition lower_tags (tags : list chars) : list chars := map (map lower_char) tags.

  (** The argument of _parse_sitesyms: [sym.split] needs strings. *)
  Definition sitesyms_of (v : cifval) : outcome (list op) :=
    match v with
    | Str s => parse_sitesyms [s]
    | Items l => syms <- omap (fun v => match v with Str s => parse_sitesym s | _ => Raise AttributeError end) l ;; Done syms
    | _ => Raise TypeError
    end.

  (** Lines 860-880. *)
  Definition ase_symmetry (b : ase_block) : outcome (list op * list warning) :=
    match get_any (ab_get b) symop_tags with
    | Nothing =>
        let '(label_or_num, w) :=
          match get_any (ab_get b) (lower_tags spacegroup_name_tags) with
          | Nothing =>
              match get_any (ab_get b) (lower_tags spacegroup_number_tags) with
              | Nothing => (Number (Fin n1), [NoSymmetry])
              | v => (v, [])
              end
          | v => (v, [])
          end in
        ops <- ase_spacegroup label_or_num ;; Done (ops, w)
    | v => ops <- sitesyms_of v ;; Done (ops, [])
    end.

  Definition ase_convert (b : ase_block) (remove_hydrogens : bool) (disorder : disorder_option)
    : outcome (crystal_set (T := T) * list warning) :=
    (* lines 744-747; None in cellpar never holds *)
    cellpar <- omap (fun t => str2float_str (ab_get b t)) cellpar_tags ;;
    cell <- cellpar_to_cell cellpar ;;
    (* lines 749-762; None in asym_unit never holds *)
    cols <- omap (fun t => l <- iterate (ab_get b t) ;; omap str2float_str l) fract_tags ;;
    let rows := rows_of NaN cols in
    types <- block_types (ab_get b) (length rows) ;;
    (* lines 784-791 *)
    disordered <-
      (if is_all_sites disorder then Done [] else
       occs <- match ab_get b occupancy_tag with
               | Nothing => Done (repeat (Number (Fin n1)) (length rows))
               | v => iterate v
               end ;;
       labels <- block_labels (ab_get b) (length rows) ;;
       omap (fun lo => has_disorder_value (fst lo) (snd lo)) (combine labels occs)) ;;
    convert_sites remove_hydrogens disorder cell rows types disordered (ase_symmetry b).

  (** ** pymatgen, lines 897-1075 *)
  Record pymatgen_block := { pb_get : chars -> cifval }.
  (** tables of pymatgen *)
  Record pymatgen_lib := {
    pl_space_groups : chars -> option chars;          (* pymatgen.io.cif.space_groups *)
    pl_group : chars -> option (list op);             (* SpaceGroup(spg), None: ValueError *)
    pl_cod : chars -> option (list chars);            (* first entry of the COD data with this symbol *)
    pl_group_by_number : Z -> option (list op);       (* None: ValueError *)
    pl_int : T -> Z                                   (* int(x) *)
  }.

  (** [not v] *)
  Definition falsy (v : cifval) : bool :=
    match v with
    | Nothing | Str [] | Items [] => true
    | Number (Fin x) => (nleb x n0 && nleb n0 x)%bool
    | _ => false
    end.

  (** Lines 1712-1731, the loop over names of space groups. *)
  Fixpoint named_group (lib : pymatgen_lib) (get : chars -> cifval) (tags : list chars) : outcome (list op) :=
    match tags with
    | [] => Done []
    | t :: ts =>
        if falsy (get t) then named_group lib get ts
        else match get t with
             | Str s =>
                 let sg := filter (fun c => negb (is_space c || is_char 95 c)) s in
                 match pl_space_groups lib sg with
                 | None => named_group lib get ts
                 | Some spg =>
                     match pl_group lib spg with
                     | Some ops => Done ops
                     | None =>
                         match option_map parse_sitesyms (pl_cod lib sg) with
                         | Some (Done ops) => Done ops
                         | _ => named_group lib get ts
                         end
                     end
                 end
             | _ => Raise TypeError
             end
    end.
  (** Lines 1734-1744, the loop over numbers of space groups. [except ValueError] catches
      ParseError as well; int of an infinity raises OverflowError, which is not modelled. *)
  Fixpoint numbered_group (lib : pymatgen_lib) (get : chars -> cifval) (tags : list chars) : outcome (list op) :=
    match tags with
    | [] => Done []
    | t :: ts =>
        if falsy (get t) then numbered_group lib get ts
        else match str2float (get t) with
             | Done (Fin x) =>
                 match pl_group_by_number lib (pl_int lib x) with
                 | Some ops => Done ops
                 | None => numbered_group lib get ts
                 end
             | Done NaN => numbered_group lib get ts
             | Done (Inf _) => OutOfFuel
             | Raise ValueError | Raise ParseError => numbered_group lib get ts
             | Raise e => Raise e
             | OutOfBounds => OutOfBounds
             | OutOfFuel => OutOfFuel
             end
    end.
  (** _get_syms_pymatgen, lines 1690-1754 *)
  Fixpoint first_truthy (get : chars -> cifval) (tags : list chars) : cifval :=
    match tags with
    | [] => Nothing
    | t :: ts => if falsy (get t) then first_truthy get ts else get t
    end.
  Definition pymatgen_symmetry (lib : pymatgen_lib) (b : pymatgen_block) : outcome (list op * list warning) :=
    match first_truthy (pb_get b) symop_tags with
    | Nothing =>
        ops <- named_group lib (pb_get b) spacegroup_name_tags ;;
        ops <- match ops with
               | [] => numbered_group lib (pb_get b) spacegroup_number_tags
               | _ => Done ops
               end ;;
        match ops with
        | [] => ops <- parse_sitesyms [text "x,y,z"] ;; Done (ops, [NoSymmetry])
        | _ => Done (ops, [])
        end
    | v => ops <- sitesyms_of v ;; Done (ops, [])
    end.

  (** [except ValueError: raise ParseError] *)
  Definition reraise {A} (x : outcome A) : outcome A :=
    match x with Raise ValueError => Raise ParseError | _ => x end.

  Definition missing_value (v : cifval) : bool :=
    match v with
    | Nothing => true
    | Str s => (text_eqb s (text "?") || text_eqb s (text "."))%bool
    | _ => false
    end.
  Definition is_nothing (v : cifval) : bool := match v with Nothing => true | _ => false end.

  Definition pymatgen_convert (lib : pymatgen_lib) (b : pymatgen_block) (remove_hydrogens : bool) (disorder : disorder_option)
    : outcome (crystal_set (T := T) * list warning) :=
    (* lines 941-951 *)
    if existsb (fun t => missing_value (pb_get b t)) cellpar_tags then Raise ParseError else
    cellpar <- reraise (omap (fun t => str2float (pb_get b t)) cellpar_tags) ;;
    cell <- cellpar_to_cell cellpar ;;
    (* lines 953-969 *)
    if existsb (fun t => is_nothing (pb_get b t)) fract_tags then Raise ParseError else
    cols <- omap (fun t => iterate (pb_get b t)) fract_tags ;;
    rows <- reraise (omap (omap str2float) (rows_of Nothing cols)) ;;
    types <- block_types (pb_get b) (length rows) ;;
    (* lines 990-1004 *)
    disordered <-
      (if is_all_sites disorder then Done [] else
       occs <- match pb_get b occupancy_tag with
               | Nothing => Done (repeat (Fin n1) (length rows))
               | v => l <- iterate v ;; omap str2float l
               end ;;
       labels <- block_labels (pb_get b) (length rows) ;;
       omap (fun lo => has_disorder_value (fst lo) (Number (snd lo))) (combine labels occs)) ;;
    convert_sites remove_hydrogens disorder cell rows types disordered (pymatgen_symmetry lib b).
End Blocks.
