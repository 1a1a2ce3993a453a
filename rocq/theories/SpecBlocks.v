(** Specification of the atoms described by a CIF block. *)
From Coq Require Import List ZArith Reals Arith Bool Ascii String Sorted.
From Verif Require Import Num SpecGeom SpecText SpecSites TextModel BlocksModel.
Import ListNotations.
Open Scope string_scope.
Open Scope R_scope.
Open Scope list_scope.
Notation length := List.length.

(** A number as written in CIFs: sign, digits, and an uncertainty in brackets. *)
Definition denotes (s : list ascii) (x : R) : Prop :=
  exists sg n, numeral_ok n /\ x = signed (negative_sign sg) (numeral_value n) /\
    (s = write_sign sg ++ write_numeral n \/
     exists b, ~ In (ascii_of_nat 10) b /\ s = (write_sign sg ++ write_numeral n) ++ "("%char :: b ++ [")"%char]).

(** A number, or a mark for a missing value taken for zero. *)
Definition denotes_or_zero (s : list ascii) (x : R) : Prop :=
  denotes s x \/ ((s = ["?"%char] \/ s = ["."%char]) /\ x = 0).

(** The first one or two letters of a text, the first as a capital. *)
Definition symbol_in (s sym : list ascii) : Prop :=
  (Forall (fun c => ~ letter c) s /\ sym = []) \/
  exists a c t C, s = a ++ c :: t /\ Forall (fun c => ~ letter c) a /\ letter c /\ capital C /\ same_letter C c /\
    ((exists d u D, t = d :: u /\ letter d /\ lower_case D /\ same_letter D d /\ sym = [C; D]) \/
     (match t with d :: _ => ~ letter d | [] => True end /\ sym = [C])).


(** The elements in the order of their numbers. *)
Definition elements : list string :=
  ["H"; "He"; "Li"; "Be"; "B"; "C"; "N"; "O"; "F"; "Ne"; "Na"; "Mg"; "Al"; "Si"; "P"; "S"; "Cl"; "Ar";
   "K"; "Ca"; "Sc"; "Ti"; "V"; "Cr"; "Mn"; "Fe"; "Co"; "Ni"; "Cu"; "Zn"; "Ga"; "Ge"; "As"; "Se"; "Br"; "Kr";
   "Rb"; "Sr"; "Y"; "Zr"; "Nb"; "Mo"; "Tc"; "Ru"; "Rh"; "Pd"; "Ag"; "Cd"; "In"; "Sn"; "Sb"; "Te"; "I"; "Xe";
   "Cs"; "Ba"; "La"; "Ce"; "Pr"; "Nd"; "Pm"; "Sm"; "Eu"; "Gd"; "Tb"; "Dy"; "Ho"; "Er"; "Tm"; "Yb"; "Lu";
   "Hf"; "Ta"; "W"; "Re"; "Os"; "Ir"; "Pt"; "Au"; "Hg"; "Tl"; "Pb"; "Bi"; "Po"; "At"; "Rn";
   "Fr"; "Ra"; "Ac"; "Th"; "Pa"; "U"; "Np"; "Pu"; "Am"; "Cm"; "Bk"; "Cf"; "Es"; "Fm"; "Md"; "No"; "Lr";
   "Rf"; "Db"; "Sg"; "Bh"; "Hs"; "Mt"; "Ds"; "Rg"; "Cn"; "Nh"; "Fl"; "Mc"; "Lv"; "Ts"; "Og"].

(** The number of an element, 1 for deuterium, 0 for other symbols. *)
Definition type_of (sym : list ascii) (n : nat) : Prop :=
  (exists i k, nth_error elements i = Some k /\ list_ascii_of_string k = sym /\ n = S i) \/
  (sym = ["D"%char] /\ n = 1%nat) \/
  (n = 0%nat /\ sym <> ["D"%char] /\ forall k, In k elements -> list_ascii_of_string k <> sym).

Record atom := { at_coords : list R; at_type : nat; at_disordered : bool }.

(** The atom with this label, text of the element, coordinates and occupancy. *)
Record is_atom (label symbol : list ascii) (coords : list R) (occupancy : R) (a : atom) : Prop := {
  ia_coords : at_coords a = coords;
  ia_three : length coords = 3%nat;
  ia_type : exists sym, symbol_in symbol sym /\ type_of sym (at_type a);
  ia_disorder : at_disordered a = true <-> occupancy < 1 \/ exists s, label = s ++ ["?"%char]
}.

(** Atoms wanted with the options. *)
Definition wanted (remove_hydrogens : bool) (disorder : disorder_option) (a : atom) : bool :=
  (negb (remove_hydrogens && (at_type a =? 1)%nat) &&
   negb (match disorder with OrderedSites => at_disordered a | _ => false end))%bool.

(** The tags of the cell parameters a, b, c, alpha, beta, gamma, and of symmetry operations. *)
Definition cell_tags : list (list ascii) := map list_ascii_of_string
  ["_cell_length_a"; "_cell_length_b"; "_cell_length_c"; "_cell_angle_alpha"; "_cell_angle_beta"; "_cell_angle_gamma"].
Definition operation_tags : list (list ascii) := map list_ascii_of_string
  ["_space_group_symop_operation_xyz"; "_space_group_symop.operation_xyz"; "_symmetry_equiv_pos_as_xyz"].
(** A text such as x+1/2,-y,z of an operation. *)
Definition spells_operation (s : list ascii) (g : operation) : Prop :=
  exists s1 s2 s3 t1 t2 t3, s = s1 ++ ","%char :: s2 ++ ","%char :: s3 /\ spells s1 t1 /\ spells s2 t2 /\ spells s3 t3 /\
    g = (map (fun ts => map (coefficient ts) (seq 0 3)) [t1; t2; t3], map translation [t1; t2; t3]).
(** The value under the first of the tags which has one. *)
Definition first_given {A} (get : list ascii -> A) (absent : A -> Prop) (tags : list (list ascii)) (v : A) : Prop :=
  exists before t after, tags = before ++ t :: after /\ Forall (fun u => absent (get u)) before /\ get t = v.

(** ** How the libraries present atoms *)

(** A row of the loop; [num] says which number a text stands for. *)
Definition gemmi_atom (num : list ascii -> R -> Prop) (lib : gemmi_lib (T := R)) (l : loop) (row : list (list ascii)) (a : atom) : Prop :=
  exists x y z label x' y' z' occ symbol,
    (exists i j k, nth_error (lp_tags l) i = Some (text "_atom_site_fract_x") /\ nth i row [] = x /\
       nth_error (lp_tags l) j = Some (text "_atom_site_fract_y") /\ nth j row [] = y /\
       nth_error (lp_tags l) k = Some (text "_atom_site_fract_z") /\ nth k row [] = z) /\
    num x x' /\ num y y' /\ num z z' /\
    ((exists j, nth_error (lp_tags l) j = Some (text "_atom_site_label") /\ gl_as_string lib (nth j row []) = label) \/
     (~ In (text "_atom_site_label") (lp_tags l) /\ label = [])) /\
    ((exists j, nth_error (lp_tags l) j = Some (text "_atom_site_occupancy") /\ num (nth j row []) occ) \/
     (~ In (text "_atom_site_occupancy") (lp_tags l) /\ occ = 1)) /\
    ((exists j, nth_error (lp_tags l) j = Some (text "_atom_site_type_symbol") /\ gl_as_string lib (nth j row []) = symbol) \/
     (~ In (text "_atom_site_type_symbol") (lp_tags l) /\ symbol = label)) /\
    is_atom label symbol [x'; y'; z'] occ a.

Definition gemmi_atoms_with (num : list ascii -> R -> Prop) (lib : gemmi_lib (T := R)) (b : gemmi_block) (atoms : list atom) : Prop :=
  exists l rows, gb_fract b = Some l /\ NoDup (lp_tags l) /\ lp_values l = List.concat rows /\
    Forall (fun t => In t (lp_tags l)) (map text ["_atom_site_fract_x"; "_atom_site_fract_y"; "_atom_site_fract_z"]) /\
    Forall (fun r => length r = length (lp_tags l)) rows /\ Forall2 (gemmi_atom num lib l) rows atoms.
Definition gemmi_atoms := gemmi_atoms_with denotes.

(** A column given as a list; [P] relates its entries to the atoms' data. *)
Definition listed {A} (v : cifval (T := R)) (P : cifval (T := R) -> A -> Prop) (data : list A) : Prop :=
  exists l, v = Items l /\ Forall2 P l data.

Definition is_text (v : cifval (T := R)) (s : list ascii) : Prop := v = Str s.
(** ase turns numerals into numbers; pymatgen keeps the text. *)
Definition ase_number (v : cifval (T := R)) (x : R) : Prop := v = Number (Fin x) \/ exists s, v = Str s /\ denotes s x.
(** an occupancy ase left as a text must not have brackets *)
Definition ase_occupancy (v : cifval (T := R)) (x : R) : Prop :=
  v = Number (Fin x) \/ exists sg n, v = Str (write_sign sg ++ write_numeral n) /\ numeral_ok n /\
    x = signed (negative_sign sg) (numeral_value n).
Definition pymatgen_number (v : cifval (T := R)) (x : R) : Prop := exists s, v = Str s /\ denotes s x.

(** Columns of a block: [num] and [occ_num] say how numbers are presented. *)
Definition block_atoms (num occ_num : cifval (T := R) -> R -> Prop) (get : list ascii -> cifval (T := R))
  (atoms : list atom) : Prop :=
  exists xs ys zs labels occs symbols,
    listed (get (text "_atom_site_fract_x")) num xs /\
    listed (get (text "_atom_site_fract_y")) num ys /\
    listed (get (text "_atom_site_fract_z")) num zs /\
    (listed (get (text "_atom_site_label")) is_text labels \/
     (get (text "_atom_site_label") = Nothing /\ labels = repeat [] (length atoms))) /\
    (listed (get (text "_atom_site_occupancy")) occ_num occs \/
     (get (text "_atom_site_occupancy") = Nothing /\ occs = repeat 1 (length atoms))) /\
    (listed (get (text "_atom_site_type_symbol")) is_text symbols \/
     (get (text "_atom_site_type_symbol") = Nothing /\ symbols = repeat [] (length atoms))) /\
    length xs = length atoms /\ length ys = length atoms /\ length zs = length atoms /\
    length labels = length atoms /\ length occs = length atoms /\ length symbols = length atoms /\
    forall i, (i < length atoms)%nat ->
      is_atom (nth i labels []) (nth i symbols []) [nth i xs 0; nth i ys 0; nth i zs 0] (nth i occs 0)
        (nth i atoms {| at_coords := []; at_type := 0; at_disordered := false |}).
Definition ase_atoms (b : ase_block (T := R)) : list atom -> Prop := block_atoms ase_number ase_occupancy (ab_get b).
Definition pymatgen_atoms (b : pymatgen_block (T := R)) : list atom -> Prop :=
  block_atoms pymatgen_number pymatgen_number (pb_get b).

(** ** Space groups *)

(** The tags of names and of numbers of space groups, newer ones first. *)
Definition group_name_tags : list (list ascii) := map list_ascii_of_string
  ["_space_group_name_H-M_alt"; "_symmetry_space_group_name_H-M"].
Definition group_number_tags : list (list ascii) := map list_ascii_of_string
  ["_space_group_IT_number"; "_symmetry_Int_Tables_number"].
(** The same tags in small letters, as ase keeps them. *)
Definition small_name_tags : list (list ascii) := map list_ascii_of_string
  ["_space_group_name_h-m_alt"; "_symmetry_space_group_name_h-m"].
Definition small_number_tags : list (list ascii) := map list_ascii_of_string
  ["_space_group_it_number"; "_symmetry_int_tables_number"].

(** [s'] is [s] without its blanks and underscores. *)
Definition blanks : list nat := [9; 10; 11; 12; 13; 28; 29; 30; 31; 32]%nat.
Inductive squeezed : list ascii -> list ascii -> Prop :=
| squeezed_nil : squeezed [] []
| squeezed_drop : forall c s s', In (nat_of_ascii c) blanks \/ c = "_"%char -> squeezed s s' -> squeezed (c :: s) s'
| squeezed_keep : forall c s s', ~ In (nat_of_ascii c) blanks -> c <> "_"%char -> squeezed s s' -> squeezed (c :: s) (c :: s').

(** The first element with [good], those before having [bad]. *)
Definition first_with {A} (good bad : A -> Prop) (l : list A) : Prop :=
  exists before a after, l = before ++ a :: after /\ Forall bad before /\ good a.

(** What the tables of pymatgen say about a name: it stands for a group whose operations are [ops],
    by the group itself or by the texts in the COD table; or it is not in the tables. *)
Definition pymatgen_names (lib : pymatgen_lib (T := R)) (s : list ascii) (ops : list operation) : Prop :=
  exists s' spg, squeezed s s' /\ pl_space_groups lib s' = Some spg /\
    (pl_group lib spg = Some ops \/
     pl_group lib spg = None /\ exists texts, pl_cod lib s' = Some texts /\ Forall2 spells_operation texts ops).
Definition pymatgen_unknown (lib : pymatgen_lib (T := R)) (s : list ascii) : Prop :=
  exists s', squeezed s s' /\
    (pl_space_groups lib s' = None \/
     exists spg, pl_space_groups lib s' = Some spg /\ pl_group lib spg = None /\ pl_cod lib s' = None).
(** Nothing under the tag, or the empty text. *)
Definition blank (v : cifval (T := R)) : Prop := v = Nothing \/ v = Str [].
Definition name_with (P : list ascii -> Prop) (v : cifval (T := R)) : Prop := exists s, v = Str s /\ s <> [] /\ P s.
(** A whole number of a space group as pymatgen presents it. *)
Definition pymatgen_whole (lib : pymatgen_lib (T := R)) (v : cifval (T := R)) (n : Z) : Prop :=
  exists s, v = Str s /\ denotes_or_zero s (IZR n) /\ pl_int lib (IZR n) = n.
(** The operation x,y,z. *)
Definition do_nothing : operation := ([[1; 0; 0]; [0; 1; 0]; [0; 0; 1]], [0; 0; 0]).
