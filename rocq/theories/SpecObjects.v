(** Specification for the converters of library objects. *)
From Coq Require Import List ZArith Reals Arith Bool Ascii String Sorted.
From Verif Require Import Num SpecGeom SpecText SpecSites TextModel BlocksModel SpecBlocks ObjectsModel.
Import ListNotations.
Open Scope string_scope.
Open Scope R_scope.
Open Scope list_scope.
Notation length := List.length.

(** [l'] are the elements of [l] with the property, in order. *)
Inductive filtered {A} (P : A -> Prop) : list A -> list A -> Prop :=
| filtered_nil : filtered P [] []
| filtered_keep : forall a l l', P a -> filtered P l l' -> filtered P (a :: l) (a :: l')
| filtered_drop : forall a l l', ~ P a -> filtered P l l' -> filtered P (a :: l) l'.

(** ** Atoms of csd-python-api *)
Notation catom := (ccdc_atom (T := R)).

Definition element_symbol (s : list ascii) : Prop := s = ["D"%char] \/ In s (map list_ascii_of_string elements).
Definition is_hydrogen (a : catom) : Prop := ca_symbol a = ["H"%char] \/ ca_symbol a = ["D"%char].
(** A number or its text; 1 if not known. *)
Definition occupancy_of (v : cifval (T := R)) (x : R) : Prop := ase_occupancy v x \/ (v = Nothing /\ x = 1).
Definition is_disordered (a : catom) : Prop :=
  (exists x, occupancy_of (ca_occupancy a) x /\ x < 1) \/ exists s, ca_label a = s ++ ["?"%char].
Definition plain_atom (a : catom) : Prop := element_symbol (ca_symbol a) /\ exists x, occupancy_of (ca_occupancy a) x.

(** Atoms wanted with the options, and of these the ones with a position. *)
Definition asked (h : bool) (d : disorder_option) (a : catom) : Prop :=
  ~ (h = true /\ is_hydrogen a) /\ ~ (d = OrderedSites /\ is_disordered a).
Definition stays (h : bool) (d : disorder_option) (a : catom) : Prop := asked h d a /\ ca_coords a <> None.

(** Mass of an atom, with its occupancy; atoms without a weight count as 0. *)
Definition mass (a : catom) (m : R) : Prop :=
  exists o, occupancy_of (ca_occupancy a) o /\
    ((exists w, ca_weight a = Number (Fin w) /\ m = w * o) \/ (ca_weight a = Str [] /\ m = 0)).
Definition total_mass (l : list catom) (m : R) : Prop := exists ms, Forall2 mass l ms /\ m = rsum ms.
(** The first of the components with the greatest mass. *)
Definition heaviest (components : list (list catom)) (c : list catom) : Prop :=
  exists ms i, Forall2 total_mass components ms /\ nth_error components i = Some c /\
    (forall j, (j < length ms)%nat -> nth j ms 0 <= nth i ms 0) /\ (forall j, (j < i)%nat -> nth j ms 0 < nth i ms 0).

(** The molecule used: the heaviest component if there are several and this is asked for. *)
Definition molecule_used (c : ccdc_crystal (T := R)) (heavy : bool) (atoms molecule : list catom) : Prop :=
  (heavy = true /\ (1 < length (cc_components c atoms))%nat /\ heaviest (cc_components c atoms) molecule) \/
  ((heavy = false \/ (length (cc_components c atoms) <= 1)%nat) /\ molecule = atoms).

Definition gives_atom (a : catom) (x : atom) : Prop :=
  ca_coords a = Some (at_coords x) /\ length (at_coords x) = 3%nat /\ ca_number a = at_type x.
Definition unit_matrix : list (list R) := [[1; 0; 0]; [0; 1; 0]; [0; 0; 1]].
(** The operations listed; without any, the identity. *)
Definition symmetry_of (texts : list (list ascii)) (ops : list operation) : Prop :=
  (texts = [] /\ ops = [(unit_matrix, [0; 0; 0])]) \/ (texts <> [] /\ Forall2 spells_operation texts ops).

(** Average of positions, with and without the masses of the atoms. *)
Definition geometric_centre (comp : list catom) (p : list R) : Prop :=
  exists cs, Forall2 (fun a c => ca_coords a = Some c /\ length c = 3%nat) comp cs /\ comp <> [] /\ length p = 3%nat /\
    forall j, (j < 3)%nat -> INR (length comp) * nth j p 0 = rsum (map (fun c => nth j c 0) cs).
Definition mass_centre (comp : list catom) (p : list R) : Prop :=
  exists cs ms, Forall2 (fun a c => ca_coords a = Some c /\ length c = 3%nat) comp cs /\ Forall2 mass comp ms /\ length p = 3%nat /\
    forall j, (j < 3)%nat -> rsum ms * nth j p 0 = rsum (map (fun cm => snd cm * nth j (fst cm) 0) (combine cs ms)).

(** ** Atoms of ase *)

(** Atomic numbers and positions, without hydrogen if asked. *)
Definition ase_left (h : bool) (a : ase_object (T := R)) (l : list (nat * list R)) : Prop :=
  length (ao_numbers a) = length (ao_scaled a) /\
  filtered (fun nt => ~ (h = true /\ fst nt = 1%nat)) (combine (ao_numbers a) (ao_scaled a)) l.
Definition ase_with (a : ase_object (T := R)) (l : list (nat * list R)) : ase_object (T := R) :=
  {| ao_numbers := map fst l; ao_scaled := map snd l; ao_cell := ao_cell a; ao_group := ao_group a |}.

(** The operations map the positions to each other, up to lattice translations. *)
Definition symmetric (ops : list operation) (frac : list (list R)) : Prop :=
  forall q g, In q frac -> In g ops -> exists q', In q' frac /\ same_mod1 (affine g q) q'.
Definition distinct (frac : list (list R)) : Prop :=
  forall i j, (i < j < length frac)%nat -> ~ same_mod1 (nth i frac []) (nth j frac []).
(** Some of the positions, of which the operations give all. *)
Definition basis (ops : list operation) (frac asym : list (list R)) : Prop :=
  (forall p, In p asym -> exists q, In q frac /\ same_mod1 p q) /\
  (forall q, In q frac -> exists p g, In p asym /\ In g ops /\ same_mod1 (affine g p) q).
(** One for each orbit. *)
Definition reduced (ops : list operation) (asym : list (list R)) : Prop :=
  forall i j g, (i < j < length asym)%nat -> In g ops -> ~ same_mod1 (affine g (nth i asym [])) (nth j asym []).

(** ** Structures of pymatgen *)
Notation psite := (pm_site (T := R)).
Definition hydrogen_name (s : list ascii) : Prop := s = ["H"%char] \/ s = ["D"%char].
Definition one_element (s : psite) (n : nat) : Prop := exists sym, pm_species s = [(sym, 1)] /\ type_of sym n.
(** The site without hydrogen. *)
Definition without_hydrogen (s s' : psite) : Prop :=
  pm_coords s' = pm_coords s /\ filtered (fun so => ~ hydrogen_name (fst so)) (pm_species s) (pm_species s').
(** Sites left without hydrogen, then without the sites that are not fully occupied. *)
Inductive dehydrogenated : list psite -> list psite -> Prop :=
| deh_nil : dehydrogenated [] []
| deh_keep : forall s s' l l', without_hydrogen s s' -> pm_species s' <> [] -> dehydrogenated l l' -> dehydrogenated (s :: l) (s' :: l')
| deh_drop : forall s s' l l', without_hydrogen s s' -> pm_species s' = [] -> dehydrogenated l l' -> dehydrogenated (s :: l) l'.
Definition total_occupancy (s : psite) : R := rsum (map snd (pm_species s)).
Definition sites_left (h : bool) (d : disorder_option) (l l1 l2 : list psite) : Prop :=
  (if h then dehydrogenated l l1 else l1 = l) /\
  match d with OrderedSites => filtered (fun s => 1 <= total_occupancy s) l1 l2 | _ => l2 = l1 end.
