(** Model of the readers, src/amd/io.py:107-502.

    What an iterator still has to give is a list of steps: an item, a warning issued by the
    generator while it looks for the next item, or an exception. The state of Python's
    warnings module is whether a filter ignores all warnings ([warnings.simplefilter('ignore')]),
    and the warnings shown so far; a shown warning is one which reaches [showwarning]. Python's
    suppression of repetitions is left out: entering catch_warnings resets it for every item.
    Progress bars are left out. Importing gemmi, ase and pymatgen succeeds. *)
From Coq Require Import List ZArith Arith Bool Ascii String.
From Verif Require Import Num Base Outcome.
Import ListNotations.
Open Scope string_scope.
Open Scope list_scope.
Notation length := List.length.

Section Reader.
  Context {item crystal warning : Type}.

  (** Texts of warnings: [f'(name={periodic_set.name}) {warning.message}'] of line 151, and
      'Error parsing ..., skipping file' of line 354. *)
  Inductive message := Named (name : string) (w : warning) | BadFile (path : string).

  Inductive step := Yields (x : item) | Warns (m : message) | Throws (e : pyexc).

  Record wstate := { ignoring : bool; shown : list message }.
  Definition issue (ms : list message) (w : wstate) : wstate :=
    if ignoring w then w else {| ignoring := ignoring w; shown := shown w ++ ms |}.

  (** A reader: the steps left, the converter (the warnings it issues, and the crystal or the
      exception), show_warnings. Lines 110-124. *)
  Record reader := { rd_steps : list step; rd_convert : item -> list warning * outcome crystal; rd_show : bool }.
  Context (name : crystal -> string).

  (** What [__next__] ends with. *)
  Inductive ended := Got (c : crystal) | Stopped | Failed (e : outcome crystal).

  (** The loop of lines 137-155. A warning recorded while an item is converted is lost when
      the item is skipped, as is the one issued about the ParseError itself (line 147, inside
      catch_warnings(record=True)). With [ignoring], nothing is recorded. *)
  Fixpoint next_item (convert : item -> list warning * outcome crystal) (steps : list step) (w : wstate)
    : ended * list step * wstate :=
    match steps with
    | [] => (Stopped, [], w)
    | Warns m :: t => next_item convert t (issue [m] w)
    | Throws StopIteration :: t => (Stopped, t, w)
    | Throws e :: t => (Failed (Raise e), t, w)
    | Yields x :: t =>
        let '(ws, r) := convert x in
        match r with
        | Done c => (Got c, t, issue (map (Named (name c)) ws) w)
        | Raise ParseError => next_item convert t w
        | Raise StopIteration => (Stopped, t, w)
        | r => (Failed r, t, w)
        end
    end.
  (** [__next__], lines 126-155: without show_warnings the filter is set for good. *)
  Definition next (r : reader) (w : wstate) : ended * reader * wstate :=
    let w := if rd_show r then w else {| ignoring := true; shown := shown w |} in
    let '(res, steps, w) := next_item (rd_convert r) (rd_steps r) w in
    (res, {| rd_steps := steps; rd_convert := rd_convert r; rd_show := rd_show r |}, w).

  (** [list(self)] *)
  Fixpoint to_list (fuel : nat) (r : reader) (w : wstate) : outcome (list crystal) * wstate :=
    match fuel with
    | 0%nat => (OutOfFuel, w)
    | S fuel =>
        let '(res, r, w) := next r w in
        match res with
        | Got c => let '(l, w) := to_list fuel r w in (obind l (fun l => Done (c :: l)), w)
        | Stopped => (Done [], w)
        | Failed (Raise e) => (Raise e, w)
        | Failed OutOfBounds => (OutOfBounds, w)
        | Failed _ => (OutOfFuel, w)
        end
    end.
  (** lines 157-166 *)
  Inductive one_or_list := One (c : crystal) | Several (l : list crystal).
  Definition read (fuel : nat) (r : reader) (w : wstate) : outcome one_or_list * wstate :=
    let '(l, w) := to_list fuel r w in
    (obind l (fun l => match l with [c] => Done (One c) | _ => Done (Several l) end), w).

  (** ** CifReader, lines 236-357 *)

  (** A path is a file, a directory with its entries, or does not exist. *)
  Record entry := { en_path : string; en_is_file : bool; en_suffix : string }.
  Inductive path := AFile (p : string) | ADir (entries : list entry) | NoPath.
  (** What a parser gives for a file: items, and possibly an exception after some of them.
      [eager] tells that the file is parsed before the first item. *)
  Record parser := { ps_parse : string -> list item * option pyexc; ps_eager : bool }.
  Definition parsed (p : parser) (f : string) : list item * option pyexc :=
    match ps_parse p f with
    | (items, Some e) => (if ps_eager p then [] else items, Some e)
    | r => r
    end.
  (** lines 338-357; [suffix] is without the dot and in lower case *)
  Definition dir_steps (p : parser) (extensions : list string) (entries : list entry) : list step :=
    flat_map (fun en =>
      if negb (en_is_file en) then []
      else if negb (existsb (String.eqb (en_suffix en)) extensions) then []
      else let '(items, e) := parsed p (en_path en) in
           map Yields items ++ match e with Some _ => [Warns (BadFile (en_path en))] | None => [] end) entries.
  Definition file_steps (p : parser) (f : string) : outcome (list step) :=
    let '(items, e) := parsed p f in
    match e with
    | None => Done (map Yields items)
    | Some e => if ps_eager p then Raise e else Done (map Yields items ++ [Throws e])
    end.

  (** [disorder in ('skip', 'ordered_sites', 'all_sites')] *)
  Definition disorder_ok (d : string) : bool := existsb (String.eqb d) ["skip"; "ordered_sites"; "all_sites"].
  (** The parsers and converters by name of the reader; the ccdc one fails when
      csd-python-api cannot be imported. *)
  Record backends := {
    be_gemmi : parser * (bool -> string -> item -> list warning * outcome crystal);
    be_ase : string -> parser * (bool -> string -> item -> list warning * outcome crystal);
    be_pymatgen : parser * (bool -> string -> item -> list warning * outcome crystal);
    be_ccdc : option (list string * parser * (bool -> string -> bool -> bool -> item -> list warning * outcome crystal))
  }.
  Definition make_reader (p : parser) (extensions : list string) (convert : item -> list warning * outcome crystal)
    (show : bool) (f : path) : outcome reader :=
    match f with
    | AFile f => obind (file_steps p f) (fun s => Done {| rd_steps := s; rd_convert := convert; rd_show := show |})
    | ADir entries => Done {| rd_steps := dir_steps p extensions entries; rd_convert := convert; rd_show := show |}
    | NoPath => Raise FileNotFoundError
    end.
  (** lines 236-335 *)
  Definition cif_reader (be : backends) (f : path) (name : string) (remove_hydrogens : bool) (disorder : string)
    (heaviest_component molecular_centres show : bool) : outcome reader :=
    if negb (disorder_ok disorder) then Raise ValueError
    else if negb (String.eqb name "ccdc") && (heaviest_component || molecular_centres) then Raise NotImplementedError
    else if String.eqb name "gemmi" then
      make_reader (fst (be_gemmi be)) ["cif"] (snd (be_gemmi be) remove_hydrogens disorder) show f
    else if (String.eqb name "ase" || String.eqb name "pycodcif")%bool then
      make_reader (fst (be_ase be name)) ["cif"] (snd (be_ase be name) remove_hydrogens disorder) show f
    else if String.eqb name "pymatgen" then
      make_reader (fst (be_pymatgen be)) ["cif"] (snd (be_pymatgen be) remove_hydrogens disorder) show f
    else if String.eqb name "ccdc" then
      match be_ccdc be with
      | None => Raise ImportError
      | Some (extensions, p, c) =>
          make_reader p extensions (c remove_hydrogens disorder molecular_centres heaviest_component) show f
      end
    else Raise ValueError.

  (** ** CSDReader, lines 424-497 *)

  (** Lines 470-476: the first of each refcode, in order. *)
  Definition unique_refcodes (all : list string) : list string :=
    fst (fold_left (fun '(refcodes, seen) refcode =>
           if existsb (String.eqb refcode) seen then (refcodes, seen)
           else (refcodes ++ [refcode], refcode :: seen)) all ([], [])).
  (** The argument: None, a string, or a list of anything ([None] in it: not a string). *)
  Inductive refcodes_arg := AllCSD | OneRefcode (s : string) | Refcodes (l : list (option string)) | OtherArg.
  Definition lower (s : string) : string :=
    string_of_list_ascii (map (fun c => let n := nat_of_ascii c in
      if ((65 <=? n) && (n <=? 90))%nat then ascii_of_nat (n + 32) else c) (list_ascii_of_string s)).
  Fixpoint all_strings (l : list (option string)) : option (list string) :=
    match l with
    | [] => Some []
    | None :: _ => None
    | Some s :: t => option_map (cons s) (all_strings t)
    end.
  (** lines 444-476; [search] gives the hits for a family, None is the whole database *)
  Definition csd_refcodes (search : string -> list string) (arg : refcodes_arg) (families : bool)
    : outcome (option (list string)) :=
    let arg := match arg with OneRefcode s => if String.eqb (lower s) "csd" then AllCSD else arg | a => a end in
    obind (match arg with
           | AllCSD => Done None
           | OneRefcode s => Done (Some [s])
           | Refcodes l => match all_strings l with Some l => Done (Some l) | None => Raise ValueError end
           | OtherArg => Raise ValueError
           end)
      (fun refcodes => match refcodes with
         | None => Done None
         | Some l => if families then Done (Some (unique_refcodes (flat_map search l))) else Done (Some l)
         end).
  (** lines 424-442 and 478-497; [entry] gives the item of a refcode or raises *)
  Definition csd_reader (database : option (list item * (string -> outcome item) * (string -> list string)
      * (bool -> string -> bool -> bool -> item -> list warning * outcome crystal)))
    (arg : refcodes_arg) (families remove_hydrogens : bool) (disorder : string)
    (heaviest_component molecular_centres show : bool) : outcome reader :=
    if negb (disorder_ok disorder) then Raise ValueError
    else match database with
    | None => Raise ImportError
    | Some (entries, entry, search, c) =>
        obind (csd_refcodes search arg families) (fun refcodes =>
          Done {| rd_steps := match refcodes with
                              | None => map Yields entries
                              | Some l => map (fun s => match entry s with Done x => Yields x | Raise e => Throws e | _ => Throws RuntimeError end) l
                              end;
                  rd_convert := c remove_hydrogens disorder molecular_centres heaviest_component; rd_show := show |})
    end.
End Reader.
Arguments message : clear implicits.
Arguments step : clear implicits.
Arguments wstate : clear implicits.
Arguments reader : clear implicits.
Arguments ended : clear implicits.
Arguments parser : clear implicits.
Arguments backends : clear implicits.
