(** The cache of _parse_sitesym, /repo/src/amd/io.py lines 1456-1467, and _parse_sitesyms, lines
    1514-1524, with the arrays as objects in memory: the cache keeps references to arrays, and a
    caller may write into an array that was returned.  Memory is a list of arrays, a reference is a
    position in it, and new arrays are put at its end. *)
From Coq Require Import List Ascii Arith Bool.
From Verif Require Import Outcome TextModel.
Import ListNotations.

Section Cache.
  Context {T : Type}.
  (** Arrays: a matrix, a vector, several matrices, several vectors. *)
  Inductive array := Matrix (a : list (list T)) | Vector (a : list T) | Matrices (a : list (list (list T))) | Vectors (a : list (list T)).

  Record memory := { arrays : list array; cache : list (chars * (nat * nat)) }.
  Definition fresh_memory : memory := {| arrays := []; cache := [] |}.

  Definition same_text (a b : chars) : bool := if list_eq_dec ascii_dec a b then true else false.
  Fixpoint find_text (s : chars) (c : list (chars * (nat * nat))) : option (nat * nat) :=
    match c with
    | [] => None
    | (s', r) :: c => if same_text s s' then Some r else find_text s c
    end.

  (** [f] is the function without the cache: it returns two new arrays or raises. *)
  Variable f : chars -> outcome (list (list T) * list T).

  (** memoize, lines 1456-1463; an exception leaves the cache as it is. *)
  Definition memoized (m : memory) (sym : chars) : memory * outcome (nat * nat) :=
    match find_text sym (cache m) with
    | Some r => (m, Done r)
    | None =>
        match f sym with
        | Done (rot, trans) =>
            let r := (length (arrays m), S (length (arrays m))) in
            ({| arrays := arrays m ++ [Matrix rot; Vector trans]; cache := (sym, r) :: cache m |}, Done r)
        | Raise e => (m, Raise e)
        | OutOfBounds => (m, OutOfBounds)
        | OutOfFuel => (m, OutOfFuel)
        end
    end.

  (** The loop of lines 1520-1523: two lists of references. *)
  Fixpoint collect (m : memory) (syms : list chars) : memory * outcome (list nat * list nat) :=
    match syms with
    | [] => (m, Done ([], []))
    | sym :: syms =>
        let (m, r) := memoized m sym in
        match r with
        | Done (a, b) =>
            let (m, rs) := collect m syms in
            (m, obind rs (fun x => Done (a :: fst x, b :: snd x)))
        | Raise e => (m, Raise e)
        | OutOfBounds => (m, OutOfBounds)
        | OutOfFuel => (m, OutOfFuel)
        end
    end.

  Definition as_matrix (m : memory) (a : nat) : list (list T) := match nth_error (arrays m) a with Some (Matrix x) => x | _ => [] end.
  Definition as_vector (m : memory) (a : nat) : list T := match nth_error (arrays m) a with Some (Vector x) => x | _ => [] end.

  (** Line 1524: [np.array] copies the contents into new arrays. *)
  Definition sitesyms_in (m : memory) (syms : list chars) : memory * outcome (nat * nat) :=
    let (m, rs) := collect m syms in
    match rs with
    | Done (rots, transs) =>
        ({| arrays := arrays m ++ [Matrices (map (as_matrix m) rots); Vectors (map (as_vector m) transs)]; cache := cache m |},
         Done (length (arrays m), S (length (arrays m))))
    | Raise e => (m, Raise e)
    | OutOfBounds => (m, OutOfBounds)
    | OutOfFuel => (m, OutOfFuel)
    end.

  (** What a caller can do: call one of the two functions, or write into an array which a call has
      returned.  The list has the references returned so far; [Write i x] writes [x] into the one at
      position [i]. *)
  Inductive action := Parse (syms : list chars) | ParseOne (sym : chars) | Write (i : nat) (x : array).

  Definition hand_out (held : list nat) (r : outcome (nat * nat)) : list nat := match r with Done (a, b) => held ++ [a; b] | _ => held end.
  Definition act (st : memory * list nat) (a : action) : memory * list nat :=
    let (m, held) := st in
    match a with
    | Parse syms => let (m, r) := sitesyms_in m syms in (m, hand_out held r)
    | ParseOne sym => let (m, r) := memoized m sym in (m, hand_out held r)
    | Write i x => match nth_error held i with Some a => ({| arrays := upd (arrays m) a x; cache := cache m |}, held) | None => st end
    end.
  Definition after (acts : list action) : memory * list nat := fold_left act acts (fresh_memory, []).
End Cache.
Arguments memory T : clear implicits.
Arguments array T : clear implicits.
Arguments action T : clear implicits.
