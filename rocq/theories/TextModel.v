(** Model of the text processing in src/amd/io.py: numbers, symmetry operations, symbols.

    Strings are lists of ASCII characters; characters outside ASCII are not modelled (for
    [str.isdigit], [str.strip] and [str.lower] they would matter). *)
From Coq Require Import List ZArith Arith Bool Ascii String.
From Verif Require Import Num Base Outcome CompareModel.
Import ListNotations.
Open Scope outcome_scope.
Open Scope list_scope.
Notation length := List.length.

Definition chars := list ascii.
Definition text (s : string) : chars := list_ascii_of_string s.

Definition code (c : ascii) : nat := nat_of_ascii c.
Definition between (a b : nat) (c : ascii) : bool := ((a <=? code c) && (code c <=? b))%nat.
Definition is_char (k : nat) (c : ascii) : bool := (code c =? k)%nat.
(** str.isdigit *)
Definition is_digit (c : ascii) : bool := between 48 57 c.
(** Characters removed by str.strip and float: tab to carriage return, 28 to 31 and space. *)
Definition is_space (c : ascii) : bool := (between 9 13 c || between 28 32 c)%bool.
Definition is_letter (c : ascii) : bool := (between 65 90 c || between 97 122 c)%bool.
(** str.lower and str.upper of one character *)
Definition lower_char (c : ascii) : ascii := if between 65 90 c then ascii_of_nat (code c + 32) else c.
Definition upper_char (c : ascii) : ascii := if between 97 122 c then ascii_of_nat (code c - 32) else c.

Fixpoint drop_while (f : ascii -> bool) (s : chars) : chars :=
  match s with
  | [] => []
  | c :: t => if f c then drop_while f t else s
  end.
(** str.strip *)
Definition strip (s : chars) : chars := rev (drop_while is_space (rev (drop_while is_space s))).

(** Longest prefix of characters satisfying [f], and the rest. *)
Fixpoint span (f : ascii -> bool) (s : chars) : chars * chars :=
  match s with
  | [] => ([], [])
  | c :: t => if f c then let '(a, b) := span f t in (c :: a, b) else ([], s)
  end.

(** str.split(',') *)
Fixpoint split_comma (s : chars) : list chars :=
  match s with
  | [] => [[]]
  | c :: t =>
      if is_char 44 c then [] :: split_comma t
      else match split_comma t with
           | [] => [[c]]
           | w :: ws => (c :: w) :: ws
           end
  end.

Fixpoint text_eqb (a b : chars) : bool :=
  match a, b with
  | [], [] => true
  | c :: a', d :: b' => (Ascii.eqb c d && text_eqb a' b')%bool
  | _, _ => false
  end.

(** ** Python's float(string)

    The result is a number, an infinity or NaN; None stands for ValueError. The decimal value
    is exact (binary64 rounds it). *)
Section Numbers.
  Context {T : Type} `{Num T}.

  Inductive fval := Fin (x : T) | Inf (negative : bool) | NaN.

  (** Underscores may stand between two digits. *)
  Fixpoint drop_underscores (after_digit : bool) (s : chars) : option chars :=
    match s with
    | [] => Some []
    | c :: t =>
        if is_char 95 c then
          if (after_digit && match t with d :: _ => is_digit d | [] => false end)%bool
          then drop_underscores false t else None
        else option_map (cons c) (drop_underscores (is_digit c) t)
    end.

  Definition digit_value (c : ascii) : Z := Z.of_nat (code c - 48).
  Definition number_of (ds : chars) : Z := fold_left (fun a c => 10 * a + digit_value c)%Z ds 0%Z.

  (** An optional sign. *)
  Definition sign (s : chars) : bool * chars :=
    match s with
    | c :: t => if is_char 45 c then (true, t) else if is_char 43 c then (false, t) else (false, s)
    | [] => (false, [])
    end.

  (** [m * 10^e] *)
  Definition decimal (m e : Z) : T :=
    if (0 <=? e)%Z then nofZ (m * 10 ^ e) else ndiv (nofZ m) (nofZ (10 ^ (- e))).

  (** Exponent part: None when malformed. *)
  Definition exponent (s : chars) : option Z :=
    match s with
    | [] => Some 0%Z
    | c :: t =>
        if is_char 101 c then
          let '(neg, t) := sign t in
          let '(ds, rest) := span is_digit t in
          match ds, rest with
          | _ :: _, [] => Some (if neg then - number_of ds else number_of ds)%Z
          | _, _ => None
          end
        else None
    end.

  Definition py_float (s : chars) : option fval :=
    match drop_underscores false (map lower_char (strip s)) with
    | None => None
    | Some s =>
        let '(neg, s) := sign s in
        if (text_eqb s (text "inf") || text_eqb s (text "infinity"))%bool then Some (Inf neg)
        else if text_eqb s (text "nan") then Some NaN
        else
          let '(d1, s) := span is_digit s in
          let '(d2, s) := match s with
                          | c :: t => if is_char 46 c then span is_digit t else ([], s)
                          | [] => ([], [])
                          end in
          match d1 ++ d2 with
          | [] => None
          | ds =>
              match exponent s with
              | None => None
              | Some e =>
                  let m := number_of ds in
                  Some (Fin (decimal (if neg then - m else m) (e - Z.of_nat (length d2))))
              end
          end
    end.

  (** [re.sub(r'\(.+\)*', '', s)]: everything from an opening bracket to the end of the line,
      when the bracket is not the last character of the line. *)
  Fixpoint remove_brackets (skipping : bool) (s : chars) : chars :=
    match s with
    | [] => []
    | c :: t =>
        if skipping then
          if is_char 10 c then c :: remove_brackets false t else remove_brackets true t
        else if (is_char 40 c && match t with d :: _ => negb (is_char 10 d) | [] => false end)%bool
        then remove_brackets true t
        else c :: remove_brackets false t
    end.

  (** Values found in the dictionaries of the CIF libraries. *)
  Inductive cifval := Str (s : chars) | Number (v : fval) | Items (l : list cifval) | Nothing.

  Definition str_to_float (s : chars) : outcome fval :=
    match py_float (remove_brackets false s) with
    | Some v => Done v
    | None =>
        if (text_eqb (strip s) (text ".") || text_eqb (strip s) (text "?"))%bool
        then Done (Fin n0) else Raise ValueError
    end.

  (** str2float, io.py:1794-1805. [re.sub] raises TypeError unless its argument is a string. *)
  Definition str2float (v : cifval) : outcome fval :=
    match v with
    | Str s => str_to_float s
    | Items [Str s] =>
        match py_float (remove_brackets false s) with Some v => Done v | None => Raise ValueError end
    | Items [_] => Raise TypeError
    | _ => Raise ParseError
    end.

  (** ** Symmetry operations *)

  (** Local variables of the loop over the characters of one component, io.py:1476-1496. *)
  Record scan := {
    is_positive : bool;
    is_fraction : bool;
    sng_trans : option bool;   (* sign: true for 1.0, false for -1.0 *)
    fst_trans : chars;
    snd_trans : chars;
    rot_row : list T
  }.

  Definition neg_one : T := nsub n0 n1.

  Definition step (st : scan) (c : ascii) : scan :=
    if is_char 43 c then
      {| is_positive := true; is_fraction := is_fraction st; sng_trans := sng_trans st;
         fst_trans := fst_trans st; snd_trans := snd_trans st; rot_row := rot_row st |}
    else if is_char 45 c then
      {| is_positive := false; is_fraction := is_fraction st; sng_trans := sng_trans st;
         fst_trans := fst_trans st; snd_trans := snd_trans st; rot_row := rot_row st |}
    else if is_char 47 c then
      {| is_positive := is_positive st; is_fraction := true; sng_trans := sng_trans st;
         fst_trans := fst_trans st; snd_trans := snd_trans st; rot_row := rot_row st |}
    else if between 120 122 c then
      {| is_positive := is_positive st; is_fraction := is_fraction st; sng_trans := sng_trans st;
         fst_trans := fst_trans st; snd_trans := snd_trans st;
         rot_row := upd (rot_row st) (code c - 120) (if is_positive st then n1 else neg_one) |}
    else if (is_digit c || is_char 46 c)%bool then
      {| is_positive := is_positive st; is_fraction := is_fraction st;
         sng_trans := match sng_trans st with None => Some (is_positive st) | s => s end;
         fst_trans := if is_fraction st then fst_trans st else fst_trans st ++ [c];
         snd_trans := if is_fraction st then snd_trans st ++ [c] else snd_trans st;
         rot_row := rot_row st |}
    else st.

  Definition scan0 (row : list T) : scan :=
    {| is_positive := true; is_fraction := false; sng_trans := None; fst_trans := []; snd_trans := [];
       rot_row := row |}.

  (** [float(''.join(digits))] of digits and dots is never an infinity or NaN. *)
  Definition float_of (ds : chars) : outcome T :=
    match py_float ds with
    | Some (Fin v) => Done v
    | _ => Raise ValueError
    end.

  (** Lines 1498-1504. *)
  Definition translation_of (st : scan) : outcome T :=
    e <- match fst_trans st with
         | [] => Done n0
         | ds =>
             v <- float_of ds ;;
             match sng_trans st with
             | Some true => Done (nmul n1 v)
             | Some false => Done (nmul neg_one v)
             | None => Raise TypeError      (* does not occur *)
             end
         end ;;
    if is_fraction st then
      d <- float_of (snd_trans st) ;;
      if (nleb d n0 && nleb n0 d)%bool then Raise ZeroDivisionError else Done (ndiv e d)
    else Done e.

  (** One component of an xyz string; [row] is the row of zeros of [rot]. With [ind] > 2 line
      1491 or 1506 raises IndexError, unless the number before is malformed. *)
  Definition parse_component (ind : nat) (row : list T) (element : chars) : outcome (list T * T) :=
    let st := fold_left step (map lower_char element) (scan0 row) in
    if ((3 <=? ind)%nat && existsb (between 120 122) (map lower_char element))%bool then Raise IndexError
    else
      e <- translation_of st ;;
      if (3 <=? ind)%nat then Raise IndexError else Done (rot_row st, e).

  (** _parse_sitesym, io.py:1466-1511, without the cache around it, which SymCacheModel adds; it
      changes no results (C89_history). *)
  Definition parse_sitesym (sym : chars) : outcome (list (list T) * list T) :=
    ofold (fun rt ie =>
             let '(rot, trans) := rt in
             '(row, e) <- parse_component (fst ie) (nth (fst ie) rot []) (snd ie) ;;
             Done (upd rot (fst ie) row, upd trans (fst ie) e))
          (enumerate (split_comma sym)) (repeat (repeat n0 3) 3, repeat n0 3).

  (** _parse_sitesyms, io.py:1514-1524 *)
  Definition parse_sitesyms (syms : list chars) : outcome (list (list (list T) * list T)) :=
    omap parse_sitesym syms.
End Numbers.

(** ** Atomic symbols *)

(** [re.search(r'([A-Za-z][A-Za-z]?)', s)] followed by the change of case, io.py:1677-1685. *)
Fixpoint find_symbol (s : chars) : chars :=
  match s with
  | [] => []
  | c :: t =>
      if is_letter c then
        match t with
        | d :: _ => if is_letter d then [upper_char c; lower_char d] else [upper_char c]
        | [] => [upper_char c]
        end
      else find_symbol t
  end.

(** _atomic_symbols_from_labels, io.py:1672-1687 *)
Definition atomic_symbols_from_labels (labels : list chars) : list chars :=
  map (fun label => match label with
                    | [] => []
                    | _ => if (text_eqb label (text ".") || text_eqb label (text "?"))%bool then []
                           else find_symbol label
                    end) labels.

(** ** _has_disorder, io.py:1663-1669 *)
Section Disorder.
  Context {T : Type} `{Num T}.

  Definition ends_with_question (s : chars) : bool :=
    match rev s with c :: _ => is_char 63 c | [] => false end.

  (** [float(occupancy)] of a string or number; anything else counts as 1. *)
  Definition occupancy_value (v : cifval (T := T)) : fval (T := T) :=
    match v with
    | Str s => match py_float s with Some x => x | None => Fin n1 end
    | Number x => x
    | _ => Fin n1
    end.
  Definition below_one (v : fval (T := T)) : bool :=
    match v with Fin x => nltb x n1 | Inf neg => neg | NaN => false end.
  Definition has_disorder (label : chars) (occupancy : cifval (T := T)) : bool :=
    (below_one (occupancy_value occupancy) || ends_with_question label)%bool.
End Disorder.
