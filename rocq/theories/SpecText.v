(** Specification of the texts read from CIFs: numerals, symmetry operations and symbols. *)
From Coq Require Import List ZArith Reals Arith Bool Ascii String.
Import ListNotations.
Open Scope string_scope.
Open Scope list_scope.
Open Scope R_scope.
Notation length := List.length.

(** ** Numerals *)

(** Digits before the point, and the digits after it if there is one. *)
Record numeral := { whole : list nat; fraction : option (list nat) }.

Definition frac_digits (n : numeral) : list nat := match fraction n with Some f => f | None => [] end.

Definition numeral_ok (n : numeral) : Prop :=
  Forall (fun d => (d < 10)%nat) (whole n ++ frac_digits n) /\ whole n ++ frac_digits n <> [].

Definition digit_char (d : nat) : ascii := ascii_of_nat (48 + d).
Definition write_numeral (n : numeral) : list ascii :=
  map digit_char (whole n) ++
  match fraction n with Some f => "."%char :: map digit_char f | None => [] end.

(** The value of a list of digits, highest first. *)
Fixpoint digits_value (ds : list nat) : R :=
  match ds with
  | [] => 0
  | d :: t => INR d * 10 ^ length t + digits_value t
  end.
Definition numeral_value (n : numeral) : R :=
  digits_value (whole n) + digits_value (frac_digits n) / 10 ^ length (frac_digits n).

(** A sign, possibly left out. *)
Definition write_sign (sg : option bool) : list ascii :=
  match sg with Some true => ["-"%char] | Some false => ["+"%char] | None => [] end.
Definition negative_sign (sg : option bool) : bool := match sg with Some b => b | None => false end.
Definition signed (neg : bool) (x : R) : R := if neg then - x else x.

(** ** Symmetry operations *)

(** A signed letter x, y or z (number 0, 1 or 2), or a signed number, possibly a fraction. *)
Inductive term :=
| Letter (negative : bool) (l : nat)
| Shift (negative : bool) (num : numeral) (den : option numeral).

Definition letter_char (l : nat) : ascii := ascii_of_nat (120 + l).

Definition write_body (t : term) : list ascii :=
  match t with
  | Letter _ l => [letter_char l]
  | Shift _ n None => write_numeral n
  | Shift _ n (Some d) => write_numeral n ++ "/"%char :: write_numeral d
  end.
Definition negative (t : term) : bool := match t with Letter b _ => b | Shift b _ _ => b end.
Definition write_term (t : term) : list ascii := (if negative t then "-"%char else "+"%char) :: write_body t.

(** A sum of terms; the sign of the first term may be left out if it is positive. *)
Inductive written : list term -> list ascii -> Prop :=
| written_all : forall ts, written ts (flat_map write_term ts)
| written_plus : forall t ts, negative t = false -> written (t :: ts) (write_body t ++ flat_map write_term ts).

Definition term_ok (t : term) : Prop :=
  match t with
  | Letter _ l => (l < 3)%nat
  | Shift _ n None => numeral_ok n
  | Shift _ n (Some d) => numeral_ok n /\ numeral_ok d /\ numeral_value d <> 0
  end.

(** Every letter at most once and at most one number. *)
Definition letters (ts : list term) : list nat :=
  flat_map (fun t => match t with Letter _ l => [l] | _ => [] end) ts.
Definition shifts (ts : list term) : list term :=
  filter (fun t => match t with Shift _ _ _ => true | _ => false end) ts.
Definition component_ok (ts : list term) : Prop :=
  Forall term_ok ts /\ NoDup (letters ts) /\ (length (shifts ts) <= 1)%nat.

(** The coefficient of a letter and the translation described by a sum of terms. *)
Fixpoint coefficient (ts : list term) (l : nat) : R :=
  match ts with
  | [] => 0
  | Letter neg l' :: t => (if (l =? l')%nat then signed neg 1 else 0) + coefficient t l
  | _ :: t => coefficient t l
  end.
Fixpoint translation (ts : list term) : R :=
  match ts with
  | [] => 0
  | Shift neg n None :: t => signed neg (numeral_value n) + translation t
  | Shift neg n (Some d) :: t => signed neg (numeral_value n / numeral_value d) + translation t
  | _ :: t => translation t
  end.

(** Blanks and letter case do not matter. *)
Definition blank (c : ascii) : bool := (nat_of_ascii c =? 32)%nat || (nat_of_ascii c =? 9)%nat.
Definition small (c : ascii) : ascii :=
  if ((65 <=? nat_of_ascii c) && (nat_of_ascii c <=? 90))%nat then ascii_of_nat (nat_of_ascii c + 32) else c.
Definition spells (s : list ascii) (ts : list term) : Prop :=
  component_ok ts /\ written ts (map small (filter (fun c => negb (blank c)) s)).

(** ** Symbols *)
Definition letter (c : ascii) : Prop := (65 <= nat_of_ascii c <= 90)%nat \/ (97 <= nat_of_ascii c <= 122)%nat.
Definition capital (c : ascii) : Prop := (65 <= nat_of_ascii c <= 90)%nat.
Definition lower_case (c : ascii) : Prop := (97 <= nat_of_ascii c <= 122)%nat.
(** The same letter up to case. *)
Definition same_letter (a b : ascii) : Prop := small a = small b.
