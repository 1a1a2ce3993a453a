(** Specification of conversions to 64-bit integers, and the sum of all distances. *)
From Coq Require Import Reals ZArith.
From Verif Require Import Sums.
Open Scope R_scope.

(** A conversion which drops the fraction of the numbers it can represent (only numbers which
    are not negative are needed); nothing is said about numbers of 2^63 and more. *)
Definition truncates (cast : R -> Z) : Prop :=
  forall r, 0 <= r < 9223372036854775808 -> IZR (cast r) <= r < IZR (cast r) + 1.

Definition total_distance (n1 n2 : nat) (d : nat -> nat -> R) : R := Sum n1 (fun i => Sum n2 (fun j => d i j)).
