(** The models of numeric code on real numbers with rounded operations.

    The functions of the models are written over [Num]; [num_of] gives them any operations
    on real numbers for [+], [-], [*], [/], the square root, the conversion of integers, sums
    and scalar products (binary64 operations, for instance).  Comparisons of real numbers are exact, as those of
    floating-point numbers are.  Overflow, infinities and NaN are not modelled. *)
From Coq Require Import Reals ZArith List.
From Verif Require Import Num.

Record arith := {
  r_add : R -> R -> R;
  r_sub : R -> R -> R;
  r_mul : R -> R -> R;
  r_div : R -> R -> R;
  r_sqrt : R -> R;
  r_ofZ : Z -> R;
  r_sum : list R -> R;
  r_dot : list R -> list R -> R
}.

Definition num_of (ar : arith) : Num R := {|
  n0 := 0%R; n1 := 1%R;
  nadd := r_add ar; nsub := r_sub ar; nmul := r_mul ar; ndiv := r_div ar;
  nsqrt := r_sqrt ar; nleb := Rleb; nltb := Rltb; nofZ := r_ofZ ar;
  nsum := r_sum ar; ndot := r_dot ar
|}.
