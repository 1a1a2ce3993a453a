(** Binary64 instance of [Num], used only for running models in tests. *)
From Coq Require Import ZArith PrimFloat List.
From Verif Require Import Num.

(** Conversion of (small) integers to floats. *)
Fixpoint float_ofpos (p : positive) : float :=
  match p with
  | xH => 1%float
  | xO q => PrimFloat.mul 2%float (float_ofpos q)
  | xI q => PrimFloat.add 1%float (PrimFloat.mul 2%float (float_ofpos q))
  end.
Definition float_ofZ (z : Z) : float :=
  match z with
  | Z0 => 0%float
  | Zpos p => float_ofpos p
  | Zneg p => PrimFloat.opp (float_ofpos p)
  end.

#[export] Instance NumF : Num float := {
  n0 := 0%float; n1 := 1%float;
  nadd := PrimFloat.add; nsub := PrimFloat.sub; nmul := PrimFloat.mul;
  ndiv := PrimFloat.div; nsqrt := PrimFloat.sqrt;
  nleb := PrimFloat.leb; nltb := PrimFloat.ltb; nofZ := float_ofZ;
  nsum := fun l => fold_left PrimFloat.add l 0%float;
  ndot := fun u v => fold_left (fun s ab => PrimFloat.add s (PrimFloat.mul (fst ab) (snd ab))) (combine u v) 0%float
}.
