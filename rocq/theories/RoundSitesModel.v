(** [np.mod(x, 1)] in rounded arithmetic, for the expansion of asymmetric units
    (src/amd/io.py:1568; also lines 576, 844, 1043, 1412 and 1766). *)
From Coq Require Import Reals ZArith.
From Verif Require Import RoundModel.
Open Scope R_scope.

(** The integer part, towards 0. *)
Definition trunc (x : R) : Z := if Rle_dec 0 x then Int_part x else (- Int_part (- x))%Z.

(** The remainder of the C function [fmod] is exact; if it is negative then 1 is added, rounded. *)
Definition np_mod1 (ar : arith) (x : R) : R :=
  let r := x - IZR (trunc x) in if Rlt_dec r 0 then r_add ar r 1 else r.
