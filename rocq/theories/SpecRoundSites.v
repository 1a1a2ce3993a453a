(** Specification of how symmetry operations, sites and cells are to be for rounding errors not to
    matter in the expansion of an asymmetric unit; independent of the models. *)
From Coq Require Import List Reals ZArith.
From Verif Require Import RoundModel SpecGeom SpecSites SpecRound.
Import ListNotations.
Open Scope R_scope.

(** In no coordinate of the image of a site do the terms that are added exceed [s]. *)
Definition images_within (s : R) (asym : list (list R)) (ops : list operation) : Prop :=
  forall p g j, In p asym -> In g ops -> (j < length p)%nat ->
    rdot (map Rabs (nth j (fst g) [])) (map Rabs p) + Rabs (nth j (snd g) 0) <= s.

(** Any two images agree modulo integers up to [tol - margin] in all coordinates, or differ by
    more than [tol + margin] in some coordinate. *)
Definition decided_sites (tol margin : R) (asym : list (list R)) (ops : list operation) : Prop :=
  margin <= tol /\ forall p q g h, In p asym -> In q asym -> In g ops -> In h ops ->
    close_mod1 (tol - margin) (affine g p) (affine h q) \/
    exists j, (j < length p)%nat /\ forall n : Z, tol + margin < Rabs (nth j (affine g p) 0 - nth j (affine h q) 0 - IZR n).

(** The sum of the lengths of the cell vectors, and a bound for the lengths of the columns of the
    inverse matrix. *)
Definition cell_size (cell : list (list R)) : R := rsum (map (fun r => sqrt (rdot r r)) cell).
Definition inverse_within (w : R) (dims : nat) (cell : list (list R)) : Prop :=
  exists dual, dual_basis dims cell dual /\ Forall (fun v => sqrt (rdot v v) <= w) dual.

(** Scalar products are numbers of the format. *)
Definition representable_dots (ar : arith) : Prop := forall xs ys, representable ar (r_dot ar xs ys).
