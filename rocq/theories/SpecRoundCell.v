(** Specification of rounded trigonometric functions, independent of the models. *)
From Coq Require Import List Arith Reals.
From Verif Require Import SpecGeom.
Import ListNotations.
Open Scope R_scope.

(** [np.deg2rad] for angles up to 180 degrees (a product with a rounded constant has an error
    below pi times 3 [u]), and library functions which are right up to 2 [u]. *)
Record trig_like (u : R) (rdeg rcos rsin : R -> R) : Prop := {
  tg_deg : forall x, 0 <= x <= 180 -> Rabs (rdeg x - x * PI / 180) <= 10 * u;
  tg_cos : forall x, Rabs (rcos x - cos x) <= 2 * u;
  tg_sin : forall x, Rabs (rsin x - sin x) <= 2 * u
}.

(** In every row of the scalar products of the cell vectors, those off the diagonal are together at
    most the share [rho] of the one on the diagonal ([half_dominant] of SpecGeom is the case 1/2). *)
Definition dominates (rho : R) (dims : nat) (cell : list (list R)) : Prop :=
  forall i, (i < dims)%nat ->
    rsum (map (fun j => if Nat.eqb j i then 0 else Rabs (rdot (nth i cell []) (nth j cell []))) (seq 0 dims)) <= rho * rdot (nth i cell []) (nth i cell []).
