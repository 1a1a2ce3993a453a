(** Specification of small displacements of periodic point sets, independent of the models. *)
From Coq Require Import List ZArith Arith Reals Permutation.
From Verif Require Import SpecGeom SpecCalc.
Import ListNotations.
Open Scope R_scope.

(** Point [i] of the first motif moves by at most [eps] to a lattice translate of point
    [sigma i] of the second one. Points may cross the boundary of the cell and the motifs may
    be listed in different orders. *)
Definition moved_by (dims : nat) (cell : list (list R)) (eps : R) (motif motif' : list (list R))
  (sigma : nat -> nat) (shift : nat -> list Z) : Prop :=
  Permutation (map sigma (seq 0 (length motif))) (seq 0 (length motif')) /\
  forall i, (i < length motif)%nat -> length (shift i) = dims /\
    edist (nth i motif []) (ppoint dims motif' cell (shift i, sigma i)) <= eps.

Definition displaced (dims : nat) (cell : list (list R)) (eps : R) (motif motif' : list (list R)) : Prop :=
  exists sigma shift, moved_by dims cell eps motif motif' sigma shift.

(** [positions] are representatives of the motif points up to symmetry and [counts] how many
    points each of them stands for. *)
Definition stands_for (dims : nat) (motif cell : list (list R)) (positions counts : list nat) : Prop :=
  exists rep,
    (forall i, (i < length motif)%nat -> (rep i < length positions)%nat /\
       same_surroundings dims motif cell i (nth (rep i) positions 0%nat)) /\
    (forall a, (a < length positions)%nat ->
       nth a counts 0%nat = count_occ Nat.eq_dec (map rep (seq 0 (length motif))) a).

(** What merging rows may add: twice the tolerance. *)
Definition slack (collapse : bool) (tol : R) : R := if collapse then 2 * tol else 0.
