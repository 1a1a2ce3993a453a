(** Specification of the other descriptions of a periodic set for which the point packing coefficient must not
    change. Independent of the models. *)
From Coq Require Import List ZArith Arith Reals.
From Verif Require Import SpecGeom SpecDet.
Import ListNotations.
Open Scope R_scope.

(** The rows of [cell'] are the integer combinations of the rows of [cell] given by [U]. *)
Definition combined (dims : nat) (cell : list (list R)) (U : list (list Z)) (cell' : list (list R)) : Prop :=
  length U = dims /\ Forall (fun l => length l = dims) U /\
  length cell' = dims /\ Forall (fun r => length r = dims) cell' /\
  forall i j, (i < dims)%nat -> (j < dims)%nat -> nth j (nth i cell' []) 0 = lattice_coord cell (nth i U []) j.
(** Two cells generating the same lattice. *)
Definition same_lattice (dims : nat) (cell cell' : list (list R)) : Prop :=
  (exists U, combined dims cell U cell') /\ (exists V, combined dims cell' V cell).
Definition int_entries (U : list (list Z)) (i j : nat) : R := IZR (nth j (nth i U []) 0%Z).

(** The supercell of [n_1 x ... x n_d] copies of the cell. *)
Fixpoint box (ns : list nat) : list (list Z) :=
  match ns with
  | [] => [[]]
  | n :: t => flat_map (fun i => map (cons (Z.of_nat i)) (box t)) (seq 0 n)
  end.
Definition super_motif (dims : nat) (motif cell : list (list R)) (ns : list nat) : list (list R) :=
  flat_map (fun l => map (fun i => ppoint dims motif cell (l, i)) (seq 0 (length motif))) (box ns).
Definition super_cell (cell : list (list R)) (ns : list nat) : list (list R) :=
  map (fun i => map (Rmult (INR (nth i ns 0%nat))) (nth i cell [])) (seq 0 (length cell)).
(** Every point multiplied by [c]. *)
Definition scaled (c : R) (m : list (list R)) : list (list R) := map (map (Rmult c)) m.
