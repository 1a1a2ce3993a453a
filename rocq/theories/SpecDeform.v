(** Specification of deformations of the cell together with small displacements of the points,
    independent of the models. *)
From Coq Require Import List ZArith Arith Reals.
From Verif Require Import SpecGeom SpecCont.
Import ListNotations.
Open Scope R_scope.

(** The vector with coordinates [x] in the basis of the cell vectors, and its length. *)
Definition combination (dims : nat) (cell : list (list R)) (x : list R) : list R :=
  map (comb_coord cell x) (seq 0 dims).
Definition vlength (v : list R) : R := sqrt (rdot v v).

(** The linear map taking [cell] to [cell'] changes lengths by at most the share [delta]. *)
Definition strained (dims : nat) (cell cell' : list (list R)) (delta : R) : Prop :=
  forall x, length x = dims ->
    Rabs (vlength (combination dims cell' x) - vlength (combination dims cell x)) <= delta * vlength (combination dims cell x).

(** The points of [mid] have the fractional coordinates in [cell'], seen from the origin [t], that
    those of [motif] have in [cell]. *)
Definition carried (dims : nat) (cell cell' motif mid : list (list R)) : Prop :=
  length mid = length motif /\ exists (t : list R) (frac : nat -> list R), forall i, (i < length motif)%nat -> length (frac i) = dims /\
    nth i motif [] = combination dims cell (frac i) /\
    nth i mid [] = map (fun j => comb_coord cell' (frac i) j + nth j t 0) (seq 0 dims).

(** First the cell is deformed and perhaps turned or shifted with the points in it, then the points move by at most [eps]. *)
Definition perturbed (dims : nat) (cell cell' : list (list R)) (delta eps : R) (motif motif' : list (list R)) : Prop :=
  strained dims cell cell' delta /\ exists mid, carried dims cell cell' motif mid /\ displaced dims cell' eps mid motif'.

(** The sum of the lengths of the differences of the cell vectors. *)
Definition cell_change (dims : nat) (cell cell' : list (list R)) : R :=
  rsum (map (fun r => edist (nth r cell' []) (nth r cell [])) (seq 0 dims)).
