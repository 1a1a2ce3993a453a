(** Specification of unit cells: their points, lengths, angles and volume. Independent of the
    models. *)
From Coq Require Import List ZArith Arith Reals.
From Verif Require Import SpecGeom.
Import ListNotations.
Open Scope R_scope.

Definition square_matrix (dims : nat) (cell : list (list R)) : Prop :=
  length cell = dims /\ Forall (fun r => length r = dims) cell.

(** Points of the closed cell, and its vertices. *)
Definition closed_cell (dims : nat) (cell : list (list R)) (p : list R) : Prop :=
  exists f, length f = dims /\ Forall (fun a => 0 <= a <= 1) f /\ p = map (comb_coord cell f) (seq 0 dims).
Definition vertex (dims : nat) (cell : list (list R)) (p : list R) : Prop :=
  exists f, length f = dims /\ Forall (fun a => a = 0 \/ a = 1) f /\ p = map (comb_coord cell f) (seq 0 dims).
(** [d] is the greatest distance of points of the cell, attained by two vertices. *)
Definition is_diameter (dims : nat) (cell : list (list R)) (d : R) : Prop :=
  (forall p q, closed_cell dims cell p -> closed_cell dims cell q -> edist p q <= d) /\
  exists u v, vertex dims cell u /\ vertex dims cell v /\ edist u v = d.

(** Length of a vector; the angle of two vectors in degrees. *)
Definition vlen (u : list R) : R := sqrt (rdot u u).
Definition is_angle (u v : list R) (x : R) : Prop :=
  0 <= x <= 180 /\ rdot u v = vlen u * vlen v * cos (x * PI / 180).
(** The conventional parameters: lengths, and the angles opposite to them. *)
Record has_parameters (cell : list (list R)) (a b c al be ga : R) : Prop := {
  hp_a : vlen (nth 0 cell []) = a;
  hp_b : vlen (nth 1 cell []) = b;
  hp_c : vlen (nth 2 cell []) = c;
  hp_al : is_angle (nth 1 cell []) (nth 2 cell []) al;
  hp_be : is_angle (nth 0 cell []) (nth 2 cell []) be;
  hp_ga : is_angle (nth 0 cell []) (nth 1 cell []) ga
}.
Record has_parameters_2D (cell : list (list R)) (a b al : R) : Prop := {
  h2_a : vlen (nth 0 cell []) = a;
  h2_b : vlen (nth 1 cell []) = b;
  h2_al : is_angle (nth 0 cell []) (nth 1 cell []) al
}.

Definition entry (cell : list (list R)) (i j : nat) : R := nth j (nth i cell []) 0.
Definition lower_triangular (dims : nat) (cell : list (list R)) : Prop :=
  forall i j, (i < j < dims)%nat -> entry cell i j = 0.
Definition det2 (m : list (list R)) : R := entry m 0 0 * entry m 1 1 - entry m 0 1 * entry m 1 0.
Definition det3 (m : list (list R)) : R :=
  entry m 0 0 * (entry m 1 1 * entry m 2 2 - entry m 1 2 * entry m 2 1)
  - entry m 0 1 * (entry m 1 0 * entry m 2 2 - entry m 1 2 * entry m 2 0)
  + entry m 0 2 * (entry m 1 0 * entry m 2 1 - entry m 1 1 * entry m 2 0).

(** The usual formula for the squared volume of a cell with unit lengths. *)
Definition unit_volume_sq (al be ga : R) : R :=
  let ca := cos (al * PI / 180) in let cb := cos (be * PI / 180) in let cg := cos (ga * PI / 180) in
  1 - ca * ca - cb * cb - cg * cg + 2 * (ca * cb * cg).

(** Angles within 2^-45 degrees of a right angle are taken as right angles. *)
Definition rounded_angle (x x' : R) : Prop :=
  (Rabs (x - 90) < / 2 ^ 45 -> x' = 90) /\ (/ 2 ^ 45 <= Rabs (x - 90) -> x' = x).
