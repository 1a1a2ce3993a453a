(** Specification of metrics between rows, independent of the model. *)
From Coq Require Import List Reals.
From Verif Require Import Sums SpecEmd.
Import ListNotations.
Open Scope R_scope.

(** [f] is a metric on vectors with [k] coordinates (different vectors may have distance 0). *)
Record metric_on (k : nat) (f : list R -> list R -> R) : Prop := {
  mo_pos : forall u v, length u = k -> length v = k -> 0 <= f u v;
  mo_same : forall u, length u = k -> f u u = 0;
  mo_sym : forall u v, length u = k -> length v = k -> f u v = f v u;
  mo_triangle : forall u v w, length u = k -> length v = k -> length w = k -> f u w <= f u v + f v w
}.

(** No distance is negative. *)
Definition nonneg_on (k : nat) (f : list R -> list R -> R) : Prop :=
  forall u v, length u = k -> length v = k -> 0 <= f u v.

(** Minkowski distance of order [n]: its n-th power is the sum of the n-th powers of the
    differences.  Order 1 is the city block distance, order 2 the Euclidean distance. *)
Definition is_minkowski (n k : nat) (u v : list R) (d : R) : Prop :=
  0 <= d /\ d ^ n = Sum k (fun t => Rabs (nth t u 0 - nth t v 0) ^ n).

(** Distances between the rows of two matrices, weights left out. *)
Definition row_metric (f : list R -> list R -> R) (p q : list (list R)) (i j : nat) : R :=
  f (tl (nth i p [])) (tl (nth j q [])).
