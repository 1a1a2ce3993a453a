(** Specification of distances that are the nearest ones up to a bounded error, and of n-th roots. Independent of
    the models. *)
From Coq Require Import List ZArith Arith Reals Sorted.
From Verif Require Import SpecGeom.
Import ListNotations.
Open Scope R_scope.

(** [ds] are, in order, the distances from [p] to [n] different points, and no other point is nearer than any of
    them by more than [e]. For [e = 0] these are the nearest distances. *)
Definition nearest_within dims motif cell p n (e : R) (ds : list R) : Prop :=
  exists ids, neighbour_distances dims motif cell p n ds ids /\
  forall a d, pindex dims motif a -> ~ In a ids -> In d ds -> d <= edist p (ppoint dims motif cell a) + e.

(** Sum of the lengths of the cell vectors. *)
Definition edge_sum (cell : list (list R)) : R := rsum (map (fun c => sqrt (rdot c c)) cell).
(** No two points of the motif are further apart than [b]. *)
Definition motif_diameter (motif : list (list R)) (b : R) : Prop := forall p q, In p motif -> In q motif -> edist p q <= b.

(** [x] is the [n]-th root of [k]. *)
Definition is_root (n k : nat) (x : R) : Prop := 0 <= x /\ x ^ n = INR k.
