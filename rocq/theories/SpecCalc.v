(** Specification vocabulary for averages and distributions, independent of the
    models. *)
From Coq Require Import List ZArith Arith Reals Sorted Permutation.
From Verif Require Import SpecGeom.
Import ListNotations.
Open Scope R_scope.

(** Weighted mean of column [j]. *)
Definition wmean (ws : list R) (rows : list (list R)) (j : nat) : R :=
  rsum (map (fun p => fst p * nth j (snd p) 0) (combine ws rows)) / rsum ws.

(** Plain mean of column [j]. *)
Definition mean (rows : list (list R)) (j : nat) : R :=
  rsum (map (fun r => nth j r 0) rows) / INR (length rows).

(** Strict and non-strict lexicographic order, first column most significant. *)
Definition lex_lt (u v : list R) : Prop :=
  exists j, (j < length u)%nat /\ (forall i, (i < j)%nat -> nth i u 0 = nth i v 0) /\
    nth j u 0 < nth j v 0.
Definition lex_le (u v : list R) : Prop := u = v \/ lex_lt u v.

(** Two rows agree up to [tol] in every column. *)
Definition close_rows (tol : R) (u v : list R) : Prop :=
  forall j, (j < length u)%nat -> Rabs (nth j u 0 - nth j v 0) <= tol.

(** A distribution: positive weights with sum 1 on non-negative non-decreasing rows
    of [k] distances. *)
Definition is_distribution (k : nat) (pdd : list (R * list R)) : Prop :=
  Forall (fun p => 0 < fst p /\ length (snd p) = k /\ Forall (fun d => 0 <= d) (snd p) /\
                   StronglySorted Rle (snd p)) pdd /\
  rsum (map fst pdd) = 1.

(** Points [i] and [j] of the motif see the same distances: there is a bijection of the
    points of the periodic set that carries the distances from [i] to those from [j]. Every
    symmetry of the set that maps point [i] to a translate of point [j] gives one
    (Props_Geo.v). *)
Definition same_surroundings dims (motif cell : list (list R)) (i j : nat) : Prop :=
  exists f g : list Z * nat -> list Z * nat,
    (forall a, pindex dims motif a -> pindex dims motif (f a) /\ g (f a) = a) /\
    (forall a, pindex dims motif a -> pindex dims motif (g a) /\ f (g a) = a) /\
    (forall a, pindex dims motif a ->
       edist (nth i motif []) (ppoint dims motif cell a) =
       edist (nth j motif []) (ppoint dims motif cell (f a))).

(** Distances from point [i] to the other points of a finite set. *)
Definition distances_to_others (pts : list (list R)) (i : nat) : list R :=
  map (fun j => edist (nth i pts []) (nth j pts []))
      (filter (fun j => negb (Nat.eqb j i)) (seq 0 (length pts))).
