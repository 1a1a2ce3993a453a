(** Specification for the reconstruction of a motif. Independent of the models. *)
From Coq Require Import List ZArith Arith Reals Sorted.
From Verif Require Import Spec SpecGeom SpecCell.
Import ListNotations.
Open Scope R_scope.

(** [p3] is on the line through [p1] and [p2]. *)
Definition on_line (p1 p2 p3 : list R) : Prop :=
  exists t, forall k, nth k p3 0 = nth k p1 0 + t * (nth k p2 0 - nth k p1 0).

(** [res] are the values of [arr] at the positions with [P], in order. *)
Definition kept (P : nat -> Prop) (arr res : list R) : Prop :=
  exists ps, StronglySorted lt ps /\ (forall k, In k ps <-> (k < length arr)%nat /\ P k) /\ res = map (fun k => nth k arr 0) ps.

(** The number of values of [l] closer to [x] than [prec]. *)
Fixpoint matches (prec x : R) (l : list R) : nat :=
  match l with
  | [] => 0%nat
  | y :: l => if Rlt_dec (Rabs (x - y)) prec then S (matches prec x l) else matches prec x l
  end.

(** The lattice vector with integer coordinates [l]. *)
Definition lat (dims : nat) (cell : list (list R)) (l : list Z) : list R := map (lattice_coord cell l) (seq 0 dims).
(** Integer vectors, not zero, of length less than [D]: shells 1 to [D - 1]. *)
Definition below (dims D : nat) (l : list Z) : Prop :=
  length l = dims /\ (0 < zsq l <= (Z.of_nat D - 1) * (Z.of_nat D - 1))%Z.
(** Shell [D] is the first one without a lattice vector of length at most [diam]. *)
Record first_empty_shell (dims : nat) (cell : list (list R)) (diam : R) (D : nat) : Prop := {
  fe_pos : (2 <= D)%nat;
  fe_before : forall d, (1 <= d < D)%nat -> exists l, in_shell dims d l /\ vlen (lat dims cell l) <= diam;
  fe_empty : forall l, in_shell dims D l -> diam < vlen (lat dims cell l)
}.
(** [vals] are the lengths up to [diam] of lattice vectors in shells before [D], the first of each cluster. *)
Definition lattice_lengths (dims : nat) (cell : list (list R)) (diam prec : R) (D : nat) (vals : list R) : Prop :=
  exists lens, (forall x, In x lens <-> x <= diam /\ exists l, below dims D l /\ vlen (lat dims cell l) = x) /\
    kept (fun k => forall i, (i < k)%nat -> prec <= Rabs (nth i lens 0 - nth k lens 0)) lens vals.

(** [d] is in the first row and, up to [prec], in the second one, and it is no lattice length. *)
Definition shared (prec : R) (vals row row' : list R) (d : R) : Prop :=
  In d row /\ (forall x, In x vals -> prec <= Rabs (d - x)) /\
  exists e, In e row' /\ (forall x, In x vals -> prec <= Rabs (e - x)) /\ Rabs (d - e) < prec.
Definition apart (prec : R) : list R -> Prop := ForallOrdPairs (fun a b => prec <= Rabs (a - b)).
Definition volume (dims : nat) (m : list (list R)) : R := Rabs (if (dims =? 2)%nat then det2 m else det3 m).

(** Evidence for [q] as the point of [row] when the origin is the point of [row0]: its distances from the origin (up to
    [prec]) and from [dims] independent lattice vectors are shared by the rows, and no lattice vector searched is nearer
    than the origin by more than [prec]. *)
Definition placed (dims : nat) (cell : list (list R)) (prec : R) (D : nat) (vals row0 row q : list R) : Prop :=
  length q = dims /\
  exists d bs, shared prec vals row0 row d /\ Rabs (vlen q - d) < prec /\
    length bs = dims /\ (forall b, In b bs -> exists l, length l = dims /\ b = lat dims cell l) /\ prec < volume dims bs /\
    (forall b, In b bs -> shared prec vals row0 row (edist q b)) /\
    apart prec (d :: map (edist q) bs) /\
    forall l, below dims D l -> d - prec < edist (lat dims cell l) q.

(** [p] is [q] moved into the cell by a lattice vector. *)
Definition moved_into (dims : nat) (cell : list (list R)) (q p : list R) : Prop :=
  in_cell dims cell p /\ exists l, length l = dims /\ p = map (fun j => nth j q 0 + lattice_coord cell l j) (seq 0 dims).
