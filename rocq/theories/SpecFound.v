(** Specification of the cases in which the points of a motif can be read off a PDD. Independent of the models. *)
From Coq Require Import List ZArith Arith Reals Sorted.
From Verif Require Import Spec SpecGeom SpecCell SpecRecon.
Import ListNotations.
Open Scope R_scope.

(** The inversion at the origin. *)
Definition invert (q : list R) : list R := map Ropp q.

(** The first distance shared by the rows. *)
Definition least_shared (prec : R) (vals row row' : list R) (d : R) : Prop :=
  shared prec vals row row' d /\ forall x, shared prec vals row row' x -> d <= x.
(** Different shared distances can be told apart. *)
Definition resolved (prec : R) (vals row row' : list R) : Prop :=
  forall x y, shared prec vals row row' x -> shared prec vals row row' y -> Rabs (x - y) < prec -> x = y.

(** [q] is at the first shared distance [d] from the origin, up to [prec], at greater shared distances, in increasing
    order, from [dims] independent vectors [bs] of [nn], and no lattice vector searched is nearer than the origin by
    more than [prec]. *)
Definition fits (dims : nat) (cell : list (list R)) (prec : R) (D : nat) (vals : list R) (nn : list (list R)) (row0 row q : list R)
  (d : R) (bs : list (list R)) : Prop :=
  length q = dims /\ least_shared prec vals row0 row d /\ Rabs (vlen q - d) < prec /\
  length bs = dims /\ incl bs nn /\ prec < volume dims bs /\
  (forall b, In b bs -> shared prec vals row0 row (edist q b)) /\ StronglySorted Rlt (d :: map (edist q) bs) /\
  forall l, below dims D l -> d - prec < edist (lat dims cell l) q.
Definition candidate dims cell prec D vals nn row0 row q : Prop := exists d bs, fits dims cell prec D vals nn row0 row q d bs.

(** In dimension 3, spheres which meet do not touch from outside, not even nearly. *)
Definition crossing (dims : nat) (prec : R) (q : list R) (d : R) (bs : list (list R)) : Prop :=
  dims = 3%nat ->
  (forall b, In b bs -> vlen b <= d + edist q b - prec) /\
  (forall b b', In b bs -> In b' bs -> b <> b' -> edist b b' <= edist q b + edist q b' - prec).
(** The rows show where [q] is: it fits some vectors, and no other point at the same distances from them does. *)
Definition locatable dims cell prec D vals nn row0 row q : Prop :=
  exists d bs, fits dims cell prec D vals nn row0 row q d bs /\ crossing dims prec q d bs /\
    forall q', length q' = dims -> (forall b, In b bs -> edist q' b = edist q b) -> Rabs (vlen q' - d) < prec -> q' = q.
(** A distance shared by the rows is that of the points, up to [prec]. *)
Definition linked (prec : R) (vals row row' q q' : list R) : Prop :=
  exists e, shared prec vals row row' e /\ Rabs (e - edist q q') < prec.

(** The rows determine the motif of the origin, [q1] and [qs], up to the inversion. *)
Record determined (dims : nat) (cell : list (list R)) (prec : R) (D : nat) (vals : list R) (nn : list (list R)) (row0 row1 : list R) (rows : list (list R))
  (q1 : list R) (qs : list (list R)) : Prop := {
  dt_resolved : resolved prec vals row0 row1;
  dt_locatable : locatable dims cell prec D vals nn row0 row1 q1;
  dt_only : forall r, candidate dims cell prec D vals nn row0 row1 r -> r = q1 \/ r = invert q1;
  dt_further : Forall2 (fun row q => resolved prec vals row0 row /\ resolved prec vals row1 row /\
    locatable dims cell prec D vals nn row0 row q /\ linked prec vals row1 row q1 q /\
    forall r, candidate dims cell prec D vals nn row0 row r -> linked prec vals row1 row q1 r -> r = q) rows qs
}.
(** [motif] is the motif of the origin, [q1] and [qs]. From three points on, the points are moved into the cell. *)
Definition recovered (dims : nat) (cell : list (list R)) (q1 : list R) (qs motif : list (list R)) : Prop :=
  (qs = [] -> motif = [repeat 0 dims; q1]) /\ (qs <> [] -> Forall2 (moved_into dims cell) (repeat 0 dims :: q1 :: qs) motif).

(** ** Crystals *)
Definition shift (dims : nat) (cell : list (list R)) (q : list R) (l : list Z) : list R := map (fun j => nth j q 0 + lattice_coord cell l j) (seq 0 dims).
(** Distance of point [i] of the motif [m] and point [j] moved by a lattice vector. *)
Definition gap (dims : nat) (cell m : list (list R)) (i j : nat) (l : list Z) : R := edist (nth i m []) (shift dims cell (nth j m []) l).
(** Row [i] has distances, at most [B], from point [i] of the motif to other points of the crystal, all those up to [rho] among them. *)
Definition has_distances (dims : nat) (cell m : list (list R)) (rho B : R) (i : nat) (row : list R) : Prop :=
  StronglySorted Rle row /\
  (forall x, In x row -> x <= B /\ exists j l, (j < length m)%nat /\ length l = dims /\ (j <> i \/ (0 < zsq l)%Z) /\ x = gap dims cell m i j l) /\
  (forall j l, (j < length m)%nat -> length l = dims -> j <> i \/ (0 < zsq l)%Z -> gap dims cell m i j l <= rho -> In (gap dims cell m i j l) row).
(** Up to [B], distances of different points are no lattice lengths and not those of another pair of points, and different distances can be told apart. *)
Record general_position (dims : nat) (cell m : list (list R)) (prec B : R) : Prop := {
  gp_pairs : forall i j l i' j' l', (i < length m)%nat -> (j < length m)%nat -> (i' < length m)%nat -> (j' < length m)%nat -> length l = dims -> length l' = dims -> i <> j ->
    gap dims cell m i j l <= B -> gap dims cell m i' j' l' <= B -> Rabs (gap dims cell m i j l - gap dims cell m i' j' l') < prec ->
    (i' = i /\ j' = j \/ i' = j /\ j' = i) /\ gap dims cell m i j l = gap dims cell m i' j' l';
  gp_lattice : forall l l', length l = dims -> length l' = dims -> vlen (lat dims cell l) <= B -> vlen (lat dims cell l') <= B ->
    Rabs (vlen (lat dims cell l) - vlen (lat dims cell l')) < prec -> vlen (lat dims cell l) = vlen (lat dims cell l')
}.
(** Lattice lengths which are not removed from the rows. *)
Definition left_over (dims : nat) (cell : list (list R)) (diam : R) (D : nat) (x : R) : Prop :=
  exists l, length l = dims /\ (0 < zsq l)%Z /\ x = vlen (lat dims cell l) /\ (diam < x \/ ~ below dims D l).
(** The distances, at most [B], which rows [i] and [j] share. *)
Definition common (dims : nat) (cell m : list (list R)) (diam B : R) (D i j : nat) (x : R) : Prop :=
  x <= B /\ ((exists l, length l = dims /\ x = gap dims cell m i j l) \/ left_over dims cell diam D x).

(** [q] is nearest to the origin among its copies, and at different distances up to [rho] from independent vectors [bs] of [nn]. *)
Record visible (dims : nat) (cell nn : list (list R)) (prec rho diam : R) (D : nat) (q : list R) : Prop := {
  vs_nearest : forall l, length l = dims -> vlen q <= edist q (lat dims cell l);
  vs_short : vlen q <= rho /\ forall x, left_over dims cell diam D x -> vlen q <= x;
  vs_basis : exists bs, length bs = dims /\ incl bs nn /\ prec < volume dims bs /\ StronglySorted Rlt (vlen q :: map (edist q) bs) /\
    (forall b, In b bs -> edist q b <= rho) /\ crossing dims prec q (vlen q) bs /\
    forall q', length q' = dims -> (forall b, In b bs -> edist q' b = edist q b) -> Rabs (vlen q' - vlen q) < prec -> q' = q
}.
(** Only [q] and its inverse are as far from the origin as [q] and at common distances from independent vectors of [nn]. *)
Definition unambiguous (dims : nat) (cell m nn : list (list R)) (prec diam B : R) (D i : nat) (q : list R) : Prop :=
  forall r bs, length r = dims -> Rabs (vlen r - vlen q) < prec -> length bs = dims -> incl bs nn -> prec < volume dims bs ->
    (forall b, In b bs -> common dims cell m diam B D 0 i (edist r b)) -> StronglySorted Rlt (vlen q :: map (edist r) bs) ->
    (forall l, below dims D l -> vlen q - prec < edist (lat dims cell l) r) -> r = q \/ r = invert q.
(** The distance from the second point tells a further point from its inverse. *)
Definition oriented (dims : nat) (cell m : list (list R)) (prec rho diam B : R) (D i : nat) (q1 q : list R) : Prop :=
  edist q1 q <= rho /\ forall x, common dims cell m diam B D 1 i x -> prec <= Rabs (x - edist q1 (invert q)).
