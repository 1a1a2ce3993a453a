(** Specification of periodic point sets and of neighbour distances, independent of
    the models. *)
From Coq Require Import List ZArith Arith Reals Sorted.
Import ListNotations.
Open Scope R_scope.

(** Euclidean distance. *)
Fixpoint sq_dist (p q : list R) : R :=
  match p, q with
  | a :: p', b :: q' => (a - b) * (a - b) + sq_dist p' q'
  | _, _ => 0
  end.
Definition edist (p q : list R) : R := sqrt (sq_dist p q).

Definition rsum (l : list R) : R := fold_right Rplus 0 l.

(** [j]-th coordinate of the combination [sum_r c_r * cell_r]. *)
Definition comb_coord (cell : list (list R)) (c : list R) (j : nat) : R :=
  rsum (map (fun r => nth r c 0 * nth j (nth r cell []) 0) (seq 0 (length cell))).

(** [j]-th coordinate of the lattice vector [sum_r l_r * cell_r]. *)
Definition lattice_coord (cell : list (list R)) (l : list Z) (j : nat) : R :=
  comb_coord cell (map IZR l) j.

(** The point of the periodic set obtained from motif point [i] by the lattice vector
    with integer coordinates [l]. *)
Definition ppoint (dims : nat) (motif cell : list (list R)) (a : list Z * nat) : list R :=
  map (fun j => nth j (nth (snd a) motif []) 0 + lattice_coord cell (fst a) j) (seq 0 dims).

(** Indices of points of the infinite periodic set. *)
Definition pindex (dims : nat) (motif : list (list R)) (a : list Z * nat) : Prop :=
  length (fst a) = dims /\ (snd a < length motif)%nat.

(** A non-empty motif and a cell of [dims] vectors, all in dimension [dims]. *)
Record pset_ok (dims : nat) (motif cell : list (list R)) : Prop := {
  ok_dims : (1 <= dims)%nat;
  ok_motif : motif <> [];
  ok_motif_len : Forall (fun p => length p = dims) motif;
  ok_cell : length cell = dims;
  ok_cell_len : Forall (fun r => length r = dims) cell
}.

(** [ds] are, in order, the distances from [p] to [n] different points of the set. *)
Definition neighbour_distances dims motif cell p n (ds : list R) (ids : list (list Z * nat)) : Prop :=
  length ids = n /\ NoDup ids /\ Forall (pindex dims motif) ids /\
  ds = map (fun a => edist p (ppoint dims motif cell a)) ids /\
  StronglySorted Rle ds.

(** ... and every other point is at least as far as all of them. *)
Definition nearest_distances dims motif cell p n (ds : list R) : Prop :=
  exists ids, neighbour_distances dims motif cell p n ds ids /\
  forall a d, pindex dims motif a -> ~ In a ids -> In d ds ->
    d <= edist p (ppoint dims motif cell a).

(** Linear independence of the cell vectors, in the form of a dual basis (the columns
    of the inverse matrix). *)
Fixpoint rdot (u v : list R) : R :=
  match u, v with
  | a :: u', b :: v' => a * b + rdot u' v'
  | _, _ => 0
  end.
Definition dual_basis (dims : nat) (cell dual : list (list R)) : Prop :=
  length dual = dims /\ Forall (fun w => length w = dims) dual /\
  forall i j, (i < dims)%nat -> (j < dims)%nat ->
    rdot (nth i cell []) (nth j dual []) = if Nat.eqb i j then 1 else 0.
Definition nonsingular (dims : nat) (cell : list (list R)) : Prop :=
  exists dual, dual_basis dims cell dual.

(** Different motif points are not lattice translates of each other. *)
Definition motif_reduced dims (motif cell : list (list R)) : Prop :=
  forall i j l, (i < length motif)%nat -> (j < length motif)%nat -> length l = dims ->
    ppoint dims motif cell (l, i) = nth j motif [] -> i = j.

(** The motif lies in the unit cell: fractional coordinates in [0, 1). *)
Definition in_cell (dims : nat) (cell : list (list R)) (p : list R) : Prop :=
  exists f, length f = dims /\ Forall (fun a => 0 <= a < 1) f /\
    p = map (comb_coord cell f) (seq 0 dims).

(** Every cell vector dominates: the inner products with the other cell vectors sum up,
    in absolute value, to at most half of its squared length. *)
Definition half_dominant (dims : nat) (cell : list (list R)) : Prop :=
  forall i, (i < dims)%nat ->
    rsum (map (fun j => if Nat.eqb j i then 0 else Rabs (rdot (nth i cell []) (nth j cell [])))
              (seq 0 dims))
    <= rdot (nth i cell []) (nth i cell []) / 2.

(** The same with another share than half. *)
Definition dominates (theta : R) (dims : nat) (cell : list (list R)) : Prop :=
  forall i, (i < dims)%nat ->
    rsum (map (fun j => if Nat.eqb j i then 0 else Rabs (rdot (nth i cell []) (nth j cell [])))
              (seq 0 dims))
    <= theta * rdot (nth i cell []) (nth i cell []).

(** The motif needs not lie in the unit cell: fractional coordinates of any two points differ by
    at most [1 + delta], where [delta] depends on how strongly the cell vectors dominate ([0] for
    half of the squared length as above, less than [1/2] for orthogonal vectors).  With [tau] a
    little is allowed even if they dominate by half only ([delta] up to [tau / 3]). *)
Definition spread_within (tau : R) (dims : nat) (cell motif : list (list R)) : Prop :=
  half_dominant dims cell /\ exists (delta : R) (frac : nat -> list R),
    0 <= delta < 1 / 2 /\ dominates ((1 - 2 * delta + tau) / (2 * (1 + delta))) dims cell /\
    (forall i, (i < length motif)%nat -> length (frac i) = dims /\
       nth i motif [] = map (comb_coord cell (frac i)) (seq 0 dims)) /\
    (forall i i' j, (i < length motif)%nat -> (i' < length motif)%nat -> (j < dims)%nat ->
       Rabs (nth j (frac i) 0 - nth j (frac i') 0) <= 1 + delta).
Definition spread : nat -> list (list R) -> list (list R) -> Prop := spread_within 0.

(** Linear map sending the [i]-th unit vector to [cols_i], and the same followed by a
    translation. When [cols] is orthonormal ([dual_basis dims cols cols]) these are the
    rotations and reflections, and the isometries of Euclidean space. *)
Definition lin_map (dims : nat) (cols : list (list R)) (p : list R) : list R :=
  map (comb_coord cols p) (seq 0 dims).
Definition rigid (dims : nat) (cols : list (list R)) (t p : list R) : list R :=
  map (fun j => comb_coord cols p j + nth j t 0) (seq 0 dims).
