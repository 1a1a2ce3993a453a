(** Specification of transport plans, of the Earth mover's distance and of the tables of a
    spanning tree, independent of the model of _emd.py. *)
From Coq Require Import List ZArith Reals.
From Verif Require Import Sums.
Import ListNotations.
Open Scope R_scope.

(** * Transport plans between [n1] and [n2] points *)
Section Plans.
  Variables n1 n2 : nat.

  Definition row_total (Y : nat -> nat -> R) (i : nat) : R := Sum n2 (fun j => Y i j).
  Definition col_total (Y : nat -> nat -> R) (j : nat) : R := Sum n1 (fun i => Y i j).
  Definition mass (Y : nat -> nat -> R) : R := Sum n1 (fun i => Sum n2 (fun j => Y i j)).
  Definition transport_cost (c Y : nat -> nat -> R) : R := Sum n1 (fun i => Sum n2 (fun j => c i j * Y i j)).

  Definition nonneg (Y : nat -> nat -> R) : Prop := forall i j, (i < n1)%nat -> (j < n2)%nat -> 0 <= Y i j.
  Definition below_cap (U Y : nat -> nat -> R) : Prop := forall i j, (i < n1)%nat -> (j < n2)%nat -> Y i j <= U i j.

  (** A plan moving the weights [a] to the weights [b]. *)
  Definition coupling (a b : nat -> R) (Y : nat -> nat -> R) : Prop :=
    nonneg Y /\ (forall i, (i < n1)%nat -> row_total Y i = a i) /\ (forall j, (j < n2)%nat -> col_total Y j = b j).

  (** [v] is within [eps] of the least cost of such plans. *)
  Definition emd_within (a b : nat -> R) (c : nat -> nat -> R) (eps v : R) : Prop :=
    (forall Y, coupling a b Y -> v <= transport_cost c Y + eps) /\
    (exists Y, coupling a b Y /\ transport_cost c Y <= v + eps).
End Plans.

(** Entry of a matrix given as a list of rows. *)
Definition mx (M : list (list R)) (i j : nat) : R := nth j (nth i M []) 0.
Definition vx (v : list R) (i : nat) : R := nth i v 0.

(** Chebyshev distance of two vectors with [k] coordinates. *)
Definition is_chebyshev (k : nat) (u v : list R) (d : R) : Prop :=
  (forall t, (t < k)%nat -> Rabs (nth t u 0 - nth t v 0) <= d) /\
  (d = 0 \/ exists t, (t < k)%nat /\ d = Rabs (nth t u 0 - nth t v 0)).

(** A distance matrix with weights in its first column: positive weights of sum 1 and [k]
    further columns. *)
Record pdd_like (k : nat) (p : list (list R)) : Prop := {
  pl_rows : p <> [];
  pl_cols : Forall (fun r => length r = S k) p;
  pl_weight : Forall (fun r => 1 / 100000000 <= nth 0 r 0) p;
  pl_total : Sum (length p) (fun i => mx p i 0) = 1
}.

(** Weights and costs as given to the solver. *)
Record weights (w : list R) : Prop := {
  w_ne : w <> [];
  w_min : Forall (fun x => 1 / 100000000 <= x) w;
  w_sum : Sum (length w) (vx w) = 1
}.

Record cost_matrix (n1 n2 : nat) (c : list (list R)) : Prop := {
  cm_rows : length c = n1;
  cm_cols : Forall (fun r => length r = n2) c;
  cm_pos : forall i j, (i < n1)%nat -> (j < n2)%nat -> 0 <= mx c i j
}.

(** Distances between the rows of two such matrices, weights left out. *)
Definition row_distance (k : nat) (p q : list (list R)) (d : nat -> nat -> R) : Prop :=
  forall i j, (i < length p)%nat -> (j < length q)%nat -> is_chebyshev k (tl (nth i p [])) (tl (nth j q [])) (d i j).

(** Rounding down to 8 decimals. *)
Definition round8 (x : R) : R := IZR (Int_part (x * 100000000)) / 100000000.

(** Weighted mean of distance column [j]. *)
Definition row_mean (p : list (list R)) (j : nat) : R := Sum (length p) (fun i => mx p i 0 * mx p i (S j)).

(** How far 8 decimals take the result from the exact distance. *)
Definition accuracy (n1 n2 : nat) (dmax : R) : R := (1 + 5 * INR (Nat.max n1 n2) * dmax) / 100000000.

(** * Spanning trees and their tables *)
Open Scope Z_scope.

(** [l[v]] where index -1 is the last entry. *)
Definition tab (l : list Z) (v : Z) : Z := nth (Z.to_nat (if v <? 0 then v + Z.of_nat (length l) else v)) l 0.

(** [u] is [v] or below it. *)
Inductive below (par : Z -> Z) (v : Z) : Z -> Prop :=
| below_refl : below par v v
| below_step : forall u, u <> -1 -> below par v (par u) -> below par v u.

(** The nodes [-1 .. n-1] form a tree with root -1 given by its parents; [order] lists each
    node followed by the nodes below it; [next] and [prev] are the neighbours in this order
    (cyclically); [size] counts the nodes below a node and [last] is the last of them;
    [edge v] joins [v] to its parent. *)
Record tree_tables (n : Z) (joins : Z -> Z -> Z -> Prop) (parent size next prev last edge : Z -> Z) (order : list Z)
  : Prop := {
  tt_nodup : NoDup order;
  tt_nodes : forall v, In v order <-> -1 <= v < n;
  tt_root : nth 0 order 0 = -1;
  tt_root_parent : parent (-1) = -2;
  tt_connected : forall v, -1 <= v < n -> below parent (-1) v;
  tt_next : forall k, (k < length order)%nat -> next (nth k order 0) = nth ((k + 1) mod length order) order 0;
  tt_prev : forall k, (k < length order)%nat -> prev (nth ((k + 1) mod length order) order 0) = nth k order 0;
  tt_below : forall k l, (k < length order)%nat -> (l < length order)%nat ->
    (below parent (nth k order 0) (nth l order 0) <-> Z.of_nat k <= Z.of_nat l < Z.of_nat k + size (nth k order 0));
  tt_last : forall k, (k < length order)%nat -> exists l, (l < length order)%nat /\
    Z.of_nat l = Z.of_nat k + size (nth k order 0) - 1 /\ last (nth k order 0) = nth l order 0;
  tt_edge : forall v, 0 <= v < n -> joins (edge v) v (parent v)
}.

(** The edges of the network: [i * n2 + j] joins source [i] to sink [j] (node [n1 + j]), and
    [n1 * n2 + v] joins node [v] to the root. *)
Definition edge_joins (n1 n2 : nat) (a u v : Z) : Prop :=
  (exists i j, (i < n1)%nat /\ (j < n2)%nat /\ a = Z.of_nat (i * n2 + j) /\
    (u = Z.of_nat i /\ v = Z.of_nat (n1 + j) \/ v = Z.of_nat i /\ u = Z.of_nat (n1 + j))) \/
  (exists w, (w < n1 + n2)%nat /\ a = Z.of_nat (n1 * n2 + w) /\
    (u = Z.of_nat w /\ v = -1 \/ v = Z.of_nat w /\ u = -1)).

(** A flow [f]: [f (i * n2 + j)] goes from source [i] to sink [j]; the last [n1 + n2] entries
    are what goes from the sources to the root and from the root to the sinks. *)
Record flow_ok (n1 n2 : nat) (src snk cap : nat -> Z) (total : Z) (f : nat -> Z) : Prop := {
  fl_edge : forall k, (k < n1 * n2)%nat -> 0 <= f k <= cap k;
  fl_art : forall w, (w < n1 + n2)%nat -> 0 <= f (n1 * n2 + w)%nat <= total;
  fl_src : forall i, (i < n1)%nat -> ZSum n2 (fun j => f (i * n2 + j)%nat) + f (n1 * n2 + i)%nat = src i;
  fl_snk : forall j, (j < n2)%nat -> ZSum n1 (fun i => f (i * n2 + j)%nat) + f (n1 * n2 + (n1 + j))%nat = snk j
}.
