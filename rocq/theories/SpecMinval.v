(** Specification for PDD_reconstructable. Independent of the models. *)
From Coq Require Import List ZArith Arith Reals Sorted Permutation.
From Verif Require Import Spec SpecGeom SpecData.
Import ListNotations.
Open Scope R_scope.

(** What a KD-tree promises when asked for all points of the cloud, for every point of [pts]: their indices, by distance. *)
Definition kd_contract (kdtree : list (list R) -> list (list R) -> list (list nat)) : Prop :=
  forall cloud pts, length (kdtree cloud pts) = length pts /\
  forall i, (i < length pts)%nat -> let js := nth i (kdtree cloud pts) [] in
    Permutation (seq 0 (length cloud)) js /\ StronglySorted Rle (map (fun j => edist (nth i pts []) (nth j cloud [])) js).

(** [ds] are all distances from [p] to the points of the cloud, in order. *)
Definition sorted_distances (cloud : list (list R)) (p : list R) (ds : list R) : Prop :=
  Permutation (map (edist p) cloud) ds /\ StronglySorted Rle ds.

(** Row [i] lists the distances from motif point [i] to its [k] nearest points of the cloud, itself left out; [k] is the
    least number for which all last entries are at least [v]. *)
Record reaches (motif cloud : list (list R)) (v : R) (k : nat) (rows : list (list R)) : Prop := {
  re_rows : length rows = length motif;
  re_cols : (1 <= k < length cloud)%nat;
  re_row : forall i, (i < length motif)%nat -> exists ds, sorted_distances cloud (nth i motif []) (0 :: ds) /\ nth i rows [] = firstn k ds;
  re_last : forall i, (i < length motif)%nat -> v <= nth (k - 1) (nth i rows []) 0;
  re_least : forall j, (j < k - 1)%nat -> exists i, (i < length motif)%nat /\ nth j (nth i rows []) 0 < v
}.

(** A motif point which has all points of the cloud closer than [v]. *)
Definition out_of_reach (motif cloud : list (list R)) (v : R) : Prop :=
  exists p, In p motif /\ forall q, In q cloud -> edist p q < v.

(** The cloud has all translates by lattice vectors with integer coordinates of length up to 2. *)
Definition first_shells (dims : nat) (motif cell cloud : list (list R)) : Prop :=
  forall a, pindex dims motif a -> (zsq (fst a) <= 4)%Z -> In (ppoint dims motif cell a) cloud.
(** Every point of the set which is closer to a motif point than [v] is in the cloud. *)
Definition has_all_below (dims : nat) (motif cell cloud : list (list R)) (v : R) : Prop :=
  exists ids, cloud = map (ppoint dims motif cell) ids /\
    forall a p, pindex dims motif a -> In p motif -> edist p (ppoint dims motif cell a) < v -> In a ids.
