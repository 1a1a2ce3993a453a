(** Specification for nearest_neighbors_data: what numpy promises of argpartition and argsort, and what the returned
    cloud and indices must satisfy. Independent of the models. *)
From Coq Require Import List ZArith Arith Reals Sorted Permutation.
From Verif Require Import SpecGeom.
Import ListNotations.
Open Scope R_scope.

(** The entry at position [kth] is in its sorted position: the ones before are not larger, the ones after not smaller. *)
Definition partitions (argpartition : list R -> nat -> list nat) : Prop :=
  forall row kth, (kth < length row)%nat -> let p := argpartition row kth in
    Permutation (seq 0 (length row)) p /\
    forall i j, (i <= kth <= j)%nat -> (j < length row)%nat -> nth (nth i p 0%nat) row 0 <= nth (nth j p 0%nat) row 0.
Definition sorts (argsort : list R -> list nat) : Prop :=
  forall row, Permutation (seq 0 (length row)) (argsort row) /\ StronglySorted Rle (map (fun i => nth i row 0) (argsort row)).

(** [cloud] lists different points of the periodic set, the [i]-th a translate of motif point [i mod m]. *)
Definition is_cloud (dims : nat) (motif cell cloud : list (list R)) : Prop :=
  exists ids, cloud = map (ppoint dims motif cell) ids /\ NoDup ids /\ Forall (pindex dims motif) ids /\
    forall i, (i < length ids)%nat -> snd (nth i ids ([], 0%nat)) = (i mod length motif)%nat.
(** [js] are different positions in the cloud of points at distances [ds] from [p]. *)
Definition indexes (cloud : list (list R)) (p : list R) (ds : list R) (js : list nat) : Prop :=
  NoDup js /\ Forall (fun j => (j < length cloud)%nat) js /\ ds = map (fun j => edist p (nth j cloud [])) js.
