(** Specification of comparisons: distance matrices, nearest neighbours and the library
    functions which are parameters of CompareModel.v. *)
From Coq Require Import List Arith Reals Sorting.Sorted Permutation.
From Verif Require Import SpecEmd.
Import ListNotations.
Open Scope R_scope.

(** A matrix with [n] rows and [m] columns. *)
Definition has_shape {A} (n m : nat) (M : list (list A)) : Prop :=
  length M = n /\ Forall (fun r => length r = m) M.

(** Position of the pair i < j among the pairs of m items: all pairs with a smaller first
    index and those with first index i and a smaller second index come before it. *)
Definition before (m i j : nat) : nat := (i * (2 * m - i - 1) / 2 + (j - i - 1))%nat.

(** [inds] are [n] of the items 0..m-1 allowed by [ok], nearest first, and [ds] are their
    distances; items left out are not nearer. *)
Record nearest_of (m : nat) (ok : nat -> Prop) (dist : nat -> R) (n : nat)
  (inds : list nat) (ds : list R) : Prop := {
  no_count : length inds = n;
  no_dist : ds = map dist inds;
  no_distinct : NoDup inds;
  no_valid : Forall (fun j => (j < m)%nat /\ ok j) inds;
  no_sorted : StronglySorted Rle ds;
  no_rest : forall j, (j < m)%nat -> ok j -> ~ In j inds -> Forall (fun d => d <= dist j) ds
}.

(** * Documented behaviour of library functions *)

(** numpy.argpartition(row, kth): an ordering of the positions in which the entries before
    position [kth] are not greater, and those after it not smaller, than the one at [kth]. *)
Definition argpartition_ok (f : list R -> nat -> list nat) : Prop :=
  forall row kth, (kth < length row)%nat ->
    Permutation (f row kth) (seq 0 (length row)) /\
    (forall a, (a < kth)%nat ->
       nth (nth a (f row kth) 0%nat) row 0 <= nth (nth kth (f row kth) 0%nat) row 0) /\
    (forall b, (kth < b < length row)%nat ->
       nth (nth kth (f row kth) 0%nat) row 0 <= nth (nth b (f row kth) 0%nat) row 0).

(** numpy.argsort(row), without a promise about equal entries. *)
Definition argsort_ok (f : list R -> list nat) : Prop :=
  forall row, Permutation (f row) (seq 0 (length row)) /\
    StronglySorted Rle (map (fun i => nth i row 0) (f row)).

(** NearestNeighbors(n).fit(XB).kneighbors(XA) for 1 <= n <= len(XB): for every row of XA its
    [n] nearest rows of XB, nearest first; equally near rows in any order. *)
Definition kneighbors_ok (dist : list R -> list R -> R)
  (f : nat -> list (list R) -> list (list R) -> list (list (R * nat))) : Prop :=
  forall n XB XA, (1 <= n <= length XB)%nat ->
    length (f n XB XA) = length XA /\
    forall i, (i < length XA)%nat ->
      nearest_of (length XB) (fun _ => True) (fun j => dist (nth i XA []) (nth j XB [])) n
        (map snd (nth i (f n XB XA) [])) (map fst (nth i (f n XB XA) [])).
