(** Model of the neighbour search, src/amd/_nearest_neighbors.py:26-221 and 409-435.
    Points are lists of numbers, arrays of points are lists of points. *)
From Coq Require Import List ZArith Arith Bool.
From Verif Require Import Num Base Outcome LatticeModel CacheModel MergeModel.
Import ListNotations.
Open Scope outcome_scope.

Fixpoint map2 {A B C} (f : A -> B -> C) (l1 : list A) (l2 : list B) : list C :=
  match l1, l2 with
  | a :: t1, b :: t2 => f a b :: map2 f t1 t2
  | _, _ => []
  end.

Section NN.
  Context {T : Type} `{Num T}.

  Definition vec := list T.
  Definition vadd (u v : vec) : vec := map2 nadd u v.
  Definition vscale (a : T) (v : vec) : vec := map (nmul a) v.
  Definition vzero (dims : nat) : vec := repeat n0 dims.

  (** One row of [int_lattice @ cell] (lines 65, 84, 168, 191, 620): the lattice
      vector with integer coordinates [l]; each entry is a scalar product with a column of
      the cell. *)
  Definition col_of (j : nat) (rows : list vec) : vec := map (fun row => nth j row n0) rows.
  Definition latvec (dims : nat) (cell : list vec) (l : list Z) : vec :=
    map (fun j => ndot (map nofZ l) (col_of j cell)) (seq 0 dims).

  (** [np.einsum('ij,ij->i', lattice, lattice)], lines 86, 192. *)
  Definition sqnorm (v : vec) : T := ndot v v.

  (** _cdist_sqeulcidean, lines 424-435: one entry and one row. *)
  Definition sqd (p q : vec) : T :=
    let d := map2 nsub p q in ndot d d.
  Definition sqd_row (cloud : list vec) (p : vec) : list T := map (sqd p) cloud.

  (** _lattice_to_cloud, lines 409-421. *)
  Definition lattice_to_cloud (motif lattice : list vec) : list vec :=
    flat_map (fun t => map (fun p => vadd p t) motif) lattice.

  (** [a.max()] of a flat list; numpy raises ValueError for a zero-size array. *)
  Definition nmax (a b : T) : T := if nleb a b then b else a.
  Definition maxl (l : list T) : outcome T :=
    match l with
    | [] => Raise ValueError
    | a :: t => Done (fold_left nmax t a)
    end.

  (** [partition(k - 1)], [[:, :k]] and [sort()] of one row (lines 70-72, 100-103): the
      [k] smallest entries in order.  A row of at most [k] entries is just sorted. *)
  Definition smallest (k : nat) (row : list T) : list T := firstn k (isort nleb row).

  (** [sqdists[:, -1]] *)
  Definition last_col (rows : list (list T)) : outcome (list T) :=
    omap (fun r => match rev r with [] => Raise IndexError | a :: _ => Done a end) rows.

  (** Lines 78-79, 107-108: [max_sqd] and [bound]. *)
  Definition max_bound (rows : list (list T)) (diam : T) : outcome (T * T) :=
    lc <- last_col rows ;;
    mx <- maxl lc ;;
    let b := nadd (nsqrt mx) diam in
    Done (mx, nmul b b).

  Section Search.
    Variables (motif cell x : list vec) (k dims : nat).

    (** Lines 84-86: the next layer of the lattice, pruned. *)
    Definition pruned_layer (layer : list (list Z)) (bound : T) : list vec :=
      filter (fun v => nltb (sqnorm v) bound) (map (latvec dims cell) layer).

    (** Line 94 [where_close = (sqdists_ < max_sqd).any(axis=0)]: written as a filter on
        the points of the cloud, so that [sqdists_[:, where_close]] (line 99) is the
        distance matrix to the filtered cloud. *)
    Definition close_points (cloud : list vec) (max_sqd : T) : list vec :=
      filter (fun c => existsb (fun p => nltb (sqd p c) max_sqd) x) cloud.

    (** The [while True] loop, lines 81-108.  [pos]: position of the iterator. *)
    Fixpoint nn_loop (fuel pos : nat) (sqdists : list (list T)) (diam max_sqd bound : T)
      : outcome (list (list T)) :=
      match fuel with
      | O => OutOfFuel
      | S fuel' =>
          layer <- gen_item dims pos ;;
          let lattice := pruned_layer layer bound in
          match lattice with
          | [] => Done sqdists
          | _ =>
              let cloud := lattice_to_cloud motif lattice in
              let close := close_points cloud max_sqd in
              match close with
              | [] => Done sqdists
              | _ =>
                  let sqdists_ := map (fun p => smallest k (sqd_row close p)) x in
                  sqdists' <- merge_sorted_arrays sqdists sqdists_ ;;
                  '(max_sqd', bound') <- max_bound sqdists' diam ;;
                  nn_loop fuel' (S pos) sqdists' diam max_sqd' bound'
              end
          end
      end.

    (** Lines 61-108, before the square root of line 110. *)
    Definition nn_sq (fuel : nat) : outcome (list (list T)) :=
      let m := length motif in
      '(int_lattice, pos) <- fresh_request dims m k ;;
      let cloud := lattice_to_cloud motif (map (latvec dims cell) int_lattice) in
      let sqdists := map (sqd_row cloud) x in
      mx <- maxl (concat (map (firstn m) sqdists)) ;;
      let diam := nsqrt mx in
      let sqdists := map (smallest k) sqdists in
      '(max_sqd, bound) <- max_bound sqdists diam ;;
      nn_loop fuel pos sqdists diam max_sqd bound.
  End Search.

  (** nearest_neighbors(motif, cell, x, k), lines 26-110; [fuel] bounds the number of
      iterations of the loop.  The request for lattice batches is answered as in a fresh
      process, which is what the caches do (C02). *)
  Definition nearest_neighbors (fuel : nat) (motif cell x : list vec) (k : nat)
    : outcome (list (list T)) :=
    let dims := length (hd [] motif) in
    rows <- nn_sq motif cell x k dims fuel ;;
    Done (map (map nsqrt) rows).
End NN.
Arguments vec T : clear implicits.
Arguments latvec : simpl never.
Arguments sqd : simpl never.
Arguments sqnorm : simpl never.
