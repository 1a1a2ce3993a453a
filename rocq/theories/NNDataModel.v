(** Model of nearest_neighbors_data, src/amd/_nearest_neighbors.py:113-221. *)
From Coq Require Import List ZArith Arith Bool.
From Verif Require Import Num Base Outcome LatticeModel CacheModel MergeModel NNModel.
Import ListNotations.
Open Scope outcome_scope.

(** [np.take_along_axis] for one row. *)
Definition gather {A} (l : list A) (is : list nat) : outcome (list A) :=
  omap (fun i => match nth_error l i with Some a => Done a | None => Raise IndexError end) is.

Section Data.
  Context {T : Type} `{Num T}.
  (** [np.argpartition(row, kth)] and [np.argsort(row)]; both may order equal entries in any way. *)
  Variables (argpartition : list T -> nat -> list nat) (argsort : list T -> list nat).

  (** Lines 174-178 (with [kth = k - 1]) and 204-209 for one row; argpartition raises when kth is out of bounds. *)
  Definition k_nearest (k kth : nat) (row : list T) : outcome (list T * list nat) :=
    if (length row <=? kth)%nat then Raise ValueError
    else
      let part_inds := firstn k (argpartition row kth) in
      part_sqdists <- gather row part_inds ;;
      let part_sqdists := firstn k part_sqdists in
      let part_sort_inds := argsort part_sqdists in
      inds <- gather part_inds part_sort_inds ;;
      sqdists <- gather part_sqdists part_sort_inds ;;
      Done (sqdists, inds).

  (** _merge_sorted_arrays_inds, lines 483-538: all rows. *)
  Definition merge_sorted_arrays_inds (dists dists_ : list (list T)) (inds inds_ : list (list nat))
    : outcome (list (list T) * list (list nat)) :=
    r <- omap (fun q => merge_row_inds (fst (fst q)) (snd (fst q)) (fst (snd q)) (snd (snd q)))
              (combine (combine dists dists_) (combine inds inds_)) ;;
    Done (map fst r, map snd r).

  Section Search.
    Variables (motif cell x : list (vec T)) (k dims : nat).

    (** The loop of lines 187-219; [full] is [np.concatenate(full_cloud)], [offset] is cloud_ind_offset. *)
    Fixpoint data_loop (fuel pos : nat) (full : list (vec T)) (offset : nat) (sqdists : list (list T)) (inds : list (list nat))
        (diam max_sqd bound : T) : outcome (list (list T) * list (vec T) * list (list nat)) :=
      match fuel with
      | O => OutOfFuel
      | S fuel' =>
          layer <- gen_item dims pos ;;
          let lattice := pruned_layer cell dims layer bound in
          match lattice with
          | [] => Done (sqdists, full, inds)
          | _ =>
              let cloud := lattice_to_cloud motif lattice in
              let full := full ++ cloud in
              let sqdists_ := map (sqd_row cloud) x in
              if negb (existsb (existsb (fun d => nltb d max_sqd)) sqdists_) then Done (sqdists, full, inds)
              else
                let upto := Nat.min (k - 1) (length cloud - 1) in
                new <- omap (k_nearest k upto) sqdists_ ;;
                let inds_ := map (map (fun j => j + offset)%nat) (map snd new) in
                '(sqdists', inds') <- merge_sorted_arrays_inds sqdists (map fst new) inds inds_ ;;
                '(max_sqd', bound') <- max_bound sqdists' diam ;;
                data_loop fuel' (S pos) full (offset + length cloud) sqdists' inds' diam max_sqd' bound'
          end
      end.

    (** Lines 161-219. *)
    Definition data_sq (fuel : nat) : outcome (list (list T) * list (vec T) * list (list nat)) :=
      let m := length motif in
      '(int_lattice, pos) <- fresh_request dims m k ;;
      let cloud := lattice_to_cloud motif (map (latvec dims cell) int_lattice) in
      let sqdists := map (sqd_row cloud) x in
      mx <- maxl (concat (map (firstn m) sqdists)) ;;
      let diam := nsqrt mx in
      near <- omap (k_nearest k (k - 1)) sqdists ;;
      '(max_sqd, bound) <- max_bound (map fst near) diam ;;
      data_loop fuel pos cloud (length cloud) (map fst near) (map snd near) diam max_sqd bound.
  End Search.

  (** nearest_neighbors_data(motif, cell, x, k), lines 113-221: distances, cloud, indices. *)
  Definition nearest_neighbors_data (fuel : nat) (motif cell x : list (vec T)) (k : nat)
    : outcome (list (list T) * list (vec T) * list (list nat)) :=
    let dims := length (hd [] motif) in
    '(rows, cloud, inds) <- data_sq motif cell x k dims fuel ;;
    Done (map (map nsqrt) rows, cloud, inds).
End Data.
