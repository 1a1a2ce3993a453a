(** Model of nearest_neighbors_minval, src/amd/_nearest_neighbors.py:541-592, and PDD_reconstructable,
    src/amd/calculate.py:344-379. Real numbers. *)
From Coq Require Import List ZArith Arith Bool Reals.
From Verif Require Import Num Base Outcome LatticeModel NNModel CalcModel UtilsModel.
Import ListNotations.
Open Scope R_scope.
Open Scope outcome_scope.

(** [np.argwhere(np.all(rows >= v, axis=0))[0][0]]; indexing an empty result raises IndexError. *)
Definition first_column (v : R) (rows : list (list R)) : outcome nat :=
  match find (fun j => forallb (fun r => Rleb v (nth j r 0)) rows) (seq 0 (length (hd [] rows))) with
  | Some j => Done j
  | None => Raise IndexError
  end.

(** [np.array_equal] of two matrices: shapes and entries. *)
Fixpoint rows_equal {A} (eq : A -> A -> bool) (a b : list A) : bool :=
  match a, b with
  | [], [] => true
  | x :: a, y :: b => eq x y && rows_equal eq a b
  | _, _ => false
  end.
Definition array_equal (a b : list (list R)) : bool := rows_equal (rows_equal (fun x y => Rleb x y && Rleb y x)) a b.

Section Minval.
  (** The indices of [KDTree(cloud).query(points, k=len(cloud))]; equal distances may come in any order. *)
  Variable kdtree : list (vec R) -> list (vec R) -> list (list nat).
  Variables (motif cell : list (vec R)) (min_val : R).

  Definition kd_query (cloud : list (vec R)) : list (list R) * list (list nat) :=
    let inds := kdtree cloud motif in
    (map2 (fun p js => map (fun j => sqrt (sqd p (nth j cloud []))) js) motif inds, inds).

  (** Lines 591-592. *)
  Definition minval_result (dists dists_ : list (list R)) (cloud : list (vec R)) (inds : list (list nat))
    : outcome (list (list R) * list (vec R) * list (list nat)) :=
    k <- first_column min_val dists ;;
    Done (map (fun r => firstn k (skipn 1 r)) dists_, cloud, inds).

  (** The loop of lines 573-589. *)
  Fixpoint minval_loop (fuel pos : nat) (max_cdist : R) (cloud : list (vec R)) (dists_ : list (list R)) (inds : list (list nat)) (dists : list (list R))
    : outcome (list (list R) * list (vec R) * list (list nat)) :=
    match fuel with
    | O => OutOfFuel
    | S fuel =>
        last <- last_col dists_ ;;
        same <- (if forallb (Rleb min_val) last then
                   c <- first_column min_val dists_ ;;
                   let col := S c in
                   Done (array_equal (map (firstn col) dists) (map (firstn col) dists_))
                 else Done false) ;;
        if same : bool then minval_result dists dists_ cloud inds
        else
          let dists := dists_ in
          layer <- gen_item (length cell) pos ;;
          let lattice := map (latvec (length cell) cell) layer in
          farthest <- maxl last ;;
          let close := filter (fun l => Rleb (sqrt (sqnorm l) - max_cdist) farthest) lattice in
          match close with
          | [] => minval_result dists dists_ cloud inds
          | _ =>
              let cloud := cloud ++ lattice_to_cloud motif close in
              let '(dists_, inds) := kd_query cloud in
              minval_loop fuel (S pos) max_cdist cloud dists_ inds dists
          end
    end.

  (** nearest_neighbors_minval(motif, cell, min_val) *)
  Definition nearest_neighbors_minval (fuel : nat) : outcome (list (list R) * list (vec R) * list (list nat)) :=
    l0 <- gen_item (length cell) 0 ;;
    l1 <- gen_item (length cell) 1 ;;
    l2 <- gen_item (length cell) 2 ;;
    let part l := lattice_to_cloud motif (map (latvec (length cell) cell) l) in
    let cloud := part l0 ++ part l1 ++ part l2 in
    let '(dists_, inds) := kd_query cloud in
    let dists := map (map (fun _ => 0)) dists_ in
    max_cdist <- maxl (concat (map (fun p => map (fun q => sqrt (sqd p q)) motif) motif)) ;;
    minval_loop fuel 3 max_cdist cloud dists_ inds dists.
End Minval.

(** PDD_reconstructable(pset, lexsort), without the type check. *)
Definition PDD_reconstructable (kdtree : list (vec R) -> list (vec R) -> list (list nat)) (fuel : nat) (motif cell : list (vec R)) (lexsort : bool)
  : outcome (list (list R)) :=
  let dims := length cell in
  if negb (existsb (Nat.eqb dims) [2; 3]%nat) then Raise ValueError
  else
    d <- diameter cell ;;
    let min_val := d * 2 in
    '(pdd, _, _) <- nearest_neighbors_minval kdtree motif cell min_val fuel ;;
    Done (if lexsort then map (fun i => nth i pdd []) (lex_ordering pdd) else pdd).
