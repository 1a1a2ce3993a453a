(** Model of src/amd/periodicset.py:110-182. Real numbers; [np.mod(_, 1)] is the fractional
    part; [np.linalg.inv] is a parameter. The number of columns of an array without rows is
    left out. *)
From Coq Require Import List ZArith Reals Arith Bool.
From Verif Require Import Num Base Outcome NNModel UtilsModel.
Import ListNotations.
Open Scope R_scope.

Definition shape (m : list (list R)) : nat * nat := (length m, match m with [] => 0%nat | r :: _ => length r end).
Definition shape_eqb (s t : nat * nat) : bool := ((fst s =? fst t) && (snd s =? snd t))%nat.
(** [np.allclose(a, b)]: |a - b| <= atol + rtol * |b| with the defaults *)
Definition isclose (a b : R) : bool := Rleb (Rabs (a - b)) (/ 10 ^ 8 + / 10 ^ 5 * Rabs b).
Definition allclose (a b : list (list R)) : bool :=
  forallb (fun r => forallb (fun x => x) r) (map2 (map2 isclose) a b).

Definition column (m : list (list R)) (j : nat) : list R := map (fun r => nth j r 0) m.
(** a row of [a @ m] *)
Definition row_times (r : list R) (m : list (list R)) : list R := map (fun j => dot_rows r (column m j)) (seq 0 (snd (shape m))).
Definition smallest_of (x : R) (l : list R) : R := fold_left Rmin l x.
(** [np.amin] and [np.amax] along an axis which is not empty *)
Definition amin (l : list R) : R := match l with [] => 0 | x :: t => smallest_of x t end.
Definition amax (l : list R) : R := match l with [] => 0 | x :: t => greatest x t end.
(** Lines 126-128: an entry of [diffs] *)
Definition diff (f2 f1 : list R) : R :=
  amax (map2 (fun a b => let d1 := Rabs (a - b) in let d2 := Rabs (d1 - 1) in Rmin d1 d2) f2 f1).

Definition equal_cell_and_motif (inv : list (list R) -> outcome (list (list R)))
  (motif1 cell1 motif2 cell2 : list (list R)) : outcome bool :=
  let tol := / 10 ^ 8 in
  if (negb (shape_eqb (shape cell1) (shape cell2)) || negb (shape_eqb (shape motif1) (shape motif2)) || negb (allclose cell1 cell2))%bool
  then Done false
  else
    obind (inv cell1) (fun cell_inv =>
      let fm1 := map (fun p => map frac_part (row_times p cell_inv)) motif1 in
      let fm2 := map (fun p => map frac_part (row_times p cell_inv)) motif2 in
      let diffs := map (fun f2 => map (fun f1 => diff f2 f1) fm1) fm2 in
      let mins0 := map (fun j => amin (column diffs j)) (seq 0 (length fm1)) in
      let mins1 := map amin diffs in
      if negb (forallb (fun b => b) (map2 (fun a b => (Rleb a tol || Rleb b tol)%bool) mins0 mins1)) then Done false else Done true).

(** [PeriodicSet.cubic], lines 136-139: motif and cell *)
Definition cubic (scale : R) (dims : nat) : list (list R) * list (list R) :=
  ([repeat 0 dims], map (fun i => map (fun j => (if (i =? j)%nat then 1 else 0) * scale) (seq 0 dims)) (seq 0 dims)).

(** [PeriodicSet.hexagonal], lines 141-157 *)
Definition hexagonal (scale : R) (dims : nat) : outcome (list (list R) * list (list R)) :=
  obind (match dims with
         | 3%nat => cellpar_to_cell [scale; scale; scale; 90; 90; 120]
         | 2%nat => cellpar_to_cell_2D [scale; scale; 60]
         | _ => Raise NotImplementedError
         end)
    (fun cell => Done ([repeat 0 dims], cell)).

(** [PeriodicSet._random], lines 159-182. [draw] are the draws for the cell and [draw2] those
    for the motif, row by row. *)
Definition random_set (fuel : nat) (draw draw2 : nat -> R) (n_points : nat) (ll lu al au : R) (dims : nat)
  : outcome (list (list R) * list (list R)) :=
  if negb ((dims =? 2) || (dims =? 3))%nat then Raise NotImplementedError
  else
    obind (random_cell fuel draw ll lu al au dims) (fun cell =>
      let frac_motif := map (fun i => map (fun j => draw2 (i * dims + j)%nat) (seq 0 dims)) (seq 0 n_points) in
      Done (map (fun f => row_times f cell) frac_motif, cell)).
