(** Model of src/amd/utils.py. Real numbers; the functions of numpy are those of the
    standard library's real numbers. *)
From Coq Require Import List ZArith Reals Arith Bool.
From Verif Require Import Num Base Outcome NNModel.
Import ListNotations.
Open Scope R_scope.

Definition rows_add (u v : list R) : list R := map2 Rplus u v.
Definition rows_sub (u v : list R) : list R := map2 Rminus u v.
Definition squares (u : list R) : list R := map (fun x => x * x) u.
Definition total (u : list R) : R := fold_left Rplus u 0.
Definition greatest (x : R) (l : list R) : R := fold_left Rmax l x.

(** [diameter], lines 22-54. *)
Definition diameter (cell : list (list R)) : outcome R :=
  match cell with
  | [c0] => getZ c0 0
  | [c0; c1] =>
      let sums := map (fun d => total (squares d)) [rows_sub c0 c1] in
      Done (sqrt (greatest (total (squares (rows_add c0 c1))) sums))
  | [c0; c1; c2] =>
      let sums := map (fun d => total (squares d))
        [rows_sub (rows_add c0 c1) c2; rows_add (rows_sub c0 c1) c2; rows_add (rows_add (map Ropp c0) c1) c2] in
      Done (sqrt (greatest (total (squares (rows_add (rows_add c0 c1) c2))) sums))
  | _ => Raise ValueError
  end.

Definition deg2rad (x : R) : R := x * PI / 180.
Definition rad2deg (x : R) : R := x * 180 / PI.

(** [2 * np.spacing(90)], line 77: 90 lies between 2^6 and 2^7. *)
Definition eps : R := 2 * / 2 ^ 46.
(** line 79-81 *)
Definition cos_deg (x : R) : R := if Rltb (Rabs (Rabs x - 90)) eps then 0 else cos (deg2rad x).
(** lines 83-88 *)
Definition sin_deg (x : R) : R :=
  if Rltb (Rabs (x - 90)) eps then 1
  else if Rltb (Rabs (x + 90)) eps then -1
  else sin (deg2rad x).

(** [cellpar_to_cell], lines 58-102. A sine which is 0 makes the division an error or an
    infinity; such angles are left out of the theorems. *)
Definition cellpar_to_cell (cellpar : list R) : outcome (list (list R)) :=
  match cellpar with
  | [a; b; c; al; be; ga] =>
      let cos_alpha := cos_deg al in
      let cos_beta := cos_deg be in
      let cos_gamma := cos_deg ga in
      let sin_gamma := sin_deg ga in
      let cy := (cos_alpha - cos_beta * cos_gamma) / sin_gamma in
      let cz_sqr := 1 - cos_beta * cos_beta - cy * cy in
      if Rltb cz_sqr 0 then Raise ValueError
      else Done [[a; 0; 0]; [b * cos_gamma; b * sin_gamma; 0]; [c * cos_beta; c * cy; c * sqrt cz_sqr]]
  | _ => Raise ValueError
  end.

(** [cellpar_to_cell_2D], lines 106-129. *)
Definition cellpar_to_cell_2D (cellpar : list R) : outcome (list (list R)) :=
  match cellpar with
  | [a; b; alpha] =>
      let alpha_radians := deg2rad alpha in
      Done [[a; 0]; [b * cos alpha_radians; b * sin alpha_radians]]
  | _ => Raise ValueError
  end.

Definition dot_rows (u v : list R) : R := total (map2 Rmult u v).
Definition norm_row (u : list R) : R := sqrt (total (squares u)).

(** [cell_to_cellpar], lines 133-164. *)
Definition cell_to_cellpar (cell : list (list R)) : outcome (list R) :=
  match cell with
  | [c0; c1; c2] =>
      let p0 := norm_row c0 in let p1 := norm_row c1 in let p2 := norm_row c2 in
      Done [p0; p1; p2;
            rad2deg (acos (dot_rows c1 c2 / (p1 * p2)));
            rad2deg (acos (dot_rows c0 c2 / (p0 * p2)));
            rad2deg (acos (dot_rows c0 c1 / (p0 * p1)))]
  | _ => OutOfBounds
  end.

(** [cell_to_cellpar_2D], lines 168-191. *)
Definition cell_to_cellpar_2D (cell : list (list R)) : outcome (list R) :=
  match cell with
  | [c0; c1] =>
      let p0 := norm_row c0 in let p1 := norm_row c1 in
      Done [p0; p1; rad2deg (acos (dot_rows c0 c1 / (p0 * p1)))]
  | _ => OutOfBounds
  end.

(** [np.random.uniform(low, high)] maps a draw from [0, 1). The draws are a sequence, and
    [i] the number of draws used so far. *)
Definition uniform (draw : nat -> R) (i : nat) (low high : R) : R := low + (high - low) * draw i.

(** [random_cell], lines 194-225. The loop retries after a RuntimeError only. *)
Fixpoint random_cell_3 (fuel : nat) (draw : nat -> R) (i : nat) (ll lu al au : R) : outcome (list (list R)) :=
  match fuel with
  | 0%nat => OutOfFuel
  | S fuel =>
      let lengths := map (fun k => uniform draw (i + k) ll lu) (seq 0 3) in
      let angles := map (fun k => uniform draw (i + 3 + k) al au) (seq 0 3) in
      match cellpar_to_cell (lengths ++ angles) with
      | Raise RuntimeError => random_cell_3 fuel draw (i + 6) ll lu al au
      | r => r
      end
  end.
Definition random_cell (fuel : nat) (draw : nat -> R) (ll lu al au : R) (dims : nat) : outcome (list (list R)) :=
  match dims with
  | 3%nat => random_cell_3 fuel draw 0 ll lu al au
  | 2%nat => cellpar_to_cell_2D (map (fun k => uniform draw k ll lu) (seq 0 2) ++ [uniform draw 2 al au])
  | _ => Raise NotImplementedError
  end.
