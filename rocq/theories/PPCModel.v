(** Model of src/amd/calculate.py:382-448: PPC and AMD_estimate, over the real numbers. The isinstance checks of
    lines 413-416 and 444-447 are not modelled (the argument is a periodic set). [np.linalg.det] is the determinant
    of SpecDet.v. *)
From Coq Require Import List ZArith Arith Reals.
From Verif Require Import Num Base Outcome NNModel CalcModel SpecDet.
Import ListNotations.
Open Scope R_scope.
Open Scope outcome_scope.

(** [x ** (1.0 / n)] for [x >= 0] and [n >= 1]; a power of 0.0 with a positive exponent is 0.0. *)
Definition py_root (x : R) (n : nat) : R := if Rleb x 0 then 0 else Rpower x (1 / INR n).

(** calculate.py:419-423. *)
Definition sphere_vol (n : nat) : R :=
  let t := (n / 2)%nat in
  if (n mod 2 =? 0)%nat then PI ^ t / INR (fact t)
  else (2 * INR (fact t) * (4 * PI) ^ t) / INR (fact n).

(** calculate.py:418, [m, n = pset.motif.shape]; the number of columns is read from the first point. *)
Definition motif_shape (ps : pset R) : nat * nat := (length (ps_motif ps), length (hd [] (ps_motif ps))).

(** calculate.py:382-424; [1.0 / n] raises for n = 0. Without motif points numpy divides by zero and returns inf
    or nan, where the model divides as Coq does: the theorems exclude it. *)
Definition PPC (ps : pset R) : outcome R :=
  let '(m, n) := motif_shape ps in
  if (n =? 0)%nat then Raise ZeroDivisionError
  else Done (py_root (Rabs (det (length (ps_cell ps)) (entries (ps_cell ps))) / (INR m * sphere_vol n)) n).

(** calculate.py:427-448; [np.arange(1, k + 1)] starts at 1, so no power of zero is taken. *)
Definition AMD_estimate (ps : pset R) (k : nat) : outcome (list R) :=
  let n := length (ps_cell ps) in
  p <- PPC ps ;;
  if (n =? 0)%nat then Raise ZeroDivisionError
  else Done (map (fun i => p * Rpower (INR i) (1 / INR n)) (seq 1 k)).
