(** EMD of /repo/src/amd/compare.py, lines 290-333, with its argument [metric]:
    [dm = cdist(pdd[:, 1:], pdd_[:, 1:], metric=metric, **kwargs)] (line 328) for any metric that
    is a function of two rows, then network_simplex (line 329), see EmdReal.v.
    Of the named metrics of scipy, chebyshev, cityblock, euclidean, sqeuclidean and minkowski
    (keyword p, default 2) are given; p is a positive integer here. *)
From Coq Require Import List ZArith Arith Bool Reals String.
From Verif Require Import Num Outcome Base NNModel CalcModel EmdModel EmdReal.
Import ListNotations.
Open Scope R_scope.

(** [cdist(A, B, metric=f)], which raises on different numbers of columns. *)
Definition cdist_with (f : list R -> list R -> R) (A B : list (list R)) : outcome (list (list R)) :=
  if (width A =? width B)%nat then Done (map (fun u => map (fun v => f u v) B) A) else Raise ValueError.

Definition EMD_with (f : list R -> list R -> R) (fuel : nat) (p q : list (list R)) : outcome (R * list (list R)) :=
  dm <- cdist_with f (rows_of p) (rows_of q) ;;
  network_simplex fuel (weights_of p) (weights_of q) dm.

(** [sum(abs(u - v) ** n)] *)
Definition power_sum (n : nat) (u v : list R) : R :=
  fold_left Rplus (map (fun ab : R * R => Rabs (fst ab - snd ab) ^ n) (combine u v)) 0.

Definition cityblock (u v : list R) : R := power_sum 1 u v.
Definition sqeuclidean (u v : list R) : R := power_sum 2 u v.
Definition euclidean (u v : list R) : R := sqrt (power_sum 2 u v).
(** [x ** (1 / n)], 0 for x = 0 *)
Definition nth_root (n : nat) (x : R) : R := if Req_EM_T x 0 then 0 else Rpower x (/ INR n).
Definition minkowski (n : nat) (u v : list R) : R := nth_root n (power_sum n u v).

(** The names; ValueError for an unknown one. *)
Definition named_metric (p : nat) (name : string) : outcome (list R -> list R -> R) :=
  if String.eqb name "chebyshev" then Done (fun u v => cheb u v)
  else if String.eqb name "cityblock" then Done cityblock
  else if String.eqb name "euclidean" then Done euclidean
  else if String.eqb name "sqeuclidean" then Done sqeuclidean
  else if String.eqb name "minkowski" then Done (minkowski p)
  else Raise ValueError.

Definition EMD_named (name : string) (p_norm : nat) (fuel : nat) (p q : list (list R)) : outcome (R * list (list R)) :=
  f <- named_metric p_norm name ;; EMD_with f fuel p q.
