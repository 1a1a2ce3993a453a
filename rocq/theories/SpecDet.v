(** Specification of the determinant in every dimension (Laplace expansion along the first column) and of the
    volume of the unit ball. Independent of the models. *)
From Coq Require Import List ZArith Arith Reals.
Import ListNotations.
Open Scope R_scope.

(** Sum of [f i] for [i < n]. *)
Fixpoint sigma (n : nat) (f : nat -> R) : R :=
  match n with
  | 0%nat => 0
  | S n => sigma n f + f n
  end.
(** The matrix without row [i] and without the first column. *)
Definition minor (i : nat) (m : nat -> nat -> R) (a b : nat) : R := m (if (a <? i)%nat then a else S a) (S b).
Fixpoint det (n : nat) (m : nat -> nat -> R) : R :=
  match n with
  | 0%nat => 1
  | S n => sigma (S n) (fun i => (-1) ^ i * m i 0%nat * det n (minor i m))
  end.
Definition product (n : nat) (u m : nat -> nat -> R) (i j : nat) : R := sigma n (fun k => u i k * m k j).
Definition unit_matrix (i j : nat) : R := if (i =? j)%nat then 1 else 0.

(** Entries of a matrix given by its rows. *)
Definition entries (m : list (list R)) (i j : nat) : R := nth j (nth i m []) 0.
Definition volume_of (n : nat) (cell : list (list R)) : R := Rabs (det n (entries cell)).

(** Volume of the unit ball in dimension [n]. *)
Fixpoint ball (n : nat) : R :=
  match n with
  | 0%nat => 1
  | 1%nat => 2
  | S (S k) => 2 * PI / INR (S (S k)) * ball k
  end.
