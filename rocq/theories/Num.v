(** Numbers used by the models.

    The Python code computes with IEEE binary64 numbers.  Models of numeric code
    are written once, over an operational interface [Num] (no laws), and used at
    three kinds of instances:
    - [NumR], the real numbers: the theorems about geometry are about this
      instance (rounding, NaN and infinities are not modelled);
    - [num_of ar] (file [RoundModel.v]), real numbers with rounded operations;
    - [NumF] (file [NumFloat.v]), Coq's primitive binary64 floats: used only to run
      the models on concrete inputs as sanity tests ([Tests_*.v]). *)
From Coq Require Import Reals ZArith List Bool Lra.
Import ListNotations.

Class Num (T : Type) := {
  n0 : T;
  n1 : T;
  nadd : T -> T -> T;
  nsub : T -> T -> T;
  nmul : T -> T -> T;
  ndiv : T -> T -> T;
  nsqrt : T -> T;
  nleb : T -> T -> bool;
  nltb : T -> T -> bool;
  nofZ : Z -> T;
  (** Sums and scalar products.  They are operations of their own because the code leaves
      the order of their additions to numpy, BLAS and the compiler (numba's fastmath). *)
  nsum : list T -> T;
  ndot : list T -> list T -> T
}.

Definition Rleb (x y : R) : bool := if Rle_dec x y then true else false.
Definition Rltb (x y : R) : bool := if Rlt_dec x y then true else false.

Lemma Rleb_true : forall x y, Rleb x y = true <-> (x <= y)%R.
Proof. intros x y; unfold Rleb; destruct (Rle_dec x y); split; intros; try easy. Qed.
Lemma Rleb_false : forall x y, Rleb x y = false <-> (y < x)%R.
Proof. intros x y; unfold Rleb; destruct (Rle_dec x y); split; intros; try easy; lra. Qed.
Lemma Rltb_true : forall x y, Rltb x y = true <-> (x < y)%R.
Proof. intros x y; unfold Rltb; destruct (Rlt_dec x y); split; intros; try easy. Qed.
Lemma Rltb_false : forall x y, Rltb x y = false <-> (y <= x)%R.
Proof. intros x y; unfold Rltb; destruct (Rlt_dec x y); split; intros; try easy; lra. Qed.

#[export] Instance NumR : Num R := {
  n0 := 0%R; n1 := 1%R;
  nadd := Rplus; nsub := Rminus; nmul := Rmult; ndiv := Rdiv;
  nsqrt := sqrt; nleb := Rleb; nltb := Rltb; nofZ := IZR;
  nsum := fun l => fold_left Rplus l 0%R;
  ndot := fun u v => fold_left (fun s ab => s + fst ab * snd ab)%R (combine u v) 0%R
}.
