(** Results of modelled Python code: normal return, exception, out-of-bounds
    array access (numba does not check bounds, so this is undefined behaviour),
    or running out of the fuel given to a [while] loop. *)
From Coq Require Import List ZArith Lia.
Import ListNotations.

Inductive pyexc :=
| ValueError | ParseError | TypeError | KeyError | IndexError | RuntimeError
| StopIteration | ZeroDivisionError | NotImplementedError | FileNotFoundError | ImportError
| AttributeError.

Inductive outcome (A : Type) :=
| Done (a : A)
| Raise (e : pyexc)
| OutOfBounds
| OutOfFuel.
Arguments Done {A} _.
Arguments Raise {A} _.
Arguments OutOfBounds {A}.
Arguments OutOfFuel {A}.

Definition obind {A B} (x : outcome A) (f : A -> outcome B) : outcome B :=
  match x with
  | Done a => f a
  | Raise e => Raise e
  | OutOfBounds => OutOfBounds
  | OutOfFuel => OutOfFuel
  end.

Declare Scope outcome_scope.
Delimit Scope outcome_scope with outcome.
Notation "x <- a ;; b" := (obind a (fun x => b))
  (at level 61, a at next level, right associativity) : outcome_scope.
Notation "' p <- a ;; b" := (obind a (fun p => b))
  (at level 61, p pattern, a at next level, right associativity) : outcome_scope.

(** Array read [l[i]] with numpy/numba wraparound of negative indices. *)
Definition getZ {A} (l : list A) (i : Z) : outcome A :=
  let n := Z.of_nat (length l) in
  let i' := if (i <? 0)%Z then (i + n)%Z else i in
  if (i' <? 0)%Z then OutOfBounds
  else match nth_error l (Z.to_nat i') with
       | Some a => Done a
       | None => OutOfBounds
       end.

Fixpoint upd {A} (l : list A) (i : nat) (v : A) : list A :=
  match l, i with
  | [], _ => []
  | _ :: t, O => v :: t
  | h :: t, S i' => h :: upd t i' v
  end.

(** Array write [l[i] = v] with wraparound. *)
Definition setZ {A} (l : list A) (i : Z) (v : A) : outcome (list A) :=
  let n := Z.of_nat (length l) in
  let i' := if (i <? 0)%Z then (i + n)%Z else i in
  if ((i' <? 0) || (n <=? i'))%bool%Z then OutOfBounds
  else Done (upd l (Z.to_nat i') v).

(** [map] over a list stopping at the first abnormal outcome. *)
Fixpoint omap {A B} (f : A -> outcome B) (l : list A) : outcome (list B) :=
  match l with
  | [] => Done []
  | a :: t => obind (f a) (fun b => obind (omap f t) (fun bs => Done (b :: bs)))
  end.

Lemma omap_ok : forall A B (f : A -> outcome B) (g : A -> B) l,
  (forall a, In a l -> f a = Done (g a)) -> omap f l = Done (map g l).
Proof.
  induction l as [|a t IH]; simpl; intros H; auto.
  rewrite H by auto. simpl. rewrite IH by auto. reflexivity.
Qed.
