(** Small specification vocabulary shared by the property files. It does not refer
    to any model. *)
From Coq Require Import List ZArith Reals Sorted Permutation.
Import ListNotations.

(** [s] lists, in non-decreasing order, [k] smallest values of [l]. *)
Definition k_smallest (k : nat) (l s : list R) : Prop :=
  length s = k /\ StronglySorted Rle s /\
  exists rest, Permutation l (s ++ rest) /\
               forall a b, In a s -> In b rest -> (a <= b)%R.

(** Squared length of an integer vector. *)
Definition zsq (v : list Z) : Z := fold_right (fun x s => (x * x + s)%Z) 0%Z v.

(** Integer vectors [v] of dimension [dims] with d - 1 < |v| <= d. *)
Definition in_shell (dims d : nat) (v : list Z) : Prop :=
  length v = dims /\ (zsq v <= Z.of_nat d * Z.of_nat d)%Z /\
  (d = 0%nat \/ ((Z.of_nat d - 1) * (Z.of_nat d - 1) < zsq v)%Z).

