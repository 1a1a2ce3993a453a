(** Sanity runs of the models at binary64 (tests, not proofs). *)
From Coq Require Import List ZArith PrimFloat.
From Verif Require Import Num NumFloat Outcome MergeModel.
Import ListNotations.
Open Scope float_scope.

Example test_merge :
  merge_row [0; 3; 5] [1; 4] = Done [0; 1; 3].
Proof. vm_compute. reflexivity. Qed.

Example test_merge_inds :
  merge_row_inds [0; 3; 5; 7] [1; 4; 4.5; 8] [10; 11; 12; 13]%Z [20; 21; 22; 23]%Z
  = Done ([0; 1; 3; 4], [10; 20; 11; 21]%Z).
Proof. vm_compute. reflexivity. Qed.
