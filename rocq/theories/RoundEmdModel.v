(** EMD of /repo/src/amd/compare.py, lines 290-333, and network_simplex of /repo/src/amd/_emd.py,
    lines 22-199, with rounded operations on floating-point numbers and 64-bit integers
    (Emd64Model.v) in the solver. *)
From Coq Require Import List ZArith Reals.
From Verif Require Import Num Outcome Base NNModel CalcModel EmdModel EmdReal Emd64Model RoundModel.
Import ListNotations.
Open Scope R_scope.

Section Rounded.
  (** [cast] is [.astype(np.int64)]. *)
  Variables (ar : arith) (cast : R -> Z).

  (** Lines 67-68, 100 and 104-111. *)
  Definition fixed (r : R) : Z := cast (r_mul ar r fp_multiplier).
  Definition int_caps_r (w1 w2 : list R) : list Z := flat_map (fun a => map (fun b => fixed (Rmin a b)) w2) w1.

  (** Lines 195-196: an int64 divided by a float64. *)
  Definition to_float (z : Z) : R := r_div ar (r_ofZ ar z) fp_multiplier.

  Definition network_simplex_r (fuel : nat) (w1 w2 : list R) (c : list (list R)) : outcome (R * list (list R)) :=
    let '(src, snk) := balance64 (map fixed w1) (map fixed w2) in
    let cost := map fixed (concat c) in
    fl <- simplex64 fuel src snk cost (int_caps_r w1 w2) ;;
    let final_flows := map to_float fl in
    let edge_costs := map to_float cost in
    Done (r_dot ar final_flows edge_costs, reshape (length w1) (length w2) final_flows).

  Definition cdist_r (A B : list (list R)) : outcome (list (list R)) :=
    if (width A =? width B)%nat then Done (map (fun u => map (fun v => @cheb R (num_of ar) u v) B) A) else Raise ValueError.

  Definition EMD_r (fuel : nat) (p q : list (list R)) : outcome (R * list (list R)) :=
    dm <- cdist_r (rows_of p) (rows_of q) ;;
    network_simplex_r fuel (weights_of p) (weights_of q) dm.
End Rounded.
