(** [cellpar_to_cell] and [cellpar_to_cell_2D] of src/amd/utils.py in rounded arithmetic.  The
    operations are those of [ar]; [rdeg], [rcos] and [rsin] are [np.deg2rad], [np.cos] and
    [np.sin].  Absolute values and comparisons are exact.  Compiled with fastmath, the code may
    use other orders of the operations than these. *)
From Coq Require Import List Reals.
From Verif Require Import Num Outcome RoundModel UtilsModel.
Import ListNotations.
Open Scope R_scope.

Section RoundCell.
  Variables (ar : arith) (rdeg rcos rsin : R -> R).

  (** lines 79-81 *)
  Definition r_cos_deg (x : R) : R := if Rltb (Rabs (r_sub ar (Rabs x) 90)) eps then 0 else rcos (rdeg x).
  (** lines 83-88 *)
  Definition r_sin_deg (x : R) : R :=
    if Rltb (Rabs (r_sub ar x 90)) eps then 1
    else if Rltb (Rabs (r_add ar x 90)) eps then -1
    else rsin (rdeg x).

  (** lines 58-102 *)
  Definition r_cellpar_to_cell (cellpar : list R) : outcome (list (list R)) :=
    match cellpar with
    | [a; b; c; al; be; ga] =>
        let cos_alpha := r_cos_deg al in
        let cos_beta := r_cos_deg be in
        let cos_gamma := r_cos_deg ga in
        let sin_gamma := r_sin_deg ga in
        let cy := r_div ar (r_sub ar cos_alpha (r_mul ar cos_beta cos_gamma)) sin_gamma in
        let cz_sqr := r_sub ar (r_sub ar 1 (r_mul ar cos_beta cos_beta)) (r_mul ar cy cy) in
        if Rltb cz_sqr 0 then Raise ValueError
        else Done [[a; 0; 0]; [r_mul ar b cos_gamma; r_mul ar b sin_gamma; 0];
                   [r_mul ar c cos_beta; r_mul ar c cy; r_mul ar c (r_sqrt ar cz_sqr)]]
    | _ => Raise ValueError
    end.

  (** lines 106-129 *)
  Definition r_cellpar_to_cell_2D (cellpar : list R) : outcome (list (list R)) :=
    match cellpar with
    | [a; b; alpha] =>
        let alpha_radians := rdeg alpha in
        Done [[a; 0]; [r_mul ar b (rcos alpha_radians); r_mul ar b (rsin alpha_radians)]]
    | _ => Raise ValueError
    end.
End RoundCell.
