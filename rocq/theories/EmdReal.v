(** The Earth mover's distance: network_simplex of /repo/src/amd/_emd.py on real weights and
    costs (lines 64-78, 100-121 and 192-199; the integer part is in EmdModel.v), and EMD of
    /repo/src/amd/compare.py, lines 290-333 (with the default metric). *)
From Coq Require Import List ZArith Arith Reals Lia Lra.
From Verif Require Import Num Outcome Base NNModel CalcModel EmdModel VecR.
Import ListNotations.
Open Scope R_scope.

Definition fp_multiplier : R := 100000000.

(** [.astype(np.int64)] drops the fraction. *)
Definition trunc (r : R) : Z := if Rle_dec 0 r then Int_part r else (- Int_part (- r))%Z.

Definition to_fp (r : R) : Z := trunc (r * fp_multiplier).
Definition of_fp (z : Z) : R := IZR z / fp_multiplier.

(** Lines 104-111. *)
Definition int_caps (w1 w2 : list R) : list Z := flat_map (fun a => map (fun b => to_fp (Rmin a b)) w2) w1.

(** [reshape((rows, cols))] *)
Fixpoint reshape (rows cols : nat) (l : list R) : list (list R) :=
  match rows with
  | O => []
  | S r => firstn cols l :: reshape r cols (skipn cols l)
  end.

Definition network_simplex (fuel : nat) (w1 w2 : list R) (c : list (list R)) : outcome (R * list (list R)) :=
  let '(src, snk) := balance (map to_fp w1) (map to_fp w2) in
  let cost := map to_fp (concat c) in
  fl <- simplex fuel src snk cost (int_caps w1 w2) ;;
  let final_flows := map of_fp fl in
  let edge_costs := map of_fp cost in
  Done (dot final_flows edge_costs, reshape (length w1) (length w2) final_flows).

(** [cdist(A, B, metric='chebyshev')], which raises on different numbers of columns. *)
Definition width (p : list (list R)) : nat := match p with [] => 0%nat | r :: _ => length r end.
Definition cdist_cheb (A B : list (list R)) : outcome (list (list R)) :=
  if (width A =? width B)%nat then Done (map (fun u => map (fun v => cheb u v) B) A) else Raise ValueError.

Definition weights_of (p : list (list R)) : list R := map (fun r => nth 0 r 0) p.
Definition rows_of (p : list (list R)) : list (list R) := map (@tl R) p.

Definition EMD (fuel : nat) (p q : list (list R)) : outcome (R * list (list R)) :=
  dm <- cdist_cheb (rows_of p) (rows_of q) ;;
  network_simplex fuel (weights_of p) (weights_of q) dm.
