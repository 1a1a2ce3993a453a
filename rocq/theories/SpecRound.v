(** Specification of rounded arithmetic. *)
From Coq Require Import List Reals ZArith.
From Coq Require Import Permutation Sorted.
From Verif Require Import RoundModel SpecGeom SpecCalc SpecEmd64.
Import ListNotations.
Open Scope R_scope.

(** Sums of a list in any order, each addition with a relative error of at most [u]. *)
Inductive sum_within (u : R) : list R -> R -> Prop :=
| sum_none : sum_within u [] 0
| sum_one : forall x, sum_within u [x] x
| sum_add : forall l1 l2 l x y z, l1 <> [] -> l2 <> [] -> sum_within u l1 x -> sum_within u l2 y -> Permutation l (l1 ++ l2) ->
    Rabs (z - (x + y)) <= u * Rabs (x + y) -> sum_within u l z.

(** A product with a relative error of at most [u] and a further error of at most [eta]. *)
Definition product_within (u eta x y p : R) : Prop :=
  Rabs (p - x * y) <= u * Rabs (x * y) + eta /\ (0 <= x * y -> 0 <= p) /\ (x * y = 0 -> p = 0).

(** Sums and scalar products in any order, perhaps starting from 0; products may be fused with
    additions. *)
Definition any_order_sum (u : R) (sumf : list R -> R) : Prop := forall l, sum_within u (0 :: l) (sumf l).
Definition any_order_dot (u eta : R) (dotf : list R -> list R -> R) : Prop :=
  forall xs ys, length xs = length ys -> exists ps, length ps = length xs /\
    (forall i, (i < length xs)%nat -> product_within u eta (nth i xs 0) (nth i ys 0) (nth i ps 0)) /\
    sum_within u (0 :: ps) (dotf xs ys).

(** Operations with relative errors of at most [u], and products and quotients with a further
    error of at most [eta] (underflow).  Divisors are counts and sums of counts, or 10^8.  For
    binary64, rounding to nearest and no overflow, [u] is 2^-53 and [eta] is 2^-1075; if
    divisions may be replaced by multiplications with a rounded reciprocal, [u] is 2^-51. *)
Record float_like (u eta : R) (ar : arith) : Prop := {
  fl_u : 0 <= u;
  fl_eta : 0 <= eta;
  fl_add : forall x y, Rabs (r_add ar x y - (x + y)) <= u * Rabs (x + y);
  fl_sub : forall x y, Rabs (r_sub ar x y - (x - y)) <= u * Rabs (x - y);
  fl_mul : forall x y, Rabs (r_mul ar x y - x * y) <= u * Rabs (x * y) + eta;
  fl_mul_zero : forall x, r_mul ar 0 x = 0;
  fl_mul_sign : forall x y, 0 <= x * y -> 0 <= r_mul ar x y;
  fl_div : forall x y, 1 / 2 <= y -> u * y <= 1 -> Rabs (r_div ar x y - x / y) <= u * Rabs (x / y) + eta;
  fl_sqrt : forall x, 0 <= x -> Rabs (r_sqrt ar x - sqrt x) <= u * sqrt x;
  fl_ofZ : forall z, Rabs (r_ofZ ar z - IZR z) <= u * Rabs (IZR z);
  fl_sum : any_order_sum u (r_sum ar);
  fl_dot : any_order_dot u eta (r_dot ar)
}.

(** A number of the format: adding 0 does not change it. *)
Definition representable (ar : arith) (x : R) : Prop := r_add ar x 0 = x.

(** Every point of the motif has coordinates of the format and is at most [b] from the origin. *)
Definition motif_within (ar : arith) (b : R) (motif : list (list R)) : Prop :=
  Forall (fun p => Forall (representable ar) p /\ sqrt (fold_right (fun a s => a * a + s) 0 p) <= b) motif.

(** For collapsing: [D] bounds the distances from the points [x] to their [k] nearest neighbours,
    and the distances from two of them differ nowhere by more than [tol - margin], or somewhere
    by more than [tol + margin]. *)
Definition distances_within (dims : nat) (motif cell x : list (list R)) (k : nat) (D : R) : Prop :=
  forall p ds, In p x -> nearest_distances dims motif cell p (S k) ds -> Forall (fun d => d <= D) ds.
Definition decided (dims : nat) (motif cell x : list (list R)) (k : nat) (tol margin : R) : Prop :=
  margin <= tol /\ forall i j ds es, (i < j < length x)%nat ->
    nearest_distances dims motif cell (nth i x []) (S k) ds -> nearest_distances dims motif cell (nth j x []) (S k) es ->
    (forall l, (1 <= l <= k)%nat -> Rabs (nth l ds 0 - nth l es 0) <= tol - margin) \/
    (exists l, (1 <= l <= k)%nat /\ tol + margin < Rabs (nth l ds 0 - nth l es 0)).

(** The same for a finite set and all the distances between its points. *)
Definition decided_finite (pts : list (list R)) (tol margin : R) : Prop :=
  margin <= tol /\ forall i j ds es, (i < j < length pts)%nat ->
    StronglySorted Rle ds -> Permutation ds (distances_to_others pts i) ->
    StronglySorted Rle es -> Permutation es (distances_to_others pts j) ->
    (forall l, (l < length ds)%nat -> Rabs (nth l ds 0 - nth l es 0) <= tol - margin) \/
    (exists l, (l < length ds)%nat /\ tol + margin < Rabs (nth l ds 0 - nth l es 0)).

(** Multiplication by a positive number keeps the order. *)
Definition monotone_mul (ar : arith) : Prop := forall x y f, 0 <= x <= y -> 0 <= f -> r_mul ar x f <= r_mul ar y f.

(** Weights which are multiples of [1/m], as those of a motif of [m] points are. *)
Definition multiples (m : nat) (w : list R) : Prop := Forall (fun x => exists c : nat, (1 <= c)%nat /\ x = INR c / INR m) w.

(** Row by row, weights with relative errors of at most [w] and entries with errors of at most [d]. *)
Definition close_matrices (w d : R) (p p' : list (list R)) : Prop :=
  Forall2 (fun r r' => length r' = length r /\ Rabs (nth 0 r' 0 - nth 0 r 0) <= w * nth 0 r 0 /\ Forall2 (fun x x' => Rabs (x' - x) <= d) (tl r) (tl r')) p p'.

(** How far the Earth mover's distance computed with such operations from such matrices is from
    the exact one, for distances up to [dmax] between their rows. *)
Definition rounded_cost_error (u d dmax : R) : R := 2 * d + 5 * u * (dmax + 2 * d) + 2 / 100000000.
Definition rounded_accuracy (n1 n2 : nat) (u w d dmax : R) : R :=
  let c := dmax + rounded_cost_error u d dmax in
  rounded_cost_error u d dmax + (1 + 5 * (INR n1 + INR n2 + 2) * c) / 100000000 + (10 * w + (3 * INR (n1 * n2) + 40) * u) * (c + 1).

(** Operations and a conversion to integers as above. *)
Record emd_arithmetic (u eta : R) (ar : arith) (cast : R -> Z) : Prop := {
  ea_float : float_like u eta ar;
  ea_u : u <= 1 / 100000000;
  ea_eta : eta <= 1 / 10000;
  ea_cast : truncates cast;
  ea_mul : monotone_mul ar
}.

(** Matrices of [n1] and [n2] rows with weights which are multiples of [1/m1] and [1/m2], and
    errors, small enough that a weight and its rounded value do not differ in more than the 8th
    decimal, and that costs stay far below 2^63. *)
Record emd_size (u eta w d dmax : R) (m1 m2 n1 n2 : nat) : Prop := {
  es_w : 0 <= w <= 1 / 10000;
  es_d : 0 <= d;
  es_m1 : INR m1 <= 10000000;
  es_m2 : INR m2 <= 10000000;
  es_w1 : (100000000 * (w + 2 * u) + eta) * INR m1 < 1;
  es_w2 : (100000000 * (w + 2 * u) + eta) * INR m2 < 1;
  es_u : INR (n1 * n2) * u <= 1 / 2;
  es_eta : INR (n1 * n2) * eta <= u;
  es_cost : INR (n1 * n2) * (dmax + rounded_cost_error u d dmax) <= 10000000000
}.
