(** Model of src/amd/calculate.py:33-341 and 451-458: AMD, PDD, PDD_to_AMD and the
    versions for finite sets. *)
From Coq Require Import List ZArith Arith Bool.
From Verif Require Import Num Base Outcome Condensed CollapseModel NNModel.
Import ListNotations.
Open Scope outcome_scope.

Section Calc.
  Context {T : Type} `{Num T}.

  (** src/amd/periodicset.py:66-80, the attributes used by the calculations. Indices are
      natural numbers (the readers never produce negative ones). *)
  Record pset := {
    ps_motif : list (vec T);
    ps_cell : list (vec T);
    ps_asym : option (list nat);
    ps_mult : option (list nat)
  }.

  Definition nofnat (n : nat) : T := nofZ (Z.of_nat n).
  Definition nabs (a : T) : T := if nleb n0 a then a else nsub n0 a.

  (** [a[i]] for a list of indices; numpy raises IndexError. *)
  Definition take {A} (l : list A) (is : list nat) : outcome (list A) :=
    omap (fun i => match nth_error l i with Some a => Done a | None => Raise IndexError end) is.

  (** The query points and their integer multiplicities, calculate.py:86-91, 176-182; [None]
      for the multiplicities means all ones. *)
  Definition query (ps : pset) : outcome (list (vec T) * list nat) :=
    match ps_asym ps, ps_mult ps with
    | Some a, Some mu => x <- take (ps_motif ps) a ;; Done (x, mu)
    | _, _ => Done (ps_motif ps, repeat 1%nat (length (ps_motif ps)))
    end.

  (** _average_columns_except_first, calculate.py:451-458; [kk] is the number of columns.
      Reading [weights[i]] beyond the end is not checked by numba. *)
  Definition average_columns_except_first (kk : nat) (dists : list (list T)) (weights : list T)
    : outcome (list T) :=
    if (length weights <? length dists)%nat then OutOfBounds
    else Done (map (fun j => ndiv (ndot (col_of j dists) weights) (nsum weights)) (seq 1 (kk - 1))).

  (** AMD, calculate.py:33-94 (without the type check of line 81). *)
  Definition AMD (fuel : nat) (ps : pset) (k : nat) : outcome (list T) :=
    '(x, mu) <- query ps ;;
    dists <- nearest_neighbors fuel (ps_motif ps) (ps_cell ps) x (S k) ;;
    average_columns_except_first (S k) dists (map nofnat mu).

  (** Chebyshev distance of two rows, as [pdist(dists, metric='chebyshev')]. *)
  Definition cheb (u v : list T) : T :=
    fold_left (fun s a => nmax s a) (map2 (fun a b => nabs (nsub a b)) u v) n0.

  (** [np.average(dists[group], axis=0)]: the plain mean of the rows of a group. *)
  Definition average_rows (rows : list (list T)) : list T :=
    match rows with
    | [] => []
    | r :: _ => map (fun j => ndiv (nsum (col_of j rows)) (nofnat (length rows))) (seq 0 (length r))
    end.

  (** Lines 188-197: grouping and averaging. [rw] are the weights and the distance
      rows, in step. *)
  Definition collapse_rows (weights : list T) (dists : list (list T)) (collapse : bool) (tol : T)
    : list T * list (list T) * list (list nat) :=
    let n := length dists in
    let overlapping := condensed (fun i j => nleb (cheb (nth i dists []) (nth j dists [])) tol) n in
    if (collapse && existsb (fun b => b) overlapping)%bool then
      let groups := collapse_into_groups n overlapping in
      (map (fun g => nsum (map (fun i => nth i weights n0) g)) groups,
       map (fun g => average_rows (map (fun i => nth i dists []) g)) groups,
       groups)
    else (weights, dists, map (fun i => [i]) (seq 0 n)).

  (** Lexicographic comparison, first column most significant. *)
  Fixpoint lexleb (u v : list T) : bool :=
    match u, v with
    | a :: u', b :: v' => if nltb a b then true else if nltb b a then false else lexleb u' v'
    | _, _ => true
    end.

  (** [np.lexsort(np.rot90(dists))], line 201: row 0 of the rotated array is the last
      column, and lexsort takes its last key as the primary one. numpy sorts stably. *)
  Definition lex_ordering (dists : list (list T)) : list nat :=
    isort (fun i j => lexleb (nth i dists []) (nth j dists [])) (seq 0 (length dists)).

  (** Lines 199-214: assemble. A PDD is a list of pairs (weight, distances). *)
  Definition assemble (wdg : list T * list (list T) * list (list nat)) (lexsort : bool)
    : list (T * list T) * list (list nat) :=
    let '(w, d, g) := wdg in
    let o := if lexsort then lex_ordering d else seq 0 (length d) in
    (map (fun i => (nth i w n0, nth i d [])) o, map (fun i => nth i g []) o).

  (** PDD with [return_row_groups=True], calculate.py:97-214; without it only the first
      component is returned. *)
  Definition PDD (fuel : nat) (ps : pset) (k : nat) (lexsort collapse : bool) (tol : T)
    : outcome (list (T * list T) * list (list nat)) :=
    let m := length (ps_motif ps) in
    '(x, mu) <- query ps ;;
    dists <- nearest_neighbors fuel (ps_motif ps) (ps_cell ps) x (S k) ;;
    let weights := map (fun c => ndiv (nofnat c) (nofnat m)) mu in
    Done (assemble (collapse_rows weights (map (@tl T) dists) collapse tol) lexsort).

  (** PDD_to_AMD, calculate.py:217-232: [np.average] with weights; [kk] is the number of
      distance columns. numpy raises ZeroDivisionError for weights with sum 0, which does not
      happen for a PDD. *)
  Definition PDD_to_AMD (kk : nat) (pdd : list (T * list T)) : list T :=
    map (fun j => ndiv (ndot (col_of j (map snd pdd)) (map fst pdd)) (nsum (map fst pdd))) (seq 0 kk).

  (** [np.sort(squareform(pdist(motif)), axis=-1)[:, 1:]], lines 262, 318: Euclidean
      distances, 0 on the diagonal. *)
  Definition finite_rows (motif : list (vec T)) : list (list T) :=
    let m := length motif in
    let v := condensed (fun i j => nsqrt (sqd (nth i motif []) (nth j motif []))) m in
    map (fun i => tl (isort nleb (map (squareform n0 m v i) (seq 0 m)))) (seq 0 m).

  (** AMD_finite, calculate.py:235-263: the plain mean of the rows. *)
  Definition AMD_finite (motif : list (vec T)) : list T := average_rows (finite_rows motif).

  (** PDD_finite, calculate.py:266-341. *)
  Definition PDD_finite (motif : list (vec T)) (lexsort collapse : bool) (tol : T)
    : list (T * list T) * list (list nat) :=
    let m := length motif in
    assemble (collapse_rows (repeat (ndiv n1 (nofnat m)) m) (finite_rows motif) collapse tol) lexsort.
End Calc.
Arguments pset T : clear implicits.
