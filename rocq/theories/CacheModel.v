(** Model of the two caches around the integer lattice generator,
    src/amd/_nearest_neighbors.py:224-317.

    Iterators are cursors in a heap: a cursor is a dimension and the number of batches
    already taken from it.  [tee] of an iterator gives the iterator itself and a new
    cursor at the same position (CPython's [tee] of a tee object returns the object
    itself and copies; for a generator both results are new, but then nothing else
    holds the generator). *)
From Coq Require Import List ZArith Arith Bool.
From Verif Require Import Outcome LatticeModel.
Import ListNotations.
Open Scope outcome_scope.

Definition layer_t := list (list Z).

Record cstate := {
  heap : list (nat * nat);                        (* cursors: (dims, position) *)
  gens : nat -> option nat;                       (* memoized_generator's cache, line 310 *)
  npts : nat -> option (list nat);                (* npoints_cache, line 232 *)
  batches : nat -> nat -> option (layer_t * nat)  (* cache, line 231 *)
}.

(** A fresh process. *)
Definition cinit : cstate :=
  {| heap := []; gens := fun _ => None; npts := fun _ => None; batches := fun _ _ => None |}.

(** [next(it)]. *)
Definition heap_next (h : list (nat * nat)) (l : nat) : outcome (layer_t * list (nat * nat)) :=
  match nth_error h l with
  | None => OutOfBounds
  | Some (d, p) => item <- gen_item d p ;; Done (item, upd h l (d, S p))
  end.

(** [tee(it)], second component; the first is the iterator itself. *)
Definition heap_tee (h : list (nat * nat)) (l : nat) : outcome (nat * list (nat * nat)) :=
  match nth_error h l with
  | None => OutOfBounds
  | Some c => Done (length h, h ++ [c])
  end.

Definition fset {A} (f : nat -> A) (d : nat) (v : A) : nat -> A :=
  fun x => if x =? d then v else f x.

(** [memoized_generator] applied to [_integer_lattice_generator],
    _nearest_neighbors.py:308-317. *)
Definition memo_gen (st : cstate) (dims : nat) : outcome (nat * cstate) :=
  let st1 :=
    match gens st dims with
    | Some _ => st
    | None => {| heap := heap st ++ [(dims, 0)];
                 gens := fset (gens st) dims (Some (length (heap st)));
                 npts := npts st; batches := batches st |}
    end in
  match gens st1 dims with
  | None => OutOfBounds (* unreachable *)
  | Some l =>
      '(r, h) <- heap_tee (heap st1) l ;;
      Done (r, {| heap := h; gens := gens st1; npts := npts st1; batches := batches st1 |})
  end.

(** The loop [while n_points * m <= k], _nearest_neighbors.py:300-303. *)
Fixpoint batch_loop (fuel : nat) (h : list (nat * nat)) (l m k n_points : nat)
         (layers : list layer_t) : outcome (list layer_t * list (nat * nat)) :=
  if n_points * m <=? k then
    match fuel with
    | O => OutOfFuel
    | S fuel' =>
        '(layer, h') <- heap_next h l ;;
        batch_loop fuel' h' l m k (n_points + length layer) (layers ++ [layer])
    end
  else Done (layers, h).

(** The undecorated [_integer_lattice_batches], _nearest_neighbors.py:267-305. *)
Definition batches_func (st : cstate) (dims m k : nat)
  : outcome (list layer_t * nat * cstate) :=
  '(g, st1) <- memo_gen st dims ;;
  '(l0, h1) <- heap_next (heap st1) g ;;
  '(layers, h2) <- batch_loop (S k) h1 g m k 1 [l0] ;;
  '(l1, h3) <- heap_next h2 g ;;
  Done (layers ++ [l1], g,
        {| heap := h3; gens := gens st1; npts := npts st1; batches := batches st1 |}).

(** Lines 244-249: number of layers according to [npoints_cache]. *)
Fixpoint count_layers (ns : list nat) (m k : nat) : nat :=
  match ns with
  | [] => 0
  | n :: t => if k <? n * m then 0 else S (count_layers t m k)
  end.

(** [accumulate(len(i) for i in layers)] *)
Fixpoint accumulate (acc : nat) (ls : list nat) : list nat :=
  match ls with
  | [] => []
  | a :: t => (acc + a) :: accumulate (acc + a) t
  end.

(** The cached [_integer_lattice_batches], wrapper at
    _nearest_neighbors.py:235-262. *)
Definition request (st : cstate) (dims m k : nat)
  : outcome (layer_t * nat * cstate) :=
  let np := match npts st dims with Some l => l | None => [] end in
  let st0 := {| heap := heap st; gens := gens st;
                npts := fset (npts st) dims (Some np); batches := batches st |} in
  let n_layers := 1 + count_layers np m k + 1 in
  '(n, st2) <-
    match batches st0 dims n_layers with
    | Some _ => Done (n_layers, st0)
    | None =>
        '(layers, g, st1) <- batches_func st0 dims m k ;;
        let n := length layers in
        let np' := if length np <? n then accumulate 0 (map (@length _) layers) else np in
        Done (n, {| heap := heap st1; gens := gens st1;
                    npts := fset (npts st1) dims (Some np');
                    batches := fset (batches st1) dims
                                 (fset (batches st1 dims) n (Some (concat layers, g))) |})
    end ;;
  match batches st2 dims n with
  | None => Raise KeyError
  | Some (pts, g) =>
      '(r, h) <- heap_tee (heap st2) g ;;
      Done (pts, r, {| heap := h; gens := gens st2; npts := npts st2; batches := batches st2 |})
  end.

(** A request in a fresh process: initial points and position of the iterator. *)
Definition fresh_request (dims m k : nat) : outcome (layer_t * nat) :=
  '(pts, r, st) <- request cinit dims m k ;;
  match nth_error (heap st) r with
  | Some (_, p) => Done (pts, p)
  | None => OutOfBounds
  end.

(** * Histories
    What callers can do: request batches (nearest_neighbors and
    nearest_neighbors_data, lines 64, 167), get the bare generator
    (nearest_neighbors_minval and generate_concentric_cloud, lines 556, 618), and take
    the next batch from any iterator they were given. *)
Inductive op :=
| Request (dims m k : nat)
| Generator (dims : nat)
| Next (handle : nat).

Inductive out :=
| OutPoints (pts : layer_t)
| OutIterator
| OutBatch (batch : layer_t).

Definition step (st : cstate) (hs : list nat) (o : op) : outcome (out * cstate * list nat) :=
  match o with
  | Request dims m k =>
      '(pts, r, st') <- request st dims m k ;; Done (OutPoints pts, st', hs ++ [r])
  | Generator dims =>
      '(r, st') <- memo_gen st dims ;; Done (OutIterator, st', hs ++ [r])
  | Next i =>
      match nth_error hs i with
      | None => Raise IndexError
      | Some l =>
          '(item, h) <- heap_next (heap st) l ;;
          Done (OutBatch item, {| heap := h; gens := gens st; npts := npts st; batches := batches st |}, hs)
      end
  end.

Fixpoint run (st : cstate) (hs : list nat) (ops : list op) : outcome (list out) :=
  match ops with
  | [] => Done []
  | o :: t => '(r, st', hs') <- step st hs o ;; rs <- run st' hs' t ;; Done (r :: rs)
  end.
