(** Model of the integer lattice generator, src/amd/_nearest_neighbors.py:224-406. *)
From Coq Require Import List ZArith Arith Bool.
From Verif Require Import Outcome.
Import ListNotations.
Open Scope outcome_scope.

(** [product(range(a), repeat=r)] in lexicographic order (itertools). *)
Fixpoint product_range (a r : nat) : list (list nat) :=
  match r with
  | O => [[]]
  | S r' => flat_map (fun i => map (cons i) (product_range a r')) (seq 0 a)
  end.

(** [sum(i**2 for i in xy)], _nearest_neighbors.py:354. *)
Definition sumsq (v : list nat) : nat := fold_right (fun i s => i * i + s) 0 v.

(** The dict [ymax] with default 0 ([if xy not in ymax: ymax[xy] = 0],
    _nearest_neighbors.py:352-353): a total map. *)
Definition heights := list nat -> nat.

Definition hset (h : heights) (xy : list nat) (v : nat) : heights :=
  fun z => if list_eq_dec Nat.eq_dec z xy then v else h z.

(** One pass of the [for xy in product(...)] loop, _nearest_neighbors.py:351-357.
    State: heights, points appended so far (in order), whether any was appended. *)
Definition pass_step (d : nat) (st : heights * list (list nat) * bool) (xy : list nat)
  : heights * list (list nat) * bool :=
  let '(h, acc, batch) := st in
  if sumsq xy + h xy * h xy <=? d * d
  then (hset h xy (S (h xy)), acc ++ [xy ++ [h xy]], true)
  else (h, acc, batch).

Definition pass (dims d : nat) (h : heights) (acc : list (list nat))
  : heights * list (list nat) * bool :=
  fold_left (pass_step d) (product_range (d + 1) (dims - 1)) (h, acc, false).

(** The inner [while True] loop, _nearest_neighbors.py:349-359. *)
Fixpoint passes (fuel : nat) (dims d : nat) (h : heights) (acc : list (list nat))
  : outcome (heights * list (list nat)) :=
  match fuel with
  | O => OutOfFuel
  | S fuel' =>
      let '(h', acc', batch) := pass dims d h acc in
      if batch then passes fuel' dims d h' acc' else Done (h', acc')
  end.

(** * Reflections, _nearest_neighbors.py:365-406 *)

(** Next combination of axes, lines 387-396: the rightmost position [i] with
    [axes[i] != i + dims - n_reflections] is incremented and the following ones
    restarted; [None] when there is none (the [for ... else: break]).  The scan from
    the right is written as a recursion on the list; [i] is the position of the head. *)
Fixpoint next_axes (dims n i : nat) (axes : list nat) : option (list nat) :=
  match axes with
  | [] => None
  | a :: t =>
      match next_axes dims n (S i) t with
      | Some t' => Some (a :: t')
      | None => if a =? i + dims - n then None
                else Some (S a :: seq (S (S a)) (length t))
      end
  end.

(** [int_lattice[:, axes] *= -1] on one point (lines 383, 400). *)
Definition negate_axes (axes : list nat) (p : list Z) : list Z :=
  map (fun ix => if existsb (Nat.eqb (fst ix)) axes then Z.opp (snd ix) else snd ix)
      (combine (seq 0 (length p)) p).

(** [(positive_int_lattice[:, axes] == 0).sum(axis=-1) == 0] (lines 381, 398). *)
Definition off_axes (axes : list nat) (p : list Z) : bool :=
  forallb (fun a => negb (Z.eqb (nth a p 0%Z) 0%Z)) axes.

(** Points reflected for one choice of axes (lines 381-384, 398-401). *)
Definition reflect_axes (pos : list (list Z)) (axes : list nat) : list (list Z) :=
  map (negate_axes axes) (filter (off_axes axes) pos).

(** The [while True] loop over combinations (lines 386-401). *)
Fixpoint reflect_loop (fuel dims n : nat) (pos : list (list Z)) (axes : list nat)
  : outcome (list (list Z)) :=
  match fuel with
  | O => OutOfFuel
  | S fuel' =>
      match next_axes dims n 0 axes with
      | None => Done []
      | Some axes' =>
          rest <- reflect_loop fuel' dims n pos axes' ;;
          Done (reflect_axes pos axes' ++ rest)
      end
  end.

(** One value of [n_reflections] (lines 378-401). *)
Definition reflect_n (fuel dims : nat) (pos : list (list Z)) (n : nat) : outcome (list (list Z)) :=
  rest <- reflect_loop fuel dims n pos (seq 0 n) ;;
  Done (reflect_axes pos (seq 0 n) ++ rest).

(** _nearest_neighbors.py:365-406. Fuel [2 ^ dims] is shown sufficient. *)
Definition reflect (dims : nat) (pos : list (list Z)) : outcome (list (list Z)) :=
  parts <- omap (reflect_n (2 ^ dims) dims pos) (seq 1 dims) ;;
  Done (pos ++ concat parts).

(** * The generator, _nearest_neighbors.py:320-362 *)

(** State of the suspended generator for [dims >= 2]: next radius and heights. *)
Definition gen_state := (nat * heights)%type.
Definition gen_init : gen_state := (0, fun _ => 0).

Definition to_Z (v : list nat) : list Z := map Z.of_nat v.

(** One [yield] for [dims >= 2], lines 347-362. *)
Definition gen_next (dims : nat) (st : gen_state) : outcome (list (list Z) * gen_state) :=
  let '(d, h) := st in
  '(h', pos) <- passes (d + 2) dims d h [] ;;
  layer <- reflect dims (map to_Z pos) ;;
  Done (layer, (S d, h')).

Fixpoint gen_run (dims n : nat) (st : gen_state) : outcome (list (list Z)) :=
  '(layer, st') <- gen_next dims st ;;
  match n with
  | O => Done layer
  | S n' => gen_run dims n' st'
  end.

(** The [n]-th item (from 0) yielded by [_integer_lattice_generator(dims)].
    Lines 340-344 for [dims == 1]. *)
Definition gen_item (dims n : nat) : outcome (list (list Z)) :=
  if dims =? 1 then
    match n with
    | O => Done [[0%Z]]
    | S _ => Done [[(- Z.of_nat n)%Z]; [Z.of_nat n]]
    end
  else gen_run dims n gen_init.
