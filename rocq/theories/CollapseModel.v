(** Model of [_collapse_into_groups], src/amd/calculate.py:461-485. *)
From Coq Require Import List Arith Bool.
From Verif Require Import Condensed.
Import ListNotations.

(** The dict [group_nums] (calculate.py:469) as a partial map; its insertion order
    is irrelevant because it is read through [sorted] (calculate.py:481). *)
Definition gmap := nat -> option nat.
Definition gset (g : gmap) (i v : nat) : gmap :=
  fun x => if x =? i then Some v else g x.

(** [if j not in group_nums: group_nums[j] = group_nums[i]], calculate.py:476-478,
    for the [j] listed by [np.argwhere(row).T[0]] (increasing). *)
Fixpoint mark (g : gmap) (v : nat) (js : list nat) : gmap :=
  match js with
  | [] => g
  | j :: t =>
      match g j with
      | None => mark (gset g j v) v t
      | Some _ => mark g v t
      end
  end.

(** One iteration of the loop over rows, calculate.py:471-478. *)
Definition cstep (n : nat) (ov : nat -> nat -> bool) (st : gmap * nat) (i : nat) : gmap * nat :=
  let '(g, group) := st in
  match g i with
  | Some _ => (g, group)
  | None => (mark (gset g i group) group (filter (ov i) (seq 0 n)), S group)
  end.

(** calculate.py:469-478: the table of group numbers after all rows. *)
Definition group_nums (n : nat) (ov : nat -> nat -> bool) : gmap * nat :=
  fold_left (cstep n ov) (seq 0 n) (fun _ => None, 0).

(** [groups[group_num].append(row_ind)] on an insertion-ordered defaultdict(list),
    calculate.py:480-482. *)
Fixpoint dict_append (d : list (nat * list nat)) (k r : nat) : list (nat * list nat) :=
  match d with
  | [] => [(k, [r])]
  | (k', l) :: t => if k' =? k then (k', l ++ [r]) :: t else (k', l) :: dict_append t k r
  end.

(** calculate.py:480-483: rows in increasing order, values in insertion order. *)
Definition build_groups (n : nat) (g : gmap) : list (list nat) :=
  map snd (fold_left (fun d r => match g r with Some k => dict_append d k r | None => d end)
                     (seq 0 n) []).

(** calculate.py:461-485. [overlapping] is the condensed boolean vector over [n]
    rows; [squareform] gives the symmetric matrix with [False] diagonal. *)
Definition collapse_into_groups (n : nat) (overlapping : list bool) : list (list nat) :=
  build_groups n (fst (group_nums n (squareform false n overlapping))).
