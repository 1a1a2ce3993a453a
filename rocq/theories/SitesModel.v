(** Model of the expansion of an asymmetric unit by symmetry operations,
    src/amd/io.py:1527-1660 and the last lines of the block converters (687-704, 877-894,
    1058-1075). Points are lists of fractional coordinates. *)
From Coq Require Import List ZArith Arith Bool.
From Verif Require Import Num Base Outcome NNModel CalcModel CompareModel.
Import ListNotations.
Open Scope outcome_scope.
Open Scope list_scope.
Notation length := List.length.

(** [a[mask]] for a boolean mask of the same length. *)
Definition select {A} (mask : list bool) (l : list A) : list A :=
  map snd (filter fst (combine mask l)).

(** [np.unique(invs, return_counts=True)]: the values in increasing order and how often each
    occurs. *)
Definition np_unique_counts (l : list nat) : list nat * list nat :=
  let values := filter (fun v => existsb (Nat.eqb v) l) (seq 0 (S (list_max l))) in
  (values, map (count_occ Nat.eq_dec l) values).

Fixpoint cumsum_from (s : nat) (l : list nat) : list nat :=
  match l with
  | [] => []
  | a :: t => (s + a)%nat :: cumsum_from (s + a) t
  end.
Definition cumsum (l : list nat) : list nat := cumsum_from 0 l.

(** Lines 690-691: [asym_inds = zeros; asym_inds[1:] = cumsum(wyc_muls)[:-1]]. *)
Definition asym_inds (wyc_muls : list nat) : list nat :=
  match wyc_muls with
  | [] => []
  | _ => 0%nat :: removelast (cumsum wyc_muls)
  end.

(** Messages given to warnings.warn by the converters. *)
Inductive warning :=
| OverlappingSites                  (* may have overlapping sites; duplicates will be removed *)
| EquivalentSites (i j : nat)       (* has equivalent sites at positions i, j *)
| MissingSites                      (* atoms without sites or missing data will be removed *)
| NoSymmetry.                       (* no symmetry data found, defaulting to P1 *)

Section Sites.
  Context {T : Type} `{Num T} (mod1 : T -> T).

  (** ** _unique_sites, lines 1645-1660 *)
  Definition coord_neq (tol a b : T) : bool :=
    let d1 := nabs (nsub a b) in
    let d2 := nabs (nsub d1 n1) in
    (nltb tol d1 && nltb tol d2)%bool.
  (** The sum over a row of the mask is not zero. *)
  Definition site_neq (tol : T) (p q : vec T) : bool := existsb (fun b => b) (map2 (coord_neq tol) p q).

  (** [seen] are the sites before the first of [sites]; site 0 is never compared. *)
  Fixpoint unique_from (tol : T) (seen sites : list (vec T)) : list bool :=
    match sites with
    | [] => []
    | p :: t => forallb (fun q => site_neq tol q p) seen :: unique_from tol (seen ++ [p]) t
    end.
  Definition unique_sites (tol : T) (sites : list (vec T)) : list bool := unique_from tol [] sites.

  (** ** _expand_sites, lines 1551-1569; an operation is a matrix and a translation *)
  Definition op := (list (vec T) * vec T)%type.
  Definition np_dot (u v : vec T) : T := ndot u v.
  Definition apply_op (g : op) (p : vec T) : vec T := vadd (map (fun row => np_dot row p) (fst g)) (snd g).
  Definition expand_sites (asym_unit : list (vec T)) (ops : list op) : list (list (vec T)) :=
    map (fun p => map (fun g => map mod1 (apply_op g p)) ops) asym_unit.

  (** ** _reduce_expanded_sites, lines 1572-1603 *)
  Definition unique_images (tol : T) (sites : list (vec T)) : list (vec T) := select (unique_sites tol sites) sites.
  Definition reduce_expanded_sites (tol : T) (expanded : list (list (vec T))) : list (vec T) * list nat :=
    (flat_map (unique_images tol) expanded,
     flat_map (fun ie => repeat (fst ie) (length (unique_images tol (snd ie)))) (enumerate expanded)).

  (** ** _reduce_expanded_equiv_sites, lines 1606-1642 *)
  Definition site_eq (tol : T) (p q : vec T) : bool :=
    forallb (fun b => b)
      (map2 (fun a b => let d1 := nabs (nsub a b) in
                        let d2 := nabs (nsub d1 n1) in
                        (nleb d1 tol || nleb d2 tol)%bool) p q).
  (** [np.argmax] of a mask: the first true entry. *)
  Fixpoint first_eq (tol : T) (site : vec T) (motif : list (vec T)) : option nat :=
    match motif with
    | [] => None
    | q :: t => if site_eq tol site q then Some 0%nat else option_map S (first_eq tol site t)
    end.
  (** Lines 1621-1641: one pass of the loop over the sites after the first. *)
  Definition equiv_step (tol : T) (st : list (vec T) * list nat * list warning) (ie : nat * list (vec T))
    : list (vec T) * list nat * list warning :=
    let '(motif, invs, warn) := st in
    let '(i, sites) := ie in
    let images := unique_images tol sites in
    let points := filter (fun s => match first_eq tol s motif with None => true | _ => false end) images in
    let new_warn := flat_map (fun s => match first_eq tol s motif with
                                       | Some k => [EquivalentSites (nth k invs 0%nat) i]
                                       | None => []
                                       end) images in
    (motif ++ points, invs ++ repeat i (length points), warn ++ new_warn).
  Definition reduce_expanded_equiv_sites (tol : T) (expanded : list (list (vec T)))
    : outcome (list (vec T) * list nat * list warning) :=
    match enumerate expanded with
    | [] => Raise IndexError
    | (_, sites) :: rest =>
        let m0 := unique_images tol sites in
        Done (fold_left (equiv_step tol) rest (m0, repeat 0%nat (length m0), []))
    end.

  (** ** _expand_asym_unit, lines 1527-1548 *)
  Definition expand_asym_unit (tol : T) (uniquify : bool) (asym_unit : list (vec T)) (ops : list op)
    : outcome (list (vec T) * list nat * list warning) :=
    let expanded := expand_sites asym_unit ops in
    let '(motif, invs) := reduce_expanded_sites tol expanded in
    if (uniquify && negb (forallb (fun b => b) (unique_sites tol motif)))%bool
    then reduce_expanded_equiv_sites tol expanded
    else Done (motif, invs, []).

  (** ** The end of the converters, lines 687-704, 877-894 and 1058-1075

      [np.matmul(frac_motif, cell)] and the returned PeriodicSet. *)
  Definition to_cartesian (cell : list (vec T)) (f : vec T) : vec T :=
    map (fun j => np_dot f (map (fun row => nth j row n0) cell)) (seq 0 (length cell)).

  Record crystal_set := { cs_set : pset T; cs_types : list nat }.

  Definition finish (tol : T) (uniquify : bool) (cell asym_unit : list (vec T)) (types : list nat) (ops : list op)
    : outcome (crystal_set * list warning) :=
    '(frac_motif, invs, warn) <- expand_asym_unit tol uniquify asym_unit ops ;;
    let '(_, wyc_muls) := np_unique_counts invs in
    ts <- take types invs ;;
    Done ({| cs_set := {| ps_motif := map (to_cartesian cell) frac_motif; ps_cell := cell;
                          ps_asym := Some (asym_inds wyc_muls); ps_mult := Some wyc_muls |};
             cs_types := ts |}, warn).
End Sites.
