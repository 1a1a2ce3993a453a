(** Specification of sites modulo the lattice and of the expansion by symmetry operations,
    independent of the models. *)
From Coq Require Import List ZArith Arith Reals Sorted.
From Verif Require Import SpecGeom.
Import ListNotations.
Open Scope R_scope.

(** Fractional coordinates in [0, 1). *)
Definition in_unit (p : list R) : Prop := Forall (fun a => 0 <= a < 1) p.

(** Equal, and equal up to [tol], modulo integers in every coordinate. *)
Definition same_mod1 (p q : list R) : Prop :=
  length p = length q /\ forall j, (j < length p)%nat -> exists n : Z, nth j p 0 - nth j q 0 = IZR n.
Definition close_mod1 (tol : R) (p q : list R) : Prop :=
  forall j, (j < length p)%nat -> exists n : Z, Rabs (nth j p 0 - nth j q 0 - IZR n) <= tol.

(** The operation x -> M x + t; [M] is given by its rows. *)
Definition operation := (list (list R) * list R)%type.
Definition operation_ok (dims : nat) (g : operation) : Prop :=
  length (fst g) = dims /\ Forall (fun r => length r = dims) (fst g) /\ length (snd g) = dims.
Definition affine (g : operation) (p : list R) : list R :=
  map (fun j => rdot (nth j (fst g) []) p + nth j (snd g) 0) (seq 0 (length p)).

(** Cartesian coordinates of fractional coordinates. *)
Definition cartesian (cell : list (list R)) (f : list R) : list R :=
  map (comb_coord cell f) (seq 0 (length cell)).

(** Points [frac] obtained from the sites [asym] by the operations [ops]: point [k] is the
    image of site [origin k] under operation number [which k]. Sites are listed in order, the
    images of one site in the order of the operations, and an image is listed only if it is
    not within [tol] of the image of that site under an earlier operation. *)
Record expansion (dims : nat) (tol : R) (ops : list operation) (asym frac : list (list R))
  (origin which : list nat) : Prop := {
  ex_origin : length origin = length frac;
  ex_which : length which = length frac;
  ex_unit : Forall (fun f => length f = dims /\ in_unit f) frac;
  ex_range : forall k, (k < length frac)%nat ->
    (nth k origin 0%nat < length asym)%nat /\ (nth k which 0%nat < length ops)%nat;
  ex_image : forall k, (k < length frac)%nat ->
    same_mod1 (nth k frac []) (affine (nth (nth k which 0%nat) ops ([], [])) (nth (nth k origin 0%nat) asym []));
  ex_order : forall k l, (k < l < length frac)%nat ->
    (nth k origin 0%nat < nth l origin 0%nat)%nat \/
    (nth k origin 0%nat = nth l origin 0%nat /\ nth k which 0%nat < nth l which 0%nat)%nat;
  ex_new : forall k w, (k < length frac)%nat -> (w < nth k which 0%nat)%nat ->
    ~ close_mod1 tol (nth k frac []) (affine (nth w ops ([], [])) (nth (nth k origin 0%nat) asym []))
}.

(** The positions [asym] and multiplicities [mult] describe the runs of equal origins. *)
Record runs (origin asym mult : list nat) : Prop := {
  ru_len : length asym = length mult;
  ru_start : forall a, (a < length asym)%nat ->
    (nth a asym 0%nat < length origin)%nat /\ (1 <= nth a mult 0%nat)%nat /\
    (forall k, (k < length origin)%nat ->
       nth k origin 0%nat = nth (nth a asym 0%nat) origin 0%nat <->
       (nth a asym 0%nat <= k < nth a asym 0%nat + nth a mult 0%nat)%nat);
  ru_order : forall a b, (a < b < length asym)%nat -> (nth a asym 0%nat + nth a mult 0%nat <= nth b asym 0%nat)%nat;
  ru_cover : forall k, (k < length origin)%nat -> exists a, (a < length asym)%nat /\
    (nth a asym 0%nat <= k < nth a asym 0%nat + nth a mult 0%nat)%nat;
  ru_sum : fold_right plus 0%nat mult = length origin
}.

(** Closeness is transitive on the images of the sites: no chains of points each within [tol]
    of the next. *)
Definition transitive_images (tol : R) (asym : list (list R)) (ops : list operation) : Prop :=
  forall p q r g h k, In p asym -> In q asym -> In r asym -> In g ops -> In h ops -> In k ops ->
    close_mod1 tol (affine g p) (affine h q) -> close_mod1 tol (affine h q) (affine k r) ->
    close_mod1 tol (affine g p) (affine k r).

(** No image of a site is within [tol] of an image of another site. *)
Definition disjoint_orbits (tol : R) (asym : list (list R)) (ops : list operation) : Prop :=
  forall i j g h, (i < j < length asym)%nat -> In g ops -> In h ops ->
    ~ close_mod1 tol (affine g (nth i asym [])) (affine h (nth j asym [])).
