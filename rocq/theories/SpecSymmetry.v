(** Specification of a group of symmetry operations of a lattice, independent of the models. *)
From Coq Require Import List ZArith Arith Reals.
From Verif Require Import SpecGeom SpecSites.
Import ListNotations.
Open Scope R_scope.

(** Translation by a lattice vector, in fractional coordinates. *)
Definition shifted (z : list Z) (p : list R) : list R := map (fun j => nth j p 0 + IZR (nth j z 0%Z)) (seq 0 (length p)).

(** The operations are, up to lattice translations, closed under composition and inverses; they map the lattice of
    the cell to itself and preserve distances. *)
Record symmetry_group (dims : nat) (cell : list (list R)) (ops : list operation) : Prop := {
  sg_some : ops <> [];
  sg_ok : Forall (operation_ok dims) ops;
  sg_integer : forall g i j, In g ops -> exists z : Z, nth i (nth j (fst g) []) 0 = IZR z;
  sg_compose : forall g h, In g ops -> In h ops -> exists k z, In k ops /\ length z = dims /\
    forall p, length p = dims -> affine g (affine h p) = shifted z (affine k p);
  sg_inverse : forall g, In g ops -> exists h z z', In h ops /\ length z = dims /\ length z' = dims /\
    forall p, length p = dims -> affine h (affine g p) = shifted z p /\ affine g (affine h p) = shifted z' p;
  sg_isometry : forall g p q, In g ops -> length p = dims -> length q = dims ->
    edist (cartesian cell (affine g p)) (cartesian cell (affine g q)) = edist (cartesian cell p) (cartesian cell q)
}.

(** Images of the sites within [tol] of each other are the same point. *)
Definition separated (tol : R) (asym : list (list R)) (ops : list operation) : Prop :=
  forall p q g h, In p asym -> In q asym -> In g ops -> In h ops ->
    close_mod1 tol (affine g p) (affine h q) -> same_mod1 (affine g p) (affine h q).

(** Every image of a site of the first description is, up to a lattice translation, one of the second. *)
Definition covered (asym : list (list R)) (ops : list operation) (asym' : list (list R)) (ops' : list operation) : Prop :=
  forall p g, In p asym -> In g ops -> exists q h, In q asym' /\ In h ops' /\ same_mod1 (affine g p) (affine h q).

(** A crystal: sites and symmetry operations in a cell. *)
Record crystal (dims : nat) (tol : R) (cell asym : list (list R)) (ops : list operation) : Prop := {
  cr_dims : (1 <= dims)%nat;
  cr_cell : length cell = dims;
  cr_cells : Forall (fun r => length r = dims) cell;
  cr_volume : nonsingular dims cell;
  cr_some : asym <> [];
  cr_sites : Forall (fun p => length p = dims) asym;
  cr_group : symmetry_group dims cell ops;
  cr_separated : separated tol asym ops
}.
