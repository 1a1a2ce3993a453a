(** Model of src/amd/reconstruct.py. Real numbers. *)
From Coq Require Import List ZArith Reals Arith Bool.
From Verif Require Import Num Base Outcome LatticeModel NNModel UtilsModel PSetModel.
Import ListNotations.
Open Scope R_scope.
Open Scope outcome_scope.

(** ** Filters, lines 287-299 *)

(** Boolean indexing [arr[mask]] *)
Fixpoint select {A} (arr : list A) (mask : list bool) : list A :=
  match arr, mask with
  | x :: t, b :: u => if b then x :: select t u else select t u
  | _, _ => []
  end.
(** Entry of [np.abs(v1[:, None] - v2) < prec] *)
Definition within (prec : R) (v1 v2 : list R) (i j : nat) : bool := Rltb (Rabs (nth i v1 0 - nth j v2 0)) prec.

(** [_unique_within_tol], lines 287-289. Column [j] of the upper triangle holds the rows [i < j]. *)
Definition unique_within_tol (arr : list R) (prec : R) : list R :=
  let n := length arr in
  select arr (map (fun j => negb (existsb (fun i => ((i <? j)%nat && within prec arr arr i j)%bool) (seq 0 n))) (seq 0 n)).

(** [_remove_vals], lines 292-294 *)
Definition remove_vals (vec vals_to_remove : list R) (prec : R) : list R :=
  select vec (map (fun i => negb (existsb (within prec vec vals_to_remove i) (seq 0 (length vals_to_remove)))) (seq 0 (length vec))).

(** [_shared_vals], lines 297-299. [np.argwhere] lists the positions row by row. *)
Definition shared_vals (v1 v2 : list R) (prec : R) : list R :=
  let argwhere := filter (fun ij => within prec v1 v2 (fst ij) (snd ij)) (list_prod (seq 0 (length v1)) (seq 0 (length v2))) in
  map (fun ij => nth (fst ij) v1 0) argwhere.

(** ** Intersections of circles and spheres *)

(** [_bilaterate], lines 210-239 *)
Definition bilaterate (p1 p2 : list R) (r1 r2 abs_val prec : R) : option (list R) :=
  let x1 := nth 0 p1 0 in let y1 := nth 1 p1 0 in
  let d := sqrt ((nth 0 p2 0 - x1) * (nth 0 p2 0 - x1) + (nth 1 p2 0 - y1) * (nth 1 p2 0 - y1)) in
  let v := map (fun c => c / d) (rows_sub p2 p1) in
  let v0 := nth 0 v 0 in let v1 := nth 1 v 0 in
  if Rltb (r1 + r2) d then None
  else if Rltb d (Rabs (r1 - r2)) then None
  else if (Rleb d 0 && Rleb 0 d && Rleb r1 r2 && Rleb r2 r1)%bool then None
  else
    let a := (r1 * r1 - r2 * r2 + d * d) / (2 * d) in
    let h := sqrt (r1 * r1 - a * a) in
    let x2 := x1 + a * v0 in
    let y2 := y1 + a * v1 in
    let x3 := x2 + h * v1 in
    let y3 := y2 - h * v0 in
    let x4 := x2 - h * v1 in
    let y4 := y2 + h * v0 in
    if Rltb (Rabs (sqrt (x3 * x3 + y3 * y3) - abs_val)) prec then Some [x3; y3]
    else if Rltb (Rabs (sqrt (x4 * x4 + y4 * y4) - abs_val)) prec then Some [x4; y4]
    else None.

Definition row_scale (a : R) (u : list R) : list R := map (Rmult a) u.
(** [np.cross] *)
Definition cross (u v : list R) : list R :=
  let a := fun i => nth i u 0 in let b := fun i => nth i v 0 in
  [a 1%nat * b 2%nat - a 2%nat * b 1%nat; a 2%nat * b 0%nat - a 0%nat * b 2%nat; a 0%nat * b 1%nat - a 1%nat * b 0%nat].

(** [_trilaterate], lines 242-284 *)
Definition trilaterate (p1 p2 p3 : list R) (r1 r2 r3 abs_val prec : R) : option (list R) :=
  if Rltb (abs_val + r1 - prec) (norm_row p1) then None
  else if Rltb (abs_val + r2 - prec) (norm_row p2) then None
  else if Rltb (abs_val + r3 - prec) (norm_row p3) then None
  else if Rltb (r1 + r2 - prec) (norm_row (rows_sub p1 p2)) then None
  else if Rltb (r1 + r3 - prec) (norm_row (rows_sub p1 p3)) then None
  else if Rltb (r2 + r3 - prec) (norm_row (rows_sub p2 p3)) then None
  else
    let temp1 := rows_sub p2 p1 in
    let d := norm_row temp1 in
    let e_x := map (fun c => c / d) temp1 in
    let temp2 := rows_sub p3 p1 in
    let i := dot_rows e_x temp2 in
    let temp3 := rows_sub temp2 (row_scale i e_x) in
    let n3 := norm_row temp3 in
    let e_y := map (fun c => c / n3) temp3 in
    let j := dot_rows e_y temp2 in
    let x := (r1 * r1 - r2 * r2 + d * d) / (2 * d) in
    let y := (r1 * r1 - r3 * r3 - 2 * i * x + i * i + j * j) / (2 * j) in
    let temp4 := r1 * r1 - x * x - y * y in
    if Rltb temp4 0 then None
    else
      let e_z := cross e_x e_y in
      let z := sqrt temp4 in
      let base := rows_add (rows_add p1 (row_scale x e_x)) (row_scale y e_y) in
      let p_12_a := rows_add base (row_scale z e_z) in
      let p_12_b := rows_sub base (row_scale z e_z) in
      if Rltb (Rabs (norm_row p_12_a - abs_val)) prec then Some p_12_a
      else if Rltb (Rabs (norm_row p_12_b - abs_val)) prec then Some p_12_b
      else None.

(** ** Search for the points of the motif *)

(** [itertools.combinations] and [itertools.permutations] *)
Fixpoint combinations {A} (r : nat) (l : list A) : list (list A) :=
  match r with
  | 0%nat => [[]]
  | S r' => (fix go (l : list A) := match l with [] => [] | x :: t => map (cons x) (combinations r' t) ++ go t end) l
  end.
Definition drop_at {A} (i : nat) (l : list A) : list A := firstn i l ++ skipn (S i) l.
Fixpoint permutations {A} (r : nat) (l : list A) : list (list A) :=
  match r with
  | 0%nat => [[]]
  | S r' => flat_map (fun i => match nth_error l i with Some x => map (cons x) (permutations r' (drop_at i l)) | None => [] end) (seq 0 (length l))
  end.

(** [sphere_intersect_func( *basis, *distance_tup, abs_q, prec)], lines 122-126 and 143-146. Basis and distances come
    from combinations of [dims] items. *)
Definition sphere_intersect (basis : list (list R)) (distance_tup : list R) (abs_val prec : R) : option (list R) :=
  match basis, distance_tup with
  | [b1; b2; b3], [d1; d2; d3] => trilaterate b1 b2 b3 d1 d2 d3 abs_val prec
  | [b1; b2], [d1; d2] => bilaterate b1 b2 d1 d2 abs_val prec
  | _, _ => None
  end.
Fixpoint first_some {A B} (f : A -> option B) (l : list A) : option B :=
  match l with
  | [] => None
  | x :: t => match f x with Some y => Some y | None => first_some f t end
  end.
(** The nested loops of lines 124-131 and 144-156. *)
Definition search_point (dims : nat) (shared_dists : list R) (bases : list (list (list R))) (abs_val prec : R) (accept : list R -> bool)
  : option (list R) :=
  first_some (fun distance_tup =>
    first_some (fun basis =>
      match sphere_intersect basis distance_tup abs_val prec with
      | None => None
      | Some res => if accept res then Some res else None
      end) bases) (combinations dims shared_dists).
(** [np.all(np.linalg.norm(cloud - res, axis=-1) - abs_q + prec > 0)] *)
Definition nearest_is_origin (cloud : list (list R)) (abs_q prec : R) (res : list R) : bool :=
  forallb (fun c => Rltb 0 (norm_row (rows_sub c res) - abs_q + prec)) cloud.

(** [_find_second_point], lines 119-131 *)
Definition find_second_point (dims : nat) (shared_dists : list R) (bases : list (list (list R))) (cloud : list (list R)) (prec : R)
  : outcome (option (list R)) :=
  match shared_dists with
  | [] => Raise IndexError
  | abs_q :: rest => Done (search_point dims rest bases abs_q prec (nearest_is_origin cloud abs_q prec))
  end.
(** [_find_further_point], lines 134-156 *)
Definition find_further_point (dims : nat) (shared_dists1 shared_dists2 : list R) (bases : list (list (list R))) (cloud : list (list R))
  (q : list R) (prec : R) : outcome (option (list R)) :=
  match shared_dists1 with
  | [] => Raise IndexError
  | abs_q :: rest =>
      Done (search_point dims rest bases abs_q prec (fun res =>
        (nearest_is_origin cloud abs_q prec res &&
         existsb (fun s => Rltb (Rabs (s - norm_row (rows_sub q res))) prec) shared_dists2)%bool))
  end.

(** [generate_concentric_cloud] for the motif of the origin: _nearest_neighbors.py:595-620 *)
Definition concentric_layer (dims : nat) (cell : list (list R)) (pos : nat) : outcome (list (list R)) :=
  layer <- gen_item dims pos ;;
  Done (lattice_to_cloud [repeat 0 dims] (map (latvec dims cell) layer)).

(** ** [_neighbor_set], lines 159-207 *)
Section NeighborSet.
  (** [KDTree(cloud).query(vecs, k=5)] *)
  Variable query : list (list R) -> list (list R) -> list (list R) * list (list nat).
  (** lines 163-170 *)
  Definition coeffs (dims : nat) : list (list R) :=
    filter (existsb (fun c => negb (Rleb c 0 && Rleb 0 c)%bool))
      (fold_right (fun _ acc => flat_map (fun c => map (cons c) acc) [-1; 0; 1]) [[]] (seq 0 dims)).
  Definition half_combination (dims : nat) (cell : list (list R)) (c : list R) : list R :=
    map (fun a => a / 2) (fold_left rows_add (map2 row_scale c cell) (repeat 0 dims)).
  Definition unchanged (a b : list (list R)) : bool :=
    forallb (fun r => forallb (fun x => x) r) (map2 (map2 (fun x y => Rleb (Rabs (x - y)) (/ 10 ^ 12 * Rabs y))) a b).
  (** lines 179-185; [dists_] starts uninitialised *)
  Fixpoint neighbor_loop (fuel dims : nat) (cell vecs : list (list R)) (pos : nat) (cloud dists dists_ : list (list R)) (inds : list (list nat))
    : outcome (list (list R) * list (list nat)) :=
    match fuel with
    | 0%nat => OutOfFuel
    | S fuel =>
        if unchanged dists dists_ then Done (cloud, inds)
        else
          l1 <- concentric_layer dims cell pos ;;
          l2 <- concentric_layer dims cell (S pos) ;;
          let cloud := cloud ++ l1 ++ l2 in
          let '(d, i) := query cloud vecs in
          neighbor_loop fuel dims cell vecs (S (S pos)) cloud dists_ d i
    end.
  Definition neighbor_set (fuel : nat) (empty : list (list R)) (cell : list (list R)) (prec : R) : outcome (list (list R)) :=
    let dims := length cell in
    let vecs := map (half_combination dims cell) (coeffs dims) in
    l0 <- concentric_layer dims cell 0 ;;
    l1 <- concentric_layer dims cell 1 ;;
    let '(dists, inds) := query (l0 ++ l1) vecs in
    '(cloud, inds) <- neighbor_loop fuel dims cell vecs 2 (l0 ++ l1) dists empty inds ;;
    let tmp_inds := filter (fun i => negb (i =? 0)%nat) (isort Nat.leb (nodup Nat.eq_dec (List.concat (map (@tl nat) inds)))) in
    neighbors <- omap (fun i => match nth_error cloud i with Some v => Done v | None => Raise IndexError end) tmp_inds ;;
    Done (select neighbors (map (fun v => forallb (fun u => Rleb 0 (norm_row (rows_sub (map (fun a => a / 2) v) u) - norm_row v / 2 + prec)) neighbors) neighbors)).
End NeighborSet.

(** ** [reconstruct], lines 21-116 *)

(** Lines 64-71, after the origin. *)
Fixpoint cloud_loop (fuel dims : nat) (cell : list (list R)) (diam : R) (pos : nat) (cloud : list (list R)) : outcome (list (list R)) :=
  match fuel with
  | 0%nat => OutOfFuel
  | S fuel =>
      layer <- concentric_layer dims cell pos ;;
      if existsb (fun v => Rleb (norm_row v) diam) layer then cloud_loop fuel dims cell diam (S pos) (cloud ++ layer)
      else match cloud with [] => Raise ValueError | _ => Done cloud end
  end.
(** [np.linalg.det] *)
Definition determinant (m : list (list R)) : R :=
  match m with
  | [a; b] => nth 0 a 0 * nth 1 b 0 - nth 1 a 0 * nth 0 b 0
  | [a; b; c] => dot_rows a (cross b c)
  | _ => 0
  end.
Definition row_of (pdd : list (list R)) (i : nat) : outcome (list R) :=
  match nth_error pdd i with Some r => Done r | None => Raise IndexError end.

Definition reconstruct (inv : list (list R) -> outcome (list (list R)))
  (neighbors : list (list R) -> R -> outcome (list (list R))) (fuel : nat) (pdd cell : list (list R)) : outcome (list (list R)) :=
  let prec := / 10 ^ 10 in
  let dims := length cell in
  if negb ((dims =? 2) || (dims =? 3))%nat then Raise ValueError
  else
    diam <- diameter cell ;;
    let origin := repeat 0 dims in
    if (length pdd =? 1)%nat then Done [origin]
    else
      cloud <- cloud_loop fuel dims cell diam 1 [] ;;
      nn_set <- neighbors cell prec ;;
      let lattice_dists := unique_within_tol (filter (fun x => Rleb x diam) (map norm_row cloud)) prec in
      row1 <- row_of pdd 0 ;;
      let row1_reduced := remove_vals row1 lattice_dists prec in
      row2 <- row_of pdd 1 ;;
      let row2_reduced := remove_vals row2 lattice_dists prec in
      let shared_dists := unique_within_tol (shared_vals row1_reduced row2_reduced prec) prec in
      let bases := flat_map (fun vecs => if Rltb prec (Rabs (determinant vecs)) then permutations dims vecs else []) (combinations dims nn_set) in
      second <- find_second_point dims shared_dists bases cloud prec ;;
      match second with
      | None => Raise RuntimeError
      | Some q =>
          if (length pdd =? 2)%nat then Done [origin; q]
          else
            further <- omap (fun row =>
              let row_reduced := remove_vals row lattice_dists prec in
              let shared_dists1 := unique_within_tol (shared_vals row1_reduced row_reduced prec) prec in
              let shared_dists2 := unique_within_tol (shared_vals row2_reduced row_reduced prec) prec in
              found <- find_further_point dims shared_dists1 shared_dists2 bases cloud q prec ;;
              match found with None => Raise RuntimeError | Some p => Done p end) (skipn 2 pdd) ;;
            cell_inv <- inv cell ;;
            Done (map (fun p => row_times (map frac_part (row_times p cell_inv)) cell) (origin :: q :: further))
      end.
