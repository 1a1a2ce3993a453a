(** Model of src/amd/_emd.py with the 64-bit integers it uses: sums, differences and products
    of [np.int64] are reduced to the range of 64 bits.  The functions without arithmetic on
    array entries are those of EmdModel.v; each function below is the one of EmdModel.v of the
    same name with [wrap] wherever the source computes with [np.int64]. *)
From Coq Require Import List ZArith Bool Reals.
From Verif Require Import Num Outcome Base NNModel CalcModel EmdModel EmdReal VecR.
Import ListNotations.
Open Scope outcome_scope.
Open Scope Z_scope.

Definition int64_half : Z := 9223372036854775808.
Definition int64_size : Z := 18446744073709551616.

(** Two's complement. *)
Definition wrap (z : Z) : Z := (z + int64_half) mod int64_size - int64_half.

Section Simplex.
  Variable N : net.

  (** _reduced_cost, lines 202-208. *)
  Definition reduced_cost64 (potentials flows : list Z) (i : Z) : outcome Z :=
    c <- getZ (costs N) i ;;
    t <- getZ (tails N) i ;;
    pt <- getZ potentials t ;;
    h <- getZ (heads N) i ;;
    ph <- getZ potentials h ;;
    f <- getZ flows i ;;
    let c := wrap (wrap (c - pt) + ph) in
    Done (if f =? 0 then c else wrap (- c)).

  (** Lines 222-233. *)
  Definition block_edges64 (f : Z) : list Z * Z :=
    let l := wrap (f + block N) in
    if l <=? n_arcs N then (arange f l, l)
    else let l := wrap (l - n_arcs N) in (arange f (n_arcs N) ++ arange 0 l, l).

  (** Lines 238-242. *)
  Fixpoint best_edge64 (potentials flows : list Z) (i c : Z) (js : list Z) : outcome (Z * Z) :=
    match js with
    | [] => Done (i, c)
    | j :: t =>
        cost <- reduced_cost64 potentials flows j ;;
        if cost <? c then best_edge64 potentials flows j cost t
        else best_edge64 potentials flows i c t
    end.

  (** Lines 219-261. *)
  Fixpoint find_entering64 (blocks : nat) (potentials flows : list Z) (f : Z)
    : outcome (option (Z * Z * Z * Z)) :=
    match blocks with
    | O => Done None
    | S blocks' =>
        let '(inds, f') := block_edges64 f in
        match inds with
        | [] => OutOfBounds
        | i0 :: js =>
            c0 <- reduced_cost64 potentials flows i0 ;;
            '(i, c) <- best_edge64 potentials flows i0 c0 js ;;
            if 0 <=? c then find_entering64 blocks' potentials flows f'
            else
              fl <- getZ flows i ;;
              t <- getZ (tails N) i ;;
              h <- getZ (heads N) i ;;
              Done (Some (if fl =? 0 then (i, t, h, f') else (i, h, t, f')))
        end
    end.

  Definition n_blocks64 : nat := Z.to_nat (wrap (wrap (n_arcs N + block N) - 1) / block N).

  Definition find_entering_edges64 (potentials flows : list Z) (f : Z)
    : outcome (option (Z * Z * Z * Z)) := find_entering64 n_blocks64 potentials flows f.

  (** Lines 162, 348, 352. *)
  Definition residual64 (flows : list Z) (j s : Z) : outcome Z :=
    t <- getZ (tails N) j ;;
    if t =? s then (c <- getZ (capac N) j ;; f <- getZ flows j ;; Done (wrap (c - f))) else getZ flows j.

  (** _find_leaving_edge, lines 342-359. *)
  Fixpoint leaving_loop64 (flows : list Z) (j s m : Z) (rest : list (Z * Z)) : outcome (Z * Z) :=
    match rest with
    | [] => Done (j, s)
    | (j_, s_) :: t =>
        r <- residual64 flows j_ s_ ;;
        if r <? m then leaving_loop64 flows j_ s_ r t else leaving_loop64 flows j s m t
    end.

  Definition find_leaving_edge64 (flows : list Z) (cycle : list (Z * Z)) : outcome (Z * Z * Z) :=
    match cycle with
    | [] => OutOfBounds
    | (j0, s0) :: rest =>
        m0 <- residual64 flows j0 s0 ;;
        '(j, s) <- leaving_loop64 flows j0 s0 m0 rest ;;
        t <- getZ (tails N) j ;;
        if t =? s then (h <- getZ (heads N) j ;; Done (j, s, h)) else Done (j, s, t)
    end.

  (** Lines 165-169. *)
  Fixpoint augment64 (flows : list Z) (res_cap : Z) (cycle : list (Z * Z)) : outcome (list Z) :=
    match cycle with
    | [] => Done flows
    | (i, p) :: rest =>
        t <- getZ (tails N) i ;;
        f <- getZ flows i ;;
        flows' <- setZ flows i (if t =? p then wrap (f + res_cap) else wrap (f - res_cap)) ;;
        augment64 flows' res_cap rest
    end.

  (** Lines 381-385 and 449-453; [change] is what happens to a size. *)
  Fixpoint climb64 (fuel : nat) (par : list Z) (sz la : list Z) (s : Z) (change : Z -> Z) (old new : Z)
    : outcome (list Z * list Z) :=
    if s =? -2 then Done (sz, la)
    else
    match fuel with
    | O => OutOfFuel
    | S fuel' =>
        a <- getZ sz s ;;
        sz' <- setZ sz s (change a) ;;
        l <- getZ la s ;;
        la' <- (if l =? old then setZ la s new else Done la) ;;
        s' <- getZ par s ;;
        climb64 fuel' par sz' la' s' change old new
    end.

  (** _remove_edge, lines 362-385. *)
  Definition remove_edge64 (fuel : nat) (ts : tree_st) (s t : Z) : outcome tree_st :=
    size_t <- getZ (size ts) t ;;
    prev_t <- getZ (prev_node ts) t ;;
    last_t <- getZ (last_node ts) t ;;
    next_last_t <- getZ (next_node ts) last_t ;;
    par <- setZ (parent ts) t (-2) ;;
    ed <- setZ (edge ts) t (-2) ;;
    nx1 <- setZ (next_node ts) prev_t next_last_t ;;
    pv1 <- setZ (prev_node ts) next_last_t prev_t ;;
    nx2 <- setZ nx1 last_t t ;;
    pv2 <- setZ pv1 t last_t ;;
    '(sz, la) <- climb64 fuel par (size ts) (last_node ts) s (fun a => wrap (a - size_t)) last_t prev_t ;;
    Done {| parent := par; size := sz; next_node := nx2; last_node := la; prev_node := pv2; edge := ed |}.

  (** Lines 398-427. *)
  Definition reroot_step64 (ts : tree_st) (p q : Z) : outcome tree_st :=
    size_p <- getZ (size ts) p ;;
    last_p <- getZ (last_node ts) p ;;
    prev_q <- getZ (prev_node ts) q ;;
    last_q <- getZ (last_node ts) q ;;
    next_last_q <- getZ (next_node ts) last_q ;;
    par1 <- setZ (parent ts) p q ;;
    par2 <- setZ par1 q (-2) ;;
    eq <- getZ (edge ts) q ;;
    ed1 <- setZ (edge ts) p eq ;;
    ed2 <- setZ ed1 q (-2) ;;
    size_q <- getZ (size ts) q ;;
    sz1 <- setZ (size ts) p (wrap (size_p - size_q)) ;;
    sz2 <- setZ sz1 q size_p ;;
    nx1 <- setZ (next_node ts) prev_q next_last_q ;;
    pv1 <- setZ (prev_node ts) next_last_q prev_q ;;
    nx2 <- setZ nx1 last_q q ;;
    pv2 <- setZ pv1 q last_q ;;
    '(la1, last_p') <- (if last_p =? last_q
                        then (l <- setZ (last_node ts) p prev_q ;; Done (l, prev_q))
                        else Done (last_node ts, last_p)) ;;
    pv3 <- setZ pv2 p last_q ;;
    nx3 <- setZ nx2 last_q p ;;
    nx4 <- setZ nx3 last_p' q ;;
    pv4 <- setZ pv3 q last_p' ;;
    la2 <- setZ la1 q last_p' ;;
    Done {| parent := par2; size := sz2; next_node := nx4; last_node := la2; prev_node := pv4; edge := ed2 |}.

  Fixpoint reroot_loop64 (ts : tree_st) (anc : list Z) : outcome tree_st :=
    match anc with
    | p :: ((q :: _) as rest) => ts' <- reroot_step64 ts p q ;; reroot_loop64 ts' rest
    | _ => Done ts
    end.

  (** _make_root, lines 388-427. *)
  Definition make_root64 (fuel : nat) (ts : tree_st) (q : Z) : outcome tree_st :=
    anc <- ancestors fuel (parent ts) q [] ;;
    reroot_loop64 ts anc.

  (** _add_edge, lines 430-453. *)
  Definition add_edge64 (fuel : nat) (ts : tree_st) (i p q : Z) : outcome tree_st :=
    last_p <- getZ (last_node ts) p ;;
    next_last_p <- getZ (next_node ts) last_p ;;
    size_q <- getZ (size ts) q ;;
    last_q <- getZ (last_node ts) q ;;
    par <- setZ (parent ts) q p ;;
    ed <- setZ (edge ts) q i ;;
    nx1 <- setZ (next_node ts) last_p q ;;
    pv1 <- setZ (prev_node ts) q last_p ;;
    pv2 <- setZ pv1 next_last_p last_q ;;
    nx2 <- setZ nx1 last_q next_last_p ;;
    '(sz, la) <- climb64 fuel par (size ts) (last_node ts) p (fun a => wrap (a + size_q)) last_p last_q ;;
    Done {| parent := par; size := sz; next_node := nx2; last_node := la; prev_node := pv2; edge := ed |}.

  (** Lines 469-472. *)
  Fixpoint shift_subtree64 (fuel : nat) (potentials next : list Z) (q l d : Z) : outcome (list Z) :=
    if q =? l then Done potentials
    else
    match fuel with
    | O => OutOfFuel
    | S fuel' =>
        q' <- getZ next q ;;
        a <- getZ potentials q' ;;
        pots <- setZ potentials q' (wrap (a + d)) ;;
        shift_subtree64 fuel' pots next q' l d
    end.

  (** _update_potentials, lines 456-472. *)
  Definition update_potentials64 (fuel : nat) (potentials : list Z) (ts : tree_st) (i p q : Z)
    : outcome (list Z) :=
    h <- getZ (heads N) i ;;
    pp <- getZ potentials p ;;
    c <- getZ (costs N) i ;;
    pq <- getZ potentials q ;;
    let d := if q =? h then wrap (wrap (pp - c) - pq) else wrap (wrap (pp + c) - pq) in
    pots <- setZ potentials q (wrap (pq + d)) ;;
    l <- getZ (last_node ts) q ;;
    shift_subtree64 fuel pots (next_node ts) q l d.

  (** Lines 148-190. *)
  Definition pivot64 (fuel : nat) (st : state) : outcome (option state) :=
    ent <- find_entering_edges64 (potentials st) (flows st) (pos st) ;;
    match ent with
    | None => Done None
    | Some (i, p, q, f) =>
        '(nodes, edges) <- find_cycle fuel (tree st) i p q ;;
        let cycle := combine edges nodes in
        '(j, s, t) <- find_leaving_edge64 (flows st) cycle ;;
        res_cap <- residual64 (flows st) j s ;;
        fl <- augment64 (flows st) res_cap cycle ;;
        if i =? j then
          Done (Some {| flows := fl; potentials := potentials st; tree := tree st; pos := f |})
        else
          pt <- getZ (parent (tree st)) t ;;
          let '(s, t) := if pt =? s then (s, t) else (t, s) in
          let '(p, q) := if leaves_first edges i j then (q, p) else (p, q) in
          ts1 <- remove_edge64 fuel (tree st) s t ;;
          ts2 <- make_root64 fuel ts1 q ;;
          ts3 <- add_edge64 fuel ts2 i p q ;;
          pots <- update_potentials64 fuel (potentials st) ts3 i p q ;;
          Done (Some {| flows := fl; potentials := pots; tree := ts3; pos := f |})
    end.

  Fixpoint pivots64 (fuel inner : nat) (st : state) : outcome state :=
    match fuel with
    | O => OutOfFuel
    | S fuel' =>
        r <- pivot64 inner st ;;
        match r with
        | None => Done st
        | Some st' => pivots64 fuel' inner st'
        end
    end.
End Simplex.

(** * Setting up, lines 64-145 *)

(** [np.sum] of [np.int64] *)
Definition sum64 (l : list Z) : Z := fold_left (fun s a => wrap (s + a)) l 0.

Definition add_at_max64 (l : list Z) (delta : Z) : list Z :=
  upd l (argmax l) (wrap (nth (argmax l) l 0 + delta)).

(** Lines 71-78; [-=] of the negative difference. *)
Definition balance64 (src snk : list Z) : list Z * list Z :=
  let diff := wrap (sum64 snk - sum64 src) in
  if 0 <? diff then (add_at_max64 src diff, snk)
  else if diff <? 0 then (src, add_at_max64 snk (wrap (- diff)))
  else (src, snk).

(** Lines 114-119; [np.amax] of the weights, which are not empty. *)
Definition faux_inf64 (src snk cost cap : list Z) : Z :=
  wrap (3 * Z.max (Z.max (sum64 cost) (sum64 cap)) (Z.max (maxz src) (maxz snk))).

Definition make_net64 (src snk cost cap : list Z) : net :=
  let ns := Z.of_nat (length src) in
  let nd := Z.of_nat (length snk) in
  let n := wrap (ns + nd) in
  let e := wrap (ns * nd) in
  let demands := map (fun a => wrap (- a)) src ++ snk in
  let pairs := flat_map (fun i => map (fun j => (i, ns + j)) (arange 0 nd)) (arange 0 ns) in
  let art := map (fun id => if 0 <? snd id then -1 else fst id) (combine (arange 0 n) demands) in
  {| n_nodes := n; n_arcs := e; block := ceil_sqrt e;
     tails := map fst pairs ++ art;
     heads := map snd pairs ++ art;
     costs := cost ++ map (fun _ => faux_inf64 src snk cost cap) demands;
     capac := cap ++ map (fun _ => FP) demands |}.

Definition init_state64 (src snk cost cap : list Z) : state :=
  let ns := Z.of_nat (length src) in
  let nd := Z.of_nat (length snk) in
  let n := wrap (ns + nd) in
  let e := wrap (ns * nd) in
  let M := faux_inf64 src snk cost cap in
  {| flows := map (fun _ => 0) cost ++ src ++ snk;
     potentials := map (fun d => if d <=? 0 then M else wrap (- M)) (map (fun a => wrap (- a)) src ++ snk);
     tree := {| parent := map (fun _ => -1) (arange 0 n) ++ [-2];
                size := map (fun _ => 1) (arange 0 n) ++ [n + 1];
                next_node := arange 1 n ++ [-1; 0];
                last_node := arange 0 n ++ [n - 1];
                prev_node := arange (-1) n;
                edge := arange e (e + n) |};
     pos := 0 |}.

Definition simplex64 (fuel : nat) (src snk cost cap : list Z) : outcome (list Z) :=
  let n := (length src + length snk)%nat in
  st <- pivots64 (make_net64 src snk cost cap) fuel (S (S n)) (init_state64 src snk cost cap) ;;
  Done (firstn (length cost) (flows st)).

(** * network_simplex and EMD with these integers

    [cast] is [.astype(np.int64)]: what it gives for numbers outside the range of 64 bits is
    not specified (numpy: the C conversion). *)
Section Real.
  Variable cast : R -> Z.

  Definition to_fp64 (r : R) : Z := cast (r * fp_multiplier)%R.

  (** Lines 104-111. *)
  Definition int_caps64 (w1 w2 : list R) : list Z := flat_map (fun a => map (fun b => to_fp64 (Rmin a b)) w2) w1.

  Definition network_simplex64 (fuel : nat) (w1 w2 : list R) (c : list (list R)) : outcome (R * list (list R)) :=
    let '(src, snk) := balance64 (map to_fp64 w1) (map to_fp64 w2) in
    let cost := map to_fp64 (concat c) in
    fl <- simplex64 fuel src snk cost (int_caps64 w1 w2) ;;
    let final_flows := map of_fp fl in
    let edge_costs := map of_fp cost in
    Done (dot final_flows edge_costs, reshape (length w1) (length w2) final_flows).

  Definition EMD64 (fuel : nat) (p q : list (list R)) : outcome (R * list (list R)) :=
    dm <- cdist_cheb (rows_of p) (rows_of q) ;;
    network_simplex64 fuel (weights_of p) (weights_of q) dm.
End Real.
