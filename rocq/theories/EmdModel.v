(** Model of src/amd/_emd.py: the network simplex algorithm on integers.

    Arrays are lists with the wraparound of numba for negative indices; an access outside is
    [OutOfBounds] (numba does not check).  The integers are unbounded ([np.int64] overflow is
    not modelled).  Loops take fuel. *)
From Coq Require Import List ZArith Bool.
From Verif Require Import Outcome.
Import ListNotations.
Open Scope outcome_scope.
Open Scope Z_scope.

(** [np.arange(a, b)] *)
Definition arange (a b : Z) : list Z := map (fun k => a + Z.of_nat k) (seq 0 (Z.to_nat (b - a))).

Definition zsum (l : list Z) : Z := fold_right Z.add 0 l.

(** Constants of a run, lines 64-129. *)
Record net := {
  n_nodes : Z;              (* n, line 65 *)
  n_arcs : Z;               (* e, line 66 *)
  block : Z;                (* B, line 67 *)
  tails : list Z;
  heads : list Z;
  costs : list Z;
  capac : list Z
}.

(** What the pivot loop changes. *)
Record tree_st := {
  parent : list Z;
  size : list Z;
  next_node : list Z;
  last_node : list Z;
  prev_node : list Z;
  edge : list Z
}.

Section Simplex.
  Variable N : net.

  (** _reduced_cost, lines 202-208. *)
  Definition reduced_cost (potentials flows : list Z) (i : Z) : outcome Z :=
    c <- getZ (costs N) i ;;
    t <- getZ (tails N) i ;;
    pt <- getZ potentials t ;;
    h <- getZ (heads N) i ;;
    ph <- getZ potentials h ;;
    f <- getZ flows i ;;
    Done (if f =? 0 then c - pt + ph else - (c - pt + ph)).

  (** The edges of a block and the next value of [f], lines 222-233. *)
  Definition block_edges (f : Z) : list Z * Z :=
    let l := f + block N in
    if l <=? n_arcs N then (arange f l, l)
    else (arange f (n_arcs N) ++ arange 0 (l - n_arcs N), l - n_arcs N).

  (** Lines 238-242: the first edge with the lowest reduced cost. *)
  Fixpoint best_edge (potentials flows : list Z) (i c : Z) (js : list Z) : outcome (Z * Z) :=
    match js with
    | [] => Done (i, c)
    | j :: t =>
        cost <- reduced_cost potentials flows j ;;
        if cost <? c then best_edge potentials flows j cost t
        else best_edge potentials flows i c t
    end.

  (** The loop [while m < (e + B - 1) // B], lines 219-261; the fuel is the number of
      blocks left.  [None]: no entering edge. *)
  Fixpoint find_entering (blocks : nat) (potentials flows : list Z) (f : Z)
    : outcome (option (Z * Z * Z * Z)) :=
    match blocks with
    | O => Done None
    | S blocks' =>
        let '(inds, f') := block_edges f in
        match inds with
        | [] => OutOfBounds
        | i0 :: js =>
            c0 <- reduced_cost potentials flows i0 ;;
            '(i, c) <- best_edge potentials flows i0 c0 js ;;
            if 0 <=? c then find_entering blocks' potentials flows f'
            else
              fl <- getZ flows i ;;
              t <- getZ (tails N) i ;;
              h <- getZ (heads N) i ;;
              Done (Some (if fl =? 0 then (i, t, h, f') else (i, h, t, f')))
        end
    end.

  (** [(e + B - 1) // B]; numba raises ZeroDivisionError for [B = 0] (no edges), which
      cannot happen for non-empty distributions. *)
  Definition n_blocks : nat := Z.to_nat ((n_arcs N + block N - 1) / block N).

  Definition find_entering_edges (potentials flows : list Z) (f : Z)
    : outcome (option (Z * Z * Z * Z)) := find_entering n_blocks potentials flows f.

  (** _find_apex, lines 264-287.  The two inner loops and the final test of the outer loop
      are one step each: after an inner loop the next test is the one that follows it. *)
  Fixpoint find_apex (fuel : nat) (ts : tree_st) (p q : Z) : outcome Z :=
    match fuel with
    | O => OutOfFuel
    | S fuel' =>
        sp <- getZ (size ts) p ;;
        sq <- getZ (size ts) q ;;
        if sp <? sq then p' <- getZ (parent ts) p ;; find_apex fuel' ts p' q
        else if sq <? sp then q' <- getZ (parent ts) q ;; find_apex fuel' ts p q'
        else if p =? q then Done p
        else
          p' <- getZ (parent ts) p ;;
          q' <- getZ (parent ts) q ;;
          find_apex fuel' ts p' q'
    end.

  (** _trace_path, lines 290-304. *)
  Fixpoint trace_path (fuel : nat) (ts : tree_st) (p w : Z) : outcome (list Z * list Z) :=
    if p =? w then Done ([p], [])
    else
    match fuel with
    | O => OutOfFuel
    | S fuel' =>
        a <- getZ (edge ts) p ;;
        p' <- getZ (parent ts) p ;;
        '(ns, es) <- trace_path fuel' ts p' w ;;
        Done (p :: ns, a :: es)
    end.

  (** _find_cycle, lines 307-339. *)
  Definition find_cycle (fuel : nat) (ts : tree_st) (i p q : Z) : outcome (list Z * list Z) :=
    w <- find_apex fuel ts p q ;;
    '(ns, es) <- trace_path fuel ts p w ;;
    '(ns', es') <- trace_path fuel ts q w ;;
    let nodes := rev ns ++ removelast ns' in
    let edges :=
      match rev es with
      | [] => [i] ++ es'
      | a :: _ => if a =? i then rev es ++ es' else rev es ++ [i] ++ es'
      end in
    Done (nodes, edges).

  (** Residual capacity of edge [j] left from node [s], lines 162, 348, 352. *)
  Definition residual (flows : list Z) (j s : Z) : outcome Z :=
    t <- getZ (tails N) j ;;
    if t =? s then (c <- getZ (capac N) j ;; f <- getZ flows j ;; Done (c - f)) else getZ flows j.

  (** _find_leaving_edge, lines 342-359: loop and result. *)
  Fixpoint leaving_loop (flows : list Z) (j s m : Z) (rest : list (Z * Z)) : outcome (Z * Z) :=
    match rest with
    | [] => Done (j, s)
    | (j_, s_) :: t =>
        r <- residual flows j_ s_ ;;
        if r <? m then leaving_loop flows j_ s_ r t else leaving_loop flows j s m t
    end.

  Definition find_leaving_edge (flows : list Z) (cycle : list (Z * Z)) : outcome (Z * Z * Z) :=
    match cycle with
    | [] => OutOfBounds
    | (j0, s0) :: rest =>
        m0 <- residual flows j0 s0 ;;
        '(j, s) <- leaving_loop flows j0 s0 m0 rest ;;
        t <- getZ (tails N) j ;;
        if t =? s then (h <- getZ (heads N) j ;; Done (j, s, h)) else Done (j, s, t)
    end.

  (** Lines 165-169. *)
  Fixpoint augment (flows : list Z) (res_cap : Z) (cycle : list (Z * Z)) : outcome (list Z) :=
    match cycle with
    | [] => Done flows
    | (i, p) :: rest =>
        t <- getZ (tails N) i ;;
        f <- getZ flows i ;;
        flows' <- setZ flows i (if t =? p then f + res_cap else f - res_cap) ;;
        augment flows' res_cap rest
    end.

  (** The loops over ancestors in lines 381-385 and 449-453. *)
  Fixpoint climb (fuel : nat) (par : list Z) (sz la : list Z) (s delta old new : Z)
    : outcome (list Z * list Z) :=
    if s =? -2 then Done (sz, la)
    else
    match fuel with
    | O => OutOfFuel
    | S fuel' =>
        a <- getZ sz s ;;
        sz' <- setZ sz s (a + delta) ;;
        l <- getZ la s ;;
        la' <- (if l =? old then setZ la s new else Done la) ;;
        s' <- getZ par s ;;
        climb fuel' par sz' la' s' delta old new
    end.

  (** _remove_edge, lines 362-385. *)
  Definition remove_edge (fuel : nat) (ts : tree_st) (s t : Z) : outcome tree_st :=
    size_t <- getZ (size ts) t ;;
    prev_t <- getZ (prev_node ts) t ;;
    last_t <- getZ (last_node ts) t ;;
    next_last_t <- getZ (next_node ts) last_t ;;
    par <- setZ (parent ts) t (-2) ;;
    ed <- setZ (edge ts) t (-2) ;;
    nx1 <- setZ (next_node ts) prev_t next_last_t ;;
    pv1 <- setZ (prev_node ts) next_last_t prev_t ;;
    nx2 <- setZ nx1 last_t t ;;
    pv2 <- setZ pv1 t last_t ;;
    '(sz, la) <- climb fuel par (size ts) (last_node ts) s (- size_t) last_t prev_t ;;
    Done {| parent := par; size := sz; next_node := nx2; last_node := la; prev_node := pv2; edge := ed |}.

  (** Lines 391-395: the ancestors, root first. *)
  Fixpoint ancestors (fuel : nat) (par : list Z) (q : Z) (acc : list Z) : outcome (list Z) :=
    if q =? -2 then Done acc
    else
    match fuel with
    | O => OutOfFuel
    | S fuel' => q' <- getZ par q ;; ancestors fuel' par q' (q :: acc)
    end.

  (** Body of the loop of _make_root, lines 398-427. *)
  Definition reroot_step (ts : tree_st) (p q : Z) : outcome tree_st :=
    size_p <- getZ (size ts) p ;;
    last_p <- getZ (last_node ts) p ;;
    prev_q <- getZ (prev_node ts) q ;;
    last_q <- getZ (last_node ts) q ;;
    next_last_q <- getZ (next_node ts) last_q ;;
    par1 <- setZ (parent ts) p q ;;
    par2 <- setZ par1 q (-2) ;;
    eq <- getZ (edge ts) q ;;
    ed1 <- setZ (edge ts) p eq ;;
    ed2 <- setZ ed1 q (-2) ;;
    size_q <- getZ (size ts) q ;;
    sz1 <- setZ (size ts) p (size_p - size_q) ;;
    sz2 <- setZ sz1 q size_p ;;
    nx1 <- setZ (next_node ts) prev_q next_last_q ;;
    pv1 <- setZ (prev_node ts) next_last_q prev_q ;;
    nx2 <- setZ nx1 last_q q ;;
    pv2 <- setZ pv1 q last_q ;;
    '(la1, last_p') <- (if last_p =? last_q
                        then (l <- setZ (last_node ts) p prev_q ;; Done (l, prev_q))
                        else Done (last_node ts, last_p)) ;;
    pv3 <- setZ pv2 p last_q ;;
    nx3 <- setZ nx2 last_q p ;;
    nx4 <- setZ nx3 last_p' q ;;
    pv4 <- setZ pv3 q last_p' ;;
    la2 <- setZ la1 q last_p' ;;
    Done {| parent := par2; size := sz2; next_node := nx4; last_node := la2; prev_node := pv4; edge := ed2 |}.

  Fixpoint reroot_loop (ts : tree_st) (anc : list Z) : outcome tree_st :=
    match anc with
    | p :: ((q :: _) as rest) => ts' <- reroot_step ts p q ;; reroot_loop ts' rest
    | _ => Done ts
    end.

  (** _make_root, lines 388-427. *)
  Definition make_root (fuel : nat) (ts : tree_st) (q : Z) : outcome tree_st :=
    anc <- ancestors fuel (parent ts) q [] ;;
    reroot_loop ts anc.

  (** _add_edge, lines 430-453. *)
  Definition add_edge (fuel : nat) (ts : tree_st) (i p q : Z) : outcome tree_st :=
    last_p <- getZ (last_node ts) p ;;
    next_last_p <- getZ (next_node ts) last_p ;;
    size_q <- getZ (size ts) q ;;
    last_q <- getZ (last_node ts) q ;;
    par <- setZ (parent ts) q p ;;
    ed <- setZ (edge ts) q i ;;
    nx1 <- setZ (next_node ts) last_p q ;;
    pv1 <- setZ (prev_node ts) q last_p ;;
    pv2 <- setZ pv1 next_last_p last_q ;;
    nx2 <- setZ nx1 last_q next_last_p ;;
    '(sz, la) <- climb fuel par (size ts) (last_node ts) p size_q last_p last_q ;;
    Done {| parent := par; size := sz; next_node := nx2; last_node := la; prev_node := pv2; edge := ed |}.

  (** Lines 469-472. *)
  Fixpoint shift_subtree (fuel : nat) (potentials next : list Z) (q l d : Z) : outcome (list Z) :=
    if q =? l then Done potentials
    else
    match fuel with
    | O => OutOfFuel
    | S fuel' =>
        q' <- getZ next q ;;
        a <- getZ potentials q' ;;
        pots <- setZ potentials q' (a + d) ;;
        shift_subtree fuel' pots next q' l d
    end.

  (** _update_potentials, lines 456-472. *)
  Definition update_potentials (fuel : nat) (potentials : list Z) (ts : tree_st) (i p q : Z)
    : outcome (list Z) :=
    h <- getZ (heads N) i ;;
    pp <- getZ potentials p ;;
    c <- getZ (costs N) i ;;
    pq <- getZ potentials q ;;
    let d := if q =? h then pp - c - pq else pp + c - pq in
    pots <- setZ potentials q (pq + d) ;;
    l <- getZ (last_node ts) q ;;
    shift_subtree fuel pots (next_node ts) q l d.

  Record state := { flows : list Z; potentials : list Z; tree : tree_st; pos : Z }.

  (** Lines 178-184: whether [j] comes before [i] among the edges of the cycle. *)
  Fixpoint leaves_first (edges : list Z) (i j : Z) : bool :=
    match edges with
    | [] => false
    | v :: t => if v =? j then true else if v =? i then false else leaves_first t i j
    end.

  (** One iteration of the pivot loop, lines 148-190. [None]: the loop ends. *)
  Definition pivot (fuel : nat) (st : state) : outcome (option state) :=
    ent <- find_entering_edges (potentials st) (flows st) (pos st) ;;
    match ent with
    | None => Done None
    | Some (i, p, q, f) =>
        '(nodes, edges) <- find_cycle fuel (tree st) i p q ;;
        let cycle := combine edges nodes in
        '(j, s, t) <- find_leaving_edge (flows st) cycle ;;
        res_cap <- residual (flows st) j s ;;
        fl <- augment (flows st) res_cap cycle ;;
        if i =? j then
          Done (Some {| flows := fl; potentials := potentials st; tree := tree st; pos := f |})
        else
          pt <- getZ (parent (tree st)) t ;;
          let '(s, t) := if pt =? s then (s, t) else (t, s) in
          let '(p, q) := if leaves_first edges i j then (q, p) else (p, q) in
          ts1 <- remove_edge fuel (tree st) s t ;;
          ts2 <- make_root fuel ts1 q ;;
          ts3 <- add_edge fuel ts2 i p q ;;
          pots <- update_potentials fuel (potentials st) ts3 i p q ;;
          Done (Some {| flows := fl; potentials := pots; tree := ts3; pos := f |})
    end.

  (** The pivot loop, lines 147-190; [fuel] bounds the number of pivots, [inner] the inner
      loops. *)
  Fixpoint pivots (fuel inner : nat) (st : state) : outcome state :=
    match fuel with
    | O => OutOfFuel
    | S fuel' =>
        r <- pivot inner st ;;
        match r with
        | None => Done st
        | Some st' => pivots fuel' inner st'
        end
    end.
End Simplex.

(** * Setting up, lines 64-145 *)

(** [np.argmax]: first position of the maximum. *)
Fixpoint argmax_from (k best : nat) (m : Z) (l : list Z) : nat :=
  match l with
  | [] => best
  | a :: t => if m <? a then argmax_from (S k) k a t else argmax_from (S k) best m t
  end.
Definition argmax (l : list Z) : nat :=
  match l with [] => 0%nat | a :: t => argmax_from 1 0 a t end.

(** [l[np.argmax(l)] += delta] *)
Definition add_at_max (l : list Z) (delta : Z) : list Z :=
  upd l (argmax l) (nth (argmax l) l 0 + delta).

(** Lines 71-78: integer weights made to have the same sum. *)
Definition balance (src snk : list Z) : list Z * list Z :=
  let diff := zsum snk - zsum src in
  if 0 <? diff then (add_at_max src diff, snk)
  else if diff <? 0 then (src, add_at_max snk (- diff))
  else (src, snk).

Definition maxz (l : list Z) : Z := fold_right Z.max 0 l.

Definition FP : Z := 100000000.

(** [B = np.int64(np.ceil(np.sqrt(e)))] *)
Definition ceil_sqrt (e : Z) : Z := let r := Z.sqrt e in if r * r =? e then r else r + 1.

(** The network for balanced integer weights [src], [snk], the costs and the capacities of
    the edges (row by row). *)
Definition faux_inf (src snk cost cap : list Z) : Z :=
  3 * Z.max (Z.max (zsum cost) (zsum cap)) (Z.max (maxz src) (maxz snk)).

Definition make_net (src snk cost cap : list Z) : net :=
  let ns := Z.of_nat (length src) in
  let nd := Z.of_nat (length snk) in
  let n := ns + nd in
  let e := ns * nd in
  let demands := map Z.opp src ++ snk in
  let pairs := flat_map (fun i => map (fun j => (i, ns + j)) (arange 0 nd)) (arange 0 ns) in
  let art := map (fun id => if 0 <? snd id then -1 else fst id) (combine (arange 0 n) demands) in
  {| n_nodes := n; n_arcs := e; block := ceil_sqrt e;
     tails := map fst pairs ++ art;
     heads := map snd pairs ++ art;
     costs := cost ++ map (fun _ => faux_inf src snk cost cap) demands;
     capac := cap ++ map (fun _ => FP) demands |}.

Definition init_state (src snk cost cap : list Z) : state :=
  let ns := Z.of_nat (length src) in
  let nd := Z.of_nat (length snk) in
  let n := ns + nd in
  let e := ns * nd in
  let M := faux_inf src snk cost cap in
  {| flows := map (fun _ => 0) cost ++ src ++ snk;
     potentials := map (fun d => if d <=? 0 then M else - M) (map Z.opp src ++ snk);
     tree := {| parent := map (fun _ => -1) (arange 0 n) ++ [-2];
                size := map (fun _ => 1) (arange 0 n) ++ [n + 1];
                next_node := arange 1 n ++ [-1; 0];
                last_node := arange 0 n ++ [n - 1];
                prev_node := arange (-1) n;
                edge := arange e (e + n) |};
     pos := 0 |}.

(** The integer part of network_simplex: final flows on the [e] edges. *)
Definition simplex (fuel : nat) (src snk cost cap : list Z) : outcome (list Z) :=
  let n := (length src + length snk)%nat in
  st <- pivots (make_net src snk cost cap) fuel (S (S n)) (init_state src snk cost cap) ;;
  Done (firstn (length cost) (flows st)).
