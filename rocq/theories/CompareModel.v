(** Model of src/amd/compare.py without EMD (see EmdModel.v) and of src/amd/cli.py.

    The functions of numpy, scipy, scikit-learn and joblib which this code calls are modelled
    as follows.
    - [np.empty] gives an array with arbitrary contents, a parameter of the model.
    - [np.argpartition], [np.argsort] and [NearestNeighbors.kneighbors] are parameters, because
      their order among ties is not specified; theorems assume what their documentation says
      ([SpecCompare.v]).
    - [joblib.Parallel] runs its tasks in an arbitrary order, a parameter, and returns the
      results in the order of the tasks.
    - Numbers of neighbours, [k] and positions are natural numbers; negative values are not
      modelled. *)
From Coq Require Import List ZArith Arith Bool String Ascii DecimalString.
From Verif Require Import Num Base Outcome Condensed NNModel CalcModel.
Import ListNotations.
Open Scope outcome_scope.
Open Scope list_scope.

(** * Helpers for lists *)

(** A row of indices [row[is]]. *)
Definition pick {A} (d : A) (l : list A) (is : list nat) : list A := map (fun i => nth i l d) is.

(** [l[a:b] = v] for an array: the lengths must agree (v of length 1 would be repeated; the
    callers below never rely on that). *)
Definition set_slice {A} (l : list A) (a b : nat) (v : list A) : outcome (list A) :=
  if (List.length v =? Nat.min b (List.length l) - Nat.min a (List.length l))%nat
  then Done (firstn a l ++ v ++ skipn (a + List.length v) l)
  else Raise ValueError.

(** [l[i] = v] *)
Definition set_at {A} (l : list A) (i : nat) (v : A) : outcome (list A) :=
  if (i <? List.length l)%nat then Done (upd l i v) else Raise IndexError.

Definition get_at {A} (l : list A) (i : nat) : outcome A :=
  match nth_error l i with Some a => Done a | None => Raise IndexError end.

(** [dm[i, j] = v] *)
Definition set_at2 {A} (m : list (list A)) (i j : nat) (v : A) : outcome (list (list A)) :=
  row <- get_at m i ;;
  row' <- set_at row j v ;;
  set_at m i row'.

(** A loop with state. *)
Fixpoint ofold {A S} (f : S -> A -> outcome S) (l : list A) (s : S) : outcome S :=
  match l with
  | [] => Done s
  | a :: t => s' <- f s a ;; ofold f t s'
  end.

(** [range(len(l))] paired with [l], from [i] on. *)
Definition enumerate {A} (l : list A) : list (nat * A) := combine (seq 0 (List.length l)) l.

(** [a.reshape((n, m))] of a flat list with n*m entries. *)
Fixpoint reshape_rows {A} (n m : nat) (l : list A) : list (list A) :=
  match n with
  | O => []
  | S n' => firstn m l :: reshape_rows n' m (skipn m l)
  end.
Definition reshape {A} (n m : nat) (l : list A) : outcome (list (list A)) :=
  if (List.length l =? n * m)%nat then Done (reshape_rows n m l) else Raise ValueError.

(** Tasks run by [joblib.Parallel] in the order given by [sched], a list of task numbers; the
    results are returned by task number. A task which is never run would be waited for. *)
Fixpoint run_tasks {A B} (f : A -> outcome B) (tasks : list A) (sched : list nat)
  (slots : list (option B)) : outcome (list (option B)) :=
  match sched with
  | [] => Done slots
  | i :: t =>
      task <- get_at tasks i ;;
      r <- f task ;;
      run_tasks f tasks t (upd slots i (Some r))
  end.
Definition parallel {A B} (sched : list nat) (f : A -> outcome B) (tasks : list A) : outcome (list B) :=
  slots <- run_tasks f tasks sched (repeat None (List.length tasks)) ;;
  omap (fun o => match o with Some b => Done b | None => OutOfFuel end) slots.

(** * Keyword arguments *)
Section Compare.
  Context {T : Type} `{Num T}.

  Inductive pyval :=
  | VNone
  | VBool (b : bool)
  | VInt (z : Z)
  | VNum (x : T)
  | VStr (s : string).

  Definition kwargs := list (string * pyval).

  Fixpoint lookup (key : string) (kw : kwargs) : option pyval :=
    match kw with
    | [] => None
    | (k', v) :: t => if String.eqb key k' then Some v else lookup key t
    end.

  (** [default_kwargs[kw] = kwargs[kw]] for the keys which are present, compare.py:199-205. *)
  Definition override (defaults given : kwargs) : kwargs :=
    map (fun kv => (fst kv, match lookup (fst kv) given with Some v => v | None => snd kv end)) defaults.

  (** Uses of a keyword argument by the functions below. *)
  Definition kw_get (key : string) (kw : kwargs) : pyval :=
    match lookup key kw with Some v => v | None => VNone end.
  Definition eqT (a b : T) : bool := (nleb a b && nleb b a)%bool.
  (** Truth value. *)
  Definition truthy (v : pyval) : bool :=
    match v with
    | VNone => false
    | VBool b => b
    | VInt z => negb (z =? 0)%Z
    | VNum x => negb (eqT x n0)
    | VStr s => negb (String.eqb s EmptyString)
    end.
  Definition as_num (v : pyval) : outcome T :=
    match v with
    | VInt z => Done (nofZ z)
    | VNum x => Done x
    | VBool true => Done n1
    | VBool false => Done n0
    | _ => Raise TypeError
    end.
  Definition as_str (v : pyval) : outcome string :=
    match v with VStr s => Done s | _ => Raise TypeError end.
  (** [n_jobs]: None or an integer. *)
  Definition as_jobs (v : pyval) : outcome (option Z) :=
    match v with VNone => Done None | VInt z => Done (Some z) | _ => Raise TypeError end.

  (** * Collections of AMDs given to AMD_cdist and AMD_pdist *)

  (** A 2D numpy array with [cl_cols] columns, a list of 1D arrays or a list of lists. *)
  Inductive container := Ndarray | ListOfArrays | ListOfLists.
  Record coll := { cl_kind : container; cl_cols : nat; cl_rows : list (list T) }.

  Definition rows_are_arrays (c : coll) : bool := match cl_kind c with ListOfLists => false | _ => true end.
  Definition is_array (c : coll) : bool := match cl_kind c with Ndarray => true | _ => false end.

  (** [c[i:]] keeps the kind. *)
  Definition from (c : coll) (i : nat) : coll :=
    {| cl_kind := cl_kind c; cl_cols := cl_cols c; cl_rows := skipn i (cl_rows c) |}.

  Definition rectangular (cols : nat) (rows : list (list T)) : bool :=
    forallb (fun r => (List.length r =? cols)%nat) rows.

  (** Broadcasting of one row against a vector: equal lengths, or one of them has length 1. *)
  Definition row_minus (r v : list T) : outcome (list T) :=
    if (List.length r =? List.length v)%nat then Done (map2 nsub r v)
    else match r, v with
         | [a], _ => Done (map (fun b => nsub a b) v)
         | _, [b] => Done (map (fun a => nsub a b) r)
         | _, _ => Raise ValueError
         end.

  (** [np.amax] of a 1D array. *)
  Definition amax (l : list T) : outcome T := maxl l.

  (** [np.amax(np.abs(c - v), axis=-1)], compare.py:380 and 431, where [v] is an array when
      [varr]. Two lists cannot be subtracted. An empty list becomes an array of shape (0,), for
      which either the subtraction or [np.amax] raises ValueError; an array of shape (0, k)
      with k > 0 gives an empty result. *)
  Definition amax_abs_diff (c : coll) (varr : bool) (v : list T) : outcome (list T) :=
    if negb (is_array c || varr) then Raise TypeError
    else if negb (rectangular (cl_cols c) (cl_rows c)) then Raise ValueError
    else match cl_kind c, cl_rows c with
         | Ndarray, [] =>
             if ((cl_cols c =? List.length v) || (cl_cols c =? 1) || (List.length v =? 1))%nat
             then Done [] else Raise ValueError
         | _, [] => Raise ValueError
         | _, rows => omap (fun r => d <- row_minus r v ;; amax (map nabs d)) rows
         end.

  (** Metrics of scipy other than 'chebyshev' are a parameter; None for an unknown name. *)
  Variable other_metric : string -> option (list T -> list T -> T).
  Definition metric_fun (metric : string) : option (list T -> list T -> T) :=
    if String.eqb metric "chebyshev" then Some cheb else other_metric metric.

  (** scipy's [cdist] and [pdist]: 2D inputs with the same number of columns. An empty list is
      not 2D. *)
  Definition two_d (c : coll) : bool :=
    (rectangular (cl_cols c) (cl_rows c) &&
     match cl_kind c, cl_rows c with
     | Ndarray, _ => true
     | _, [] => false
     | _, _ => true
     end)%bool.
  Definition scipy_cdist (a b : coll) (metric : string) : outcome (list (list T)) :=
    if negb (two_d a && two_d b && (cl_cols a =? cl_cols b)%nat) then Raise ValueError
    else match metric_fun metric with
         | None => Raise ValueError
         | Some d => Done (map (fun u => map (d u) (cl_rows b)) (cl_rows a))
         end.
  Definition scipy_pdist (a : coll) (metric : string) : outcome (list T) :=
    if negb (two_d a) then Raise ValueError
    else match metric_fun metric with
         | None => Raise ValueError
         | Some d => Done (condensed (fun i j => d (nth i (cl_rows a) []) (nth j (cl_rows a) []))
                                     (List.length (cl_rows a)))
         end.

  (** AMD_cdist, compare.py:336-383. [junk] is the contents of [np.empty]. *)
  Definition AMD_cdist (junk : list (list T)) (amds amds_ : coll) (metric : string) (low_memory : bool)
    : outcome (list (list T)) :=
    if low_memory then
      if negb (String.eqb metric "chebyshev") then Raise ValueError
      else ofold (fun dm iv =>
                    row <- amax_abs_diff amds_ (rows_are_arrays amds) (snd iv) ;;
                    set_at dm (fst iv) row)
                 (enumerate (cl_rows amds)) junk
    else scipy_cdist amds amds_ metric.

  (** AMD_pdist, compare.py:386-435. *)
  Definition AMD_pdist (junk : list T) (amds : coll) (metric : string) (low_memory : bool)
    : outcome (list T) :=
    if low_memory then
      let m := List.length (cl_rows amds) in
      if negb (String.eqb metric "chebyshev") then Raise ValueError
      else
        '(cdm, _) <- ofold (fun (st : list T * nat) i =>
                    let '(cdm, ind) := st in
                    let ind_ := (ind + m - i - 1)%nat in
                    v <- get_at (cl_rows amds) i ;;
                    row <- amax_abs_diff (from amds (S i)) (rows_are_arrays amds) v ;;
                    cdm' <- set_slice cdm ind ind_ row ;;
                    Done (cdm', ind_))
                 (seq 0 m) (junk, O) ;;
        Done cdm
    else scipy_pdist amds metric.

  (** * Matrices of Earth mover's distances *)
  Variable P : Type.
  Variable emd : string -> P -> P -> outcome T.

  (** PDD_cdist, compare.py:438-514. The names [backend] and [verbose] only affect which
      workers run and what is printed. *)
  Definition PDD_cdist (junk : list (list T)) (sched : list nat) (pdds pdds_ : list P)
    (metric : string) (n_jobs : option Z) : outcome (list (list T)) :=
    match pdds with
    | [] => Raise IndexError
    | _ =>
        let n := List.length pdds in
        let m := List.length pdds_ in
        let tasks := flat_map (fun i => map (fun j => (i, j)) (seq 0 m)) (seq 0 n) in
        let entry ij :=
          p <- get_at pdds (fst ij) ;; q <- get_at pdds_ (snd ij) ;; emd metric p q in
        if match n_jobs with None => false | Some z => negb ((z =? 0) || (z =? 1))%Z end then
          dm <- parallel sched entry tasks ;;
          reshape n m dm
        else
          ofold (fun dm ij => d <- entry ij ;; set_at2 dm (fst ij) (snd ij) d) tasks junk
    end.

  (** PDD_pdist, compare.py:517-591. *)
  Definition PDD_pdist (junk : list T) (sched : list nat) (pdds : list P)
    (metric : string) (n_jobs : option Z) : outcome (list T) :=
    match pdds with
    | [] => Raise IndexError
    | _ =>
        let m := List.length pdds in
        let entry ij :=
          p <- get_at pdds (fst ij) ;; q <- get_at pdds (snd ij) ;; emd metric p q in
        if match n_jobs with None => false | Some z => (1 <? z)%Z end then
          parallel sched entry (pairs m)
        else
          let inds := flat_map (fun i => map (fun j => (i, j)) (seq (i + 1) (m - (i + 1)))) (seq 0 (m - 1)) in
          ofold (fun cdm rij => d <- entry (snd rij) ;; set_at cdm (fst rij) d) (enumerate inds) junk
    end.

  (** * Nearest neighbours *)

  (** scipy's [squareform] of a vector: its length must be d*(d-1)/2; length 0 gives d = 1. *)
  Definition square_dim (len : nat) : option nat :=
    find (fun d => (d * (d - 1) =? 2 * len)%nat) (seq 1 (S len)).
  Definition squareform_matrix (v : list T) : outcome (list (list T)) :=
    match square_dim (List.length v) with
    | None => Raise ValueError
    | Some d => Done (map (fun i => map (squareform n0 d v i) (seq 0 d)) (seq 0 d))
    end.

  Variable argpartition : list T -> nat -> list nat.
  Variable argsort : list T -> list nat.

  (** [np.argpartition(row, kth)] raises ValueError when kth is out of bounds. *)
  Definition np_argpartition (row : list T) (kth : nat) : outcome (list nat) :=
    if (kth <? List.length row)%nat then Done (argpartition row kth) else Raise ValueError.

  Inductive distances := Square (rows : list (list T)) | Condensed (v : list T).

  (** [inds_row[inds_row != i][:n]] *)
  Definition drop_self (n i : nat) (row : list nat) : list nat :=
    firstn n (filter (fun j => negb (j =? i)%nat) row).

  (** compare.py:643-646 for one row: take, then sort by distance. *)
  Definition sort_row (row : list T) (inds : list nat) : list T * list nat :=
    let nn := pick n0 row inds in
    let o := argsort nn in
    (pick n0 nn o, pick O inds o).

  (** _neighbors_from_distance_matrix, compare.py:601-647, for 2D and 1D input (for other
      shapes line 637 builds a ValueError without raising it). [np.array] of rows of different
      lengths raises ValueError, and with no row at all [take_along_axis] does. *)
  Definition neighbors_from_distance_matrix (n : nat) (dm : distances)
    : outcome (list (list T) * list (list nat)) :=
    '(rows, inds) <-
      match dm with
      | Square rows =>
          inds <- omap (fun row => p <- np_argpartition row n ;; Done (firstn n p)) rows ;;
          Done (rows, inds)
      | Condensed v =>
          rows <- squareform_matrix v ;;
          inds <- omap (fun ir => p <- np_argpartition (snd ir) (n + 1) ;;
                                  Done (drop_self n (fst ir) (firstn (n + 1) p)))
                       (enumerate rows) ;;
          Done (rows, inds)
      end ;;
    match inds with
    | [] => Raise ValueError
    | r :: _ =>
        if forallb (fun r' => (List.length r' =? List.length r)%nat) inds then
          let both := map2 sort_row rows inds in
          Done (map fst both, map snd both)
        else Raise ValueError
    end.

  (** [NearestNeighbors(n, algorithm, leaf_size, metric, n_jobs).fit(XB).kneighbors(XA)]: a
      number of neighbours which is 0 or larger than the number of fitted rows raises
      ValueError. Rows of (distance, index) pairs. *)
  Variable kneighbors : kwargs -> nat -> list (list T) -> list (list T) -> outcome (list (list (T * nat))).
  Definition sk_kneighbors (opts : kwargs) (n : nat) (XB XA : list (list T)) :=
    if ((n =? 0) || (List.length XB <? n))%nat then Raise ValueError else kneighbors opts n XB XA.

  (** The inner loop of compare.py:688-697 for row [i]: copy entries which are not [i] into a
      row of [np.empty], stopping after [n]. *)
  Fixpoint skip_self (i n i_ : nat) (row : list (T * nat)) (out : list (T * nat)) : outcome (list (T * nat)) :=
    match row with
    | [] => Done out
    | (d, j) :: t =>
        if (i =? j)%nat then skip_self i n i_ t out
        else
          out' <- set_at out i_ (d, j) ;;
          if (i_ + 1 =? n)%nat then Done out' else skip_self i n (i_ + 1) t out'
    end.

  (** _nearest_items, compare.py:650-698. [junk] has [n] entries for every row of XA. *)
  Definition nearest_items (junk : list (list (T * nat))) (n : nat) (XA : list (list T))
    (XB : option (list (list T))) (opts : kwargs) : outcome (list (list T) * list (list nat)) :=
    match XB with
    | Some xb =>
        r <- sk_kneighbors opts n xb XA ;;
        Done (map (map fst) r, map (map snd) r)
    | None =>
        r <- sk_kneighbors opts (n + 1) XA XA ;;
        rows <- omap (fun irow => out <- get_at junk (fst irow) ;; skip_self (fst irow) n 0 (snd irow) out)
                     (enumerate r) ;;
        Done (map (map fst) rows, map (map snd) rows)
    end.

  (** * Data frames *)
  Definition label := option string.   (* the name of a PeriodicSet, or None *)
  Inductive cell := Dist (x : T) | Name (l : label).
  Inductive heading := Crystal (l : label) | Text (s : string).
  (** Stored by rows. *)
  Record frame := { fr_index : list label; fr_columns : list heading; fr_rows : list (list cell) }.

  Definition matrix_frame (names names_ : list label) (dm : list (list T)) : frame :=
    {| fr_index := names; fr_columns := map Crystal names_; fr_rows := map (map Dist) dm |}.

  (** [str(i)] *)
  Definition str_nat (i : nat) : string := NilEmpty.string_of_uint (Nat.to_uint i).

  (** _nearest_neighbors_dataframe, compare.py:701-715. *)
  Definition nearest_neighbors_dataframe (nn_dm : list (list T)) (inds : list (list nat))
    (names names_ : list label) : outcome frame :=
    let n := List.length (hd [] nn_dm) in
    rows <- omap (fun di =>
               cells <- omap (fun dj => nm <- get_at names_ (snd dj) ;; Done [Name nm; Dist (fst dj)])
                             (combine (fst di) (snd di)) ;;
               Done (List.concat cells))
             (combine nn_dm inds) ;;
    Done {| fr_index := names;
            fr_columns := flat_map (fun i => [Text ("ID " ++ str_nat (i + 1)); Text ("DIST " ++ str_nat (i + 1))])
                                   (seq 0 n);
            fr_rows := rows |}.

  (** * compare *)
  Record crystal := { cr_name : label; cr_set : pset T }.

  (** Elements of the first two arguments: a PeriodicSet, a string (or path), anything else. *)
  Inductive item := IsSet (c : crystal) | IsStr (s : string) | IsOther.
  Inductive input := One (x : item) | Many (l : list item).
  Definition as_list (x : input) : list item := match x with One i => [i] | Many l => l end.

  (** The readers and invariants called by compare. *)
  Record calls := {
    read_cif : string -> kwargs -> outcome (list crystal);
    read_csd : list string -> kwargs -> outcome (list crystal);
    amd_of : pset T -> nat -> outcome (list T);
    pdd_of : pset T -> nat -> bool -> bool -> T -> outcome P
  }.

  (** Everything that is arbitrary during one call: array contents and the schedule. *)
  Record chance := {
    ch_matrix : list (list T);
    ch_vector : list T;
    ch_pairs : list (list (T * nat));
    ch_sched : list nat
  }.

  (** Signatures: io.py:237-247, io.py:425-435, calculate.py:97-104, compare.py:386-391, 517-524,
      650-659. *)
  Definition cif_defaults : kwargs :=
    [("reader", VStr "gemmi"); ("remove_hydrogens", VBool false); ("disorder", VStr "skip");
     ("heaviest_component", VBool false); ("molecular_centres", VBool false);
     ("show_warnings", VBool true); ("verbose", VBool false)]%string.
  Definition csd_defaults : kwargs :=
    [("refcode_families", VBool false); ("remove_hydrogens", VBool false); ("disorder", VStr "skip");
     ("heaviest_component", VBool false); ("molecular_centres", VBool false);
     ("show_warnings", VBool true); ("verbose", VBool false)]%string.
  Definition pdd_defaults : kwargs :=
    [("lexsort", VBool true); ("collapse", VBool true);
     ("collapse_tol", VNum (ndiv n1 (nofZ 10000)))]%string.
  Definition amd_pdist_defaults : kwargs :=
    [("metric", VStr "chebyshev"); ("low_memory", VBool false)]%string.
  Definition pdd_pdist_defaults : kwargs :=
    [("metric", VStr "chebyshev"); ("backend", VStr "multiprocessing"); ("n_jobs", VNone);
     ("verbose", VBool false)]%string.
  Definition nearest_items_defaults : kwargs :=
    [("algorithm", VStr "kd_tree"); ("leaf_size", VInt 5); ("metric", VStr "chebyshev");
     ("n_jobs", VNone)]%string.

  (** [d[key] = v] for a key which is present. *)
  Definition set_key (key : string) (v : pyval) (kw : kwargs) : kwargs :=
    map (fun kv => if String.eqb (fst kv) key then (fst kv, v) else kv) kw.

  (** [str.upper] of an ASCII string. *)
  Definition upper_ascii (c : ascii) : ascii :=
    let n := nat_of_ascii c in
    if ((97 <=? n) && (n <=? 122))%nat then ascii_of_nat (n - 32) else c.
  Fixpoint upper (s : string) : string :=
    match s with
    | EmptyString => EmptyString
    | String c t => String (upper_ascii c) (upper t)
    end.

  Definition is_set (c : item) : option crystal := match c with IsSet c => Some c | _ => None end.

  (** _unwrap_refcode_list, compare.py:143-154. *)
  Definition unwrap_refcode_list (ext : calls) (l : list item) (kw : kwargs) : outcome (list crystal) :=
    if forallb (fun x => match x with IsStr _ => true | _ => false end) l
    then read_csd ext (flat_map (fun x => match x with IsStr s => [s] | _ => [] end) l) kw
    else Raise TypeError.

  (** _unwrap_pset_list, compare.py:156-176. *)
  Definition unwrap_pset_list (ext : calls) (l : list item) (kw : kwargs) : outcome (list crystal) :=
    ofold (fun ret x =>
             match x with
             | IsSet c => Done (ret ++ [c])
             | IsStr s => new <- read_cif ext s kw ;; Done (ret ++ new)
             | IsOther => Raise ValueError
             end) l [].

  Definition nonempty (l : list crystal) : outcome (list crystal) :=
    match l with [] => Raise ValueError | _ => Done l end.

  (** [amds[i] = AMD(s, k)] into a row of length [k]. *)
  Definition amd_rows (ext : calls) (k : nat) (l : list crystal) : outcome (list (list T)) :=
    omap (fun c => a <- amd_of ext (cr_set c) k ;;
                   if (List.length a =? k)%nat then Done a else Raise ValueError) l.

  Definition pdd_list (ext : calls) (k : nat) (kw : kwargs) (l : list crystal) : outcome (list P) :=
    omap (fun c => tol <- as_num (kw_get "collapse_tol" kw) ;;
                   pdd_of ext (cr_set c) k (truthy (kw_get "lexsort" kw)) (truthy (kw_get "collapse" kw)) tol) l.

  (** compare, compare.py:40-287. *)
  Definition compare (ext : calls) (ch : chance) (crystals : input) (crystals_ : option input)
    (by_ : string) (k : nat) (n_neighbors : option nat) (csd_refcodes verbose : bool) (kw : kwargs)
    : outcome frame :=
    let by_ := upper by_ in
    if negb (String.eqb by_ "AMD" || String.eqb by_ "PDD") then Raise ValueError
    else
      let cif_kw := override (set_key "verbose" (VBool verbose) cif_defaults) kw in
      let csd_kw := override (set_key "verbose" (VBool verbose) csd_defaults) kw in
      let pdd_kw := override pdd_defaults kw in
      let amds_kw := override amd_pdist_defaults kw in
      let pdds_kw := override (set_key "verbose" (VBool verbose) pdd_pdist_defaults) kw in
      let nearest_kw := override nearest_items_defaults kw in
      let unwrap x :=
        l <- (if csd_refcodes then unwrap_refcode_list ext (as_list x) csd_kw
              else unwrap_pset_list ext (as_list x) cif_kw) ;;
        nonempty l in
      A <- unwrap crystals ;;
      let names := map cr_name A in
      B <- match crystals_ with None => Done None | Some x => b <- unwrap x ;; Done (Some b) end ;;
      let names_ := match B with None => names | Some b => map cr_name b end in
      if String.eqb by_ "AMD" then
        amds <- amd_rows ext k A ;;
        amds_ <- match B with None => Done None | Some b => r <- amd_rows ext k b ;; Done (Some r) end ;;
        match n_neighbors with
        | None =>
            metric <- as_str (kw_get "metric" amds_kw) ;;
            let low_memory := truthy (kw_get "low_memory" amds_kw) in
            let arr rows := {| cl_kind := Ndarray; cl_cols := k; cl_rows := rows |} in
            match amds_ with
            | None =>
                v <- AMD_pdist (ch_vector ch) (arr amds) metric low_memory ;;
                dm <- squareform_matrix v ;;
                Done (matrix_frame names names_ dm)
            | Some rows_ =>
                dm <- AMD_cdist (ch_matrix ch) (arr amds) (arr rows_) metric low_memory ;;
                Done (matrix_frame names names_ dm)
            end
        | Some n =>
            '(nn, inds) <- nearest_items (ch_pairs ch) n amds amds_ nearest_kw ;;
            nearest_neighbors_dataframe nn inds names names_
        end
      else
        pdds <- pdd_list ext k pdd_kw A ;;
        metric <- as_str (kw_get "metric" pdds_kw) ;;
        n_jobs <- as_jobs (kw_get "n_jobs" pdds_kw) ;;
        dm <- match B with
              | None =>
                  v <- PDD_pdist (ch_vector ch) (ch_sched ch) pdds metric n_jobs ;;
                  match n_neighbors with
                  | None => dm <- squareform_matrix v ;; Done (Square dm)
                  | Some _ => Done (Condensed v)
                  end
              | Some b =>
                  pdds_ <- pdd_list ext k pdd_kw b ;;
                  dm <- PDD_cdist (ch_matrix ch) (ch_sched ch) pdds pdds_ metric n_jobs ;;
                  Done (Square dm)
              end ;;
        match n_neighbors, dm with
        | None, Square rows => Done (matrix_frame names names_ rows)
        | None, Condensed _ => Raise ValueError      (* does not occur *)
        | Some n, _ =>
            '(nn, inds) <- neighbors_from_distance_matrix n dm ;;
            nearest_neighbors_dataframe nn inds names names_
        end.

  (** * Command line, cli.py *)

  (** The parsed options, cli.py:23-123, as argparse stores them. *)
  Record options := {
    o_paths : list string;
    o_outpath : option string;
    o_format : string;
    o_by : string;
    o_k : nat;
    o_nearest : option nat;
    o_suppress_warnings : bool;
    o_reader : string;
    o_remove_hydrogens : bool;
    o_disorder : string;
    o_heaviest_component : bool;
    o_molecular_centres : bool;
    o_csd_refcodes : bool;
    o_refcode_families : bool;
    o_collapse_tol : T;
    o_metric : string;
    o_n_jobs : Z;
    o_backend : string;
    o_verbose : bool;
    o_low_memory : bool
  }.

  (** [kwargs] as passed on in cli.py:146: the arguments of [compare] given by name are
      [by], [k], [csd_refcodes] and [verbose]; the remaining ones go to its [**kwargs]. *)
  Definition cli_kwargs (o : options) : kwargs :=
    [("nearest", match o_nearest o with None => VNone | Some n => VInt (Z.of_nat n) end);
     ("reader", VStr (o_reader o)); ("remove_hydrogens", VBool (o_remove_hydrogens o));
     ("disorder", VStr (o_disorder o)); ("heaviest_component", VBool (o_heaviest_component o));
     ("molecular_centres", VBool (o_molecular_centres o));
     ("refcode_families", VBool (o_refcode_families o)); ("collapse_tol", VNum (o_collapse_tol o));
     ("metric", VStr (o_metric o)); ("n_jobs", VInt (o_n_jobs o)); ("backend", VStr (o_backend o));
     ("low_memory", VBool (o_low_memory o)); ("show_warnings", VBool (negb (o_suppress_warnings o)))]%string.

  Definition ends_with (suffix s : string) : bool :=
    ((String.length suffix <=? String.length s)%nat &&
     String.eqb (substring (String.length s - String.length suffix) (String.length suffix) s) suffix)%bool.

  (** main, cli.py:125-160: the file written, its format and the table. [known] tells for
      which formats pandas has a method [to_<format>]. *)
  Definition cli_main (ext : calls) (ch : chance) (known : string -> bool) (o : options)
    : outcome (string * string * frame) :=
    let outpath :=
      match o_outpath o with
      | Some p => p
      | None => (o_by o ++ "_k=" ++ str_nat (o_k o) ++ "_dist_matrix")%string
      end in
    crystals <- match o_paths o with [] => Raise IndexError | p :: _ => Done p end ;;
    crystals_ <- match o_paths o with
                 | [_; q] => Done (Some (One (IsStr q)))
                 | _ :: _ :: _ :: _ => Raise ValueError
                 | _ => Done None
                 end ;;
    df <- compare ext ch (One (IsStr crystals)) crystals_ (o_by o) (o_k o) None
            (o_csd_refcodes o) (o_verbose o) (cli_kwargs o) ;;
    let outpath := if ends_with ("." ++ o_format o) outpath then outpath
                   else (outpath ++ "." ++ o_format o)%string in
    if known (o_format o) then Done (outpath, o_format o, df) else Raise ValueError.
End Compare.
