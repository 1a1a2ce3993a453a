(** Model of the two merge functions of src/amd/_nearest_neighbors.py. *)
From Coq Require Import List ZArith Bool.
From Verif Require Import Num Outcome.
Import ListNotations.
Open Scope outcome_scope.

Section Merge.
  Context {T : Type} `{Num T}.

  (** [dist_ = np.inf] is the extended value [None]
      (_nearest_neighbors.py:477, 536). *)
  Definition le_ext (d : T) (d_ : option T) : bool :=
    match d_ with Some v => nleb d v | None => true end.

  (** _nearest_neighbors.py:449-456 (and 500-511): walk backwards from [j] until an entry of
      [dists] not larger than [dist_] is found.  Fuel = number of allowed reads. *)
  Fixpoint scan_back (fuel : nat) (dists : list T) (dist_ : T) (j : Z) : outcome Z :=
    match fuel with
    | O => OutOfFuel
    | S fuel' =>
        d <- getZ dists j ;;
        if nleb d dist_ then Done (j + 1)%Z
        else scan_back fuel' dists dist_ (j - 1)%Z
    end.

  (** _nearest_neighbors.py:466-478: the [while j < 0] loop for one row. *)
  Fixpoint fill (fuel : nat) (dists dists_ ret : list T)
           (j dp dp_ : Z) (dist : T) (dist_ : option T) : outcome (list T) :=
    if (0 <=? j)%Z then Done ret
    else
    match fuel with
    | O => OutOfFuel
    | S fuel' =>
        if le_ext dist dist_ then
          ret' <- setZ ret j dist ;;
          dist' <- getZ dists (dp + 1)%Z ;;
          fill fuel' dists dists_ ret' (j + 1)%Z (dp + 1)%Z dp_ dist' dist_
        else
          match dist_ with
          | None => OutOfBounds (* unreachable: [dist <= inf] *)
          | Some v =>
            ret' <- setZ ret j v ;;
            if (dp_ + 1 <? Z.of_nat (length dists_))%Z then
              v' <- getZ dists_ (dp_ + 1)%Z ;;
              fill fuel' dists dists_ ret' (j + 1)%Z dp (dp_ + 1)%Z dist (Some v')
            else fill fuel' dists dists_ ret' (j + 1)%Z dp (dp_ + 1)%Z dist None
          end
    end.

  (** _nearest_neighbors.py:447-478, body of the [for i in range(m)] loop:
      merge one row. *)
  Definition merge_row (dists dists_ : list T) : outcome (list T) :=
    d0 <- getZ dists_ 0 ;;
    j <- scan_back (S (length dists)) dists d0 (-1) ;;
    if (j =? 0)%Z then Done dists
    else
      dist <- getZ dists j ;;
      fill (Z.to_nat (- j)) dists dists_ dists j j 0 dist (Some d0).

  (** _nearest_neighbors.py:438-480 [_merge_sorted_arrays]; the two tables have
      the same number of rows. *)
  Definition merge_sorted_arrays (dists dists_ : list (list T)) : outcome (list (list T)) :=
    omap (fun p => merge_row (fst p) (snd p)) (combine dists dists_).

  (** The variant carrying indices, _nearest_neighbors.py:483-538
      [_merge_sorted_arrays_inds]. [p_] keeps its old value once [dists_] is
      exhausted, exactly as in the code. *)
  Context {I : Type}.
  Fixpoint fill_inds (fuel : nat) (dists dists_ : list T) (inds inds_ : list I)
           (rd : list T) (ri : list I)
           (j dp dp_ : Z) (dist : T) (dist_ : option T) (p p_ : I)
    : outcome (list T * list I) :=
    if (0 <=? j)%Z then Done (rd, ri)
    else
    match fuel with
    | O => OutOfFuel
    | S fuel' =>
        if le_ext dist dist_ then
          rd' <- setZ rd j dist ;;
          ri' <- setZ ri j p ;;
          dist' <- getZ dists (dp + 1)%Z ;;
          p' <- getZ inds (dp + 1)%Z ;;
          fill_inds fuel' dists dists_ inds inds_ rd' ri'
                    (j + 1)%Z (dp + 1)%Z dp_ dist' dist_ p' p_
        else
          match dist_ with
          | None => OutOfBounds (* unreachable *)
          | Some v =>
            rd' <- setZ rd j v ;;
            ri' <- setZ ri j p_ ;;
            if (dp_ + 1 <? Z.of_nat (length dists_))%Z then
              v' <- getZ dists_ (dp_ + 1)%Z ;;
              p_' <- getZ inds_ (dp_ + 1)%Z ;;
              fill_inds fuel' dists dists_ inds inds_ rd' ri'
                        (j + 1)%Z dp (dp_ + 1)%Z dist (Some v') p p_'
            else
              fill_inds fuel' dists dists_ inds inds_ rd' ri'
                        (j + 1)%Z dp (dp_ + 1)%Z dist None p p_
          end
    end.

  (** _nearest_neighbors.py:498-536, one row. *)
  Definition merge_row_inds (dists dists_ : list T) (inds inds_ : list I)
    : outcome (list T * list I) :=
    d0 <- getZ dists_ 0 ;;
    p0 <- getZ inds_ 0 ;;
    j <- scan_back (S (length dists)) dists d0 (-1) ;;
    if (j =? 0)%Z then Done (dists, inds)
    else
      dist <- getZ dists j ;;
      p <- getZ inds j ;;
      fill_inds (Z.to_nat (- j)) dists dists_ inds inds_ dists inds
                j j 0 dist (Some d0) p p0.
End Merge.
