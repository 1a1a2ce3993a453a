(** C84: motifs which are found. *)
From Coq Require Import List ZArith Reals Arith Bool Sorted Permutation Lia Lra.
From Verif Require Import Num Base Outcome Spec LatticeModel LatticeProofs2 VecR NNModel SpecGeom NNSpecProofs NNComplete SpecCell UtilsModel Props_Utils PSetModel Props_PSet SpecRecon SpecFound ReconModel Props_Recon Props_Search ReconFound ReconFound2.
Import ListNotations.
Open Scope R_scope.
Open Scope list_scope.
Open Scope outcome_scope.

Lemma omap_found : forall A B (f : A -> outcome B) l r, Forall2 (fun a b => f a = Done b) l r -> omap f l = Done r.
Proof. induction 1 as [|a b l r E F IH]; cbn [omap]; auto. rewrite E. cbn [obind]. rewrite IH. auto. Qed.

(** If the rows determine the motif up to the inversion, it is found. *)
Theorem C84_found : forall dims inv neighbors nn ci row0 row1 rows q1 qs cell diam D fuel, dims = 2%nat \/ dims = 3%nat -> square_matrix dims cell ->
  neighbors cell tol = Done nn -> (forall v, In v nn -> In (invert v) nn /\ exists l, length l = dims /\ v = lat dims cell l) ->
  inv cell = Done ci -> is_inverse dims cell ci ->
  diameter cell = Done diam -> first_empty_shell dims cell diam D -> (D <= fuel)%nat ->
  (forall d, In d row0 -> 0 <= d) -> StronglySorted Rle row0 ->
  (forall vals, lattice_lengths dims cell diam tol D vals -> determined dims cell tol D vals nn row0 row1 rows q1 qs) ->
  exists motif, reconstruct inv neighbors fuel (row0 :: row1 :: rows) cell = Done motif /\
    (recovered dims cell q1 qs motif \/ recovered dims cell (invert q1) (map invert qs) motif).
Proof.
  intros dims inv neighbors nn ci row0 row1 rows q1 qs cell diam D fuel H23 HS EN HNN EI II ED FE HF H0 S0 DT. assert (HD : (1 <= dims)%nat) by lia.
  assert (HN : forall v, In v nn -> exists l, length l = dims /\ v = lat dims cell l) by (intros v Hv; apply HNN; auto).
  assert (HI : forall v, In v nn -> In (invert v) nn) by (intros v Hv; apply HNN; auto). clear HNN.
  destruct (cloud_total dims cell diam HD HS D FE) as (cloud & EC). specialize (EC fuel HF).
  destruct (cloud_correct dims cell diam HD HS fuel cloud EC) as (D' & FE' & HC). rewrite (first_empty_unique _ _ _ _ _ FE' FE) in HC. clear D' FE'.
  set (vals := unique_within_tol (filter (fun x => Rleb x diam) (map norm_row cloud)) tol).
  assert (LL : lattice_lengths dims cell diam tol D vals).
  { exists (filter (fun x => Rleb x diam) (map norm_row cloud)). split; [|apply C56_unique]. intros x. rewrite filter_In, Rleb_true, in_map_iff. split.
    - intros [(v & <- & Hv) Q]. split; auto. apply HC in Hv as (l & Hl & ->). exists l. rewrite norm_vlen. auto.
    - intros [Q (l & Hl & <-)]. split; auto. exists (lat dims cell l). rewrite norm_vlen. split; auto. apply HC. eauto. }
  specialize (DT vals LL). unfold reconstruct. cbv zeta. fold tol. rewrite (proj1 HS). replace (negb _) with false by (destruct H23; subst; auto). rewrite ED. cbn [obind].
  cbn [length Nat.eqb]. rewrite EC, EN. cbn [obind]. unfold row_of. cbn [nth_error obind]. fold vals.
  set (bases := flat_map (fun vecs => if Rltb tol (Rabs (determinant vecs)) then permutations dims vecs else []) (combinations dims nn)).
  assert (SECOND : exists r, find_second_point dims (unique_within_tol (shared_vals (remove_vals row0 vals tol) (remove_vals row1 vals tol) tol) tol) bases cloud tol = Done (Some r) /\
    candidate dims cell tol D vals nn row0 row1 r).
  { destruct (search_found dims cell tol cloud nn D vals H23 HS tol_gt HC HN row0 S0 row1 q1 (fun a => nearest_is_origin cloud a tol) (dt_resolved _ _ _ _ _ _ _ _ _ _ _ DT) (dt_locatable _ _ _ _ _ _ _ _ _ _ _ DT)) as (a & rest & EU & (r & ER)); auto.
    exists r. rewrite EU. cbn [find_second_point]. split; [f_equal; auto|].
    destruct (search_fits dims cell tol cloud nn D vals H23 tol_gt HC HN row0 H0 S0 row1 a rest _ r EU ER) as [CA _]; auto. }
  destruct SECOND as (q & -> & CQ). cbn [obind].
  assert (CASES : exists qs', determined dims cell tol D vals nn row0 row1 rows q qs' /\ (q = q1 /\ qs' = qs \/ q = invert q1 /\ qs' = map invert qs)).
  { destruct (dt_only _ _ _ _ _ _ _ _ _ _ _ DT q CQ); subst q.
    - exists qs. auto.
    - exists (map invert qs). split; auto. apply determined_invert; auto. }
  destruct CASES as (qs' & DQ & CASES).
  assert (GOAL : forall motif, recovered dims cell q qs' motif -> recovered dims cell q1 qs motif \/ recovered dims cell (invert q1) (map invert qs) motif).
  { intros motif Hm. destruct CASES as [[-> ->]|[-> ->]]; auto. }
  clear CASES DT. pose proof (dt_further _ _ _ _ _ _ _ _ _ _ _ DQ) as F.
  destruct rows as [|row2 rows].
  { exists [repeat 0 dims; q]. cbn [length Nat.eqb]. split; auto. apply GOAL. inversion F; subst. split; auto. congruence. }
  cbn [length Nat.eqb skipn]. assert (NE : qs' <> []) by (inversion F; subst; discriminate).
  rewrite (omap_found _ _ _ (row2 :: rows) qs').
  - cbn [obind]. rewrite EI. cbn [obind]. eexists. split; [reflexivity|]. apply GOAL. split; [congruence|]. intros _.
    assert (LQ : Forall (fun p => length p = dims) (repeat 0 dims :: q :: qs')).
    { constructor; [apply repeat_length|]. constructor; [destruct CQ as (d & bs & C); apply C|]. clear - F. induction F as [|row p rs ps (_ & _ & L & _) F IH]; constructor; auto.
      destruct L as (d & bs & L & _). apply L. }
    clear - LQ HS II HD. induction LQ as [|p ps L LQ IH]; cbn [map]; constructor; auto. apply reduce_correct; auto; lia.
  - clear NE GOAL DQ. induction F as [|row p rs ps (F1 & F2 & F3 & F4 & F5) F IH]; constructor; auto.
    set (sh2 := unique_within_tol (shared_vals (remove_vals row1 vals tol) (remove_vals row vals tol) tol) tol).
    assert (LK : forall r, existsb (fun s => Rltb (Rabs (s - norm_row (rows_sub q r))) tol) sh2 = true <-> linked tol vals row1 row q r).
    { intros r. rewrite existsb_exists. rewrite norm_sub_edist. split.
      - intros (e & He & Q). apply Rltb_true in Q. exists e. split; auto. apply shared_in. auto.
      - intros (e & He & Q). exists e. split; [apply shared_listed; auto|]. apply Rltb_true. auto. }
    destruct (search_found dims cell tol cloud nn D vals H23 HS tol_gt HC HN row0 S0 row p (fun a res =>
        (nearest_is_origin cloud a tol res && existsb (fun s => Rltb (Rabs (s - norm_row (rows_sub q res))) tol) sh2)%bool) F1 F3) as (a & rest & EU & SOME).
    destruct SOME as (r & ER). { intros A. apply andb_true_iff. split; auto. apply LK. auto. }
    rewrite EU. cbn [find_further_point obind]. fold bases in ER. rewrite ER. f_equal.
    destruct (search_fits dims cell tol cloud nn D vals H23 tol_gt HC HN row0 H0 S0 row a rest _ r EU ER) as [CA AC].
    { intros A. apply andb_true_iff in A. apply A. }
    apply andb_true_iff in AC as [_ AC]. apply F5; auto. apply LK. auto.
Qed.

(** A crystal in general position is found from rows with enough of its distances. *)
Theorem C84_crystal : forall dims inv neighbors nn ci pdd m cell diam D fuel rho B, dims = 2%nat \/ dims = 3%nat -> square_matrix dims cell ->
  neighbors cell tol = Done nn -> (forall v, In v nn -> In (invert v) nn /\ exists l, length l = dims /\ v = lat dims cell l) ->
  inv cell = Done ci -> is_inverse dims cell ci ->
  diameter cell = Done diam -> first_empty_shell dims cell diam D -> (D <= fuel)%nat ->
  (2 <= length m)%nat -> length pdd = length m -> (forall q, In q m -> length q = dims) -> nth 0 m [] = repeat 0 dims ->
  general_position dims cell m tol B -> rho <= B -> diam <= B ->
  (forall i, (i < length m)%nat -> has_distances dims cell m rho B i (nth i pdd [])) ->
  (forall i, (1 <= i < length m)%nat -> visible dims cell nn tol rho diam D (nth i m []) /\ unambiguous dims cell m nn tol diam B D i (nth i m [])) ->
  (forall i, (2 <= i < length m)%nat -> oriented dims cell m tol rho diam B D i (nth 1 m []) (nth i m [])) ->
  exists motif, reconstruct inv neighbors fuel pdd cell = Done motif /\
    (recovered dims cell (nth 1 m []) (skipn 2 m) motif \/ recovered dims cell (invert (nth 1 m [])) (map invert (skipn 2 m)) motif).
Proof.
  intros dims inv neighbors nn ci pdd m cell diam D fuel rho B H23 HS EN HN EI II ED FE HF L2 LP HM HO GP RB DB RI VU OR.
  destruct pdd as [|row0 [|row1 rows]]; cbn [length] in LP; try lia.
  pose proof (RI 0%nat ltac:(lia)) as R0. pose proof (RI 1%nat ltac:(lia)) as R1. cbn [nth] in R0, R1.
  apply (C84_found dims inv neighbors nn ci row0 row1 rows (nth 1 m []) (skipn 2 m) cell diam D fuel); auto.
  - intros d Hd. apply R0 in Hd as (_ & j & l & _ & _ & _ & ->). apply sqrt_pos.
  - apply R0.
  - intros vals LL. apply (crystal_determined dims cell m nn tol rho B diam D vals); auto; try lia; [exact tol_gt|intros v Hv; apply HN; auto|].
    intros i Hi. specialize (RI i ltac:(lia)). destruct i as [|[|i]]; try lia. cbn [nth] in RI. replace (S (S i) - 2)%nat with i by lia. auto.
Qed.

(** ** A crystal with three points *)
Definition cell16 : list (list R) := [[16; 0]; [1; 17]].
Definition zpoints : list (Z * Z) := [(0, 0); (-6, 7); (2, -1)]%Z.
Definition motif16 : list (list R) := map (fun p => [IZR (fst p); IZR (snd p)]) zpoints.
Definition zneighbors : list (Z * Z) := [(16, 0); (1, 17); (15, -17); (-16, 0); (-1, -17); (-15, 17)]%Z.
Definition neighbors16 : list (list R) := map (fun p => [IZR (fst p); IZR (snd p)]) zneighbors.
Definition zrows : list (list Z) :=
  [[5; 85; 149; 181; 197; 256; 265; 290; 325; 425; 514; 533; 549; 578]; [85; 128; 130; 149; 162; 181; 256; 290; 514; 533; 578];
   [5; 128; 130; 162; 197; 256; 265; 290; 325; 425; 514; 549; 578]]%Z.
Definition rows16 : list (list R) := map (map (fun x => sqrt (IZR x))) zrows.
Definition zsquare (p : Z * Z) : Z := (fst p * fst p + snd p * snd p)%Z.
Definition zdot (p q : Z * Z) : Z := (fst p * fst q + snd p * snd q)%Z.
Definition zpt (i : nat) : Z * Z := nth i zpoints (0, 0)%Z.
Definition zgap (i j : nat) (p q : Z) : Z := zsquare (fst (zpt i) - fst (zpt j) - 16 * p - q, snd (zpt i) - snd (zpt j) - 17 * q)%Z.
Definition small : list Z := [-2; -1; 0; 1; 2]%Z.
Definition threes : list nat := [0; 1; 2]%nat.

Lemma sq16 : square_matrix 2 cell16.
Proof. split; auto. repeat (constructor; auto). Qed.
Lemma lat16 : forall p q, lat 2 cell16 [p; q] = [IZR (16 * p + q); IZR (17 * q)].
Proof. intros. unfold lat, lattice_coord, comb_coord, rsum, cell16. cbn [length seq map nth fold_right]. rewrite plus_IZR, !mult_IZR. f_equal; [ring|]. f_equal. ring. Qed.
Lemma edist_z : forall a b c d, edist [IZR a; IZR b] [IZR c; IZR d] = sqrt (IZR (zsquare (a - c, b - d)%Z)).
Proof. intros. rewrite edist2. f_equal. unfold zsquare. cbn [fst snd]. rewrite plus_IZR, !mult_IZR, !minus_IZR. ring. Qed.
Lemma vlen_z : forall a b, vlen [IZR a; IZR b] = sqrt (IZR (zsquare (a, b))).
Proof. intros. unfold vlen. f_equal. unfold zsquare. cbn [fst snd rdot]. rewrite plus_IZR, !mult_IZR. ring. Qed.
Lemma point16 : forall i, (i < 3)%nat -> nth i motif16 [] = [IZR (fst (zpt i)); IZR (snd (zpt i))].
Proof. intros i Hi. destruct i as [|[|[|i]]]; auto; lia. Qed.
Lemma gap16 : forall i j p q, (i < 3)%nat -> (j < 3)%nat -> gap 2 cell16 motif16 i j [p; q] = sqrt (IZR (zgap i j p q)).
Proof.
  intros i j p q Hi Hj. unfold gap. rewrite !point16 by auto. unfold shift, lattice_coord, comb_coord, rsum, cell16. cbn [length seq map nth fold_right].
  rewrite edist2. f_equal. unfold zgap, zsquare. cbn [fst snd]. rewrite plus_IZR, !mult_IZR, !minus_IZR, !mult_IZR. ring.
Qed.
Lemma square_nonneg : forall p, (0 <= zsquare p)%Z.
Proof. intros. unfold zsquare. nia. Qed.
Lemma root_le : forall a b, (0 <= a)%Z -> (0 <= b)%Z -> sqrt (IZR a) <= sqrt (IZR b) <-> (a <= b)%Z.
Proof.
  intros a b Ha Hb. split; intros H.
  - apply le_IZR. apply sqrt_le_0; auto; apply IZR_le; auto.
  - apply sqrt_le_1_alt. apply IZR_le. auto.
Qed.
Lemma root_lt : forall a b, (0 <= a)%Z -> (0 <= b)%Z -> sqrt (IZR a) < sqrt (IZR b) <-> (a < b)%Z.
Proof. intros a b Ha Hb. pose proof (root_le b a Hb Ha) as H. split; intros Q; [destruct (Z_lt_le_dec a b) as [|G]; auto; apply H in G; lra|]. destruct (Rlt_le_dec (sqrt (IZR a)) (sqrt (IZR b))) as [|G]; auto. apply H in G. lia. Qed.
Lemma root_near : forall a b, (0 <= a <= 900)%Z -> (0 <= b <= 900)%Z -> Rabs (sqrt (IZR a) - sqrt (IZR b)) < tol -> a = b.
Proof.
  intros a b [A1 A2] [B1 B2] H. destruct (Z.eq_dec a b) as [|NE]; auto. exfalso. apply (IZR_le 0) in A1. apply (IZR_le 0) in B1. apply IZR_le in A2, B2.
  assert (Q : tol <= Rabs (sqrt (IZR a) - sqrt (IZR b))); [|lra]. apply roots_apart; try lra. rewrite <- minus_IZR, <- abs_IZR. apply (IZR_le 1). lia.
Qed.
Lemma gap_small : forall i j p q, (i < 3)%nat -> (j < 3)%nat -> (zgap i j p q <= 578)%Z -> In p small /\ In q small.
Proof.
  intros i j p q Hi Hj H. assert (B : (-8 <= fst (zpt i) - fst (zpt j) <= 8 /\ -8 <= snd (zpt i) - snd (zpt j) <= 8)%Z).
  { destruct i as [|[|[|i]]]; [| | |lia]; (destruct j as [|[|[|j]]]; [| | |lia]); cbn; lia. }
  unfold zgap, zsquare in H. cbn [fst snd] in H. set (dx := (fst (zpt i) - fst (zpt j))%Z) in *. set (dy := (snd (zpt i) - snd (zpt j))%Z) in *. clearbody dx dy.
  assert (Q1 : (-24 <= dy - 17 * q <= 24)%Z) by (clear B; set (u := (dy - 17 * q)%Z) in *; set (w := (dx - 16 * p - q)%Z) in *; clearbody u w; nia).
  assert (Q2 : (-24 <= dx - 16 * p - q <= 24)%Z) by (clear B; set (u := (dy - 17 * q)%Z) in *; set (w := (dx - 16 * p - q)%Z) in *; clearbody u w; nia).
  assert (q = -1 \/ q = 0 \/ q = 1)%Z by lia. assert (p = -2 \/ p = -1 \/ p = 0 \/ p = 1 \/ p = 2)%Z by lia. unfold small. cbn [In]. lia.
Qed.
Lemma three_in : forall i, (i < 3)%nat -> In i threes.
Proof. intros i H. destruct i as [|[|[|i]]]; cbn; auto; lia. Qed.
Lemma pair_of : forall l : list Z, length l = 2%nat -> exists p q, l = [p; q].
Proof. intros [|p [|q [|? ?]]] H; try discriminate. eauto. Qed.

Lemma general16 : general_position 2 cell16 motif16 tol (sqrt (IZR 578)).
Proof.
  assert (C1 : forallb (fun i => forallb (fun j => forallb (fun p => forallb (fun q => let g := zgap i j p q in
      ((i =? j)%nat || (578 <? g)%Z || forallb (fun i' => forallb (fun j' => forallb (fun p' => forallb (fun q' =>
        (negb (g =? zgap i' j' p' q')%Z || ((i' =? i)%nat && (j' =? j)%nat) || ((i' =? j)%nat && (j' =? i)%nat))%bool) small) small) threes) threes)%bool) small) small) threes) threes = true) by (vm_compute; reflexivity).
  split.
  - intros i j l i' j' l' Hi Hj Hi' Hj' HL HL' NE G G' Q. destruct (pair_of l HL) as (p & q & ->). destruct (pair_of l' HL') as (p' & q' & ->).
    change (length motif16) with 3%nat in *. rewrite !gap16 in * by auto.
    assert (N1 : (0 <= zgap i j p q)%Z) by apply square_nonneg. assert (N2 : (0 <= zgap i' j' p' q')%Z) by apply square_nonneg.
    apply root_le in G; try lia. apply root_le in G'; try lia. apply root_near in Q; try lia. rewrite Q. split; auto.
    destruct (gap_small i j p q) as [P1 P2]; auto. destruct (gap_small i' j' p' q') as [P3 P4]; auto.
    rewrite forallb_forall in C1. specialize (C1 i (three_in i Hi)). rewrite forallb_forall in C1. specialize (C1 j (three_in j Hj)). rewrite forallb_forall in C1. specialize (C1 p P1). rewrite forallb_forall in C1. specialize (C1 q P2). cbv zeta in C1.
    apply orb_true_iff in C1 as [C1|C1].
    + apply orb_true_iff in C1 as [C1|C1]; [apply Nat.eqb_eq in C1; contradiction|apply Z.ltb_lt in C1; lia].
    + rewrite forallb_forall in C1. specialize (C1 i' (three_in i' Hi')). rewrite forallb_forall in C1. specialize (C1 j' (three_in j' Hj')). rewrite forallb_forall in C1. specialize (C1 p' P3). rewrite forallb_forall in C1. specialize (C1 q' P4).
      rewrite !orb_true_iff, !andb_true_iff, negb_true_iff, !Nat.eqb_eq, Z.eqb_neq in C1. tauto.
  - intros l l' HL HL' G G' Q. destruct (pair_of l HL) as (p & q & ->). destruct (pair_of l' HL') as (p' & q' & ->). rewrite !lat16, !vlen_z in *.
    set (a := zsquare (16 * p + q, 17 * q)%Z) in *. set (b := zsquare (16 * p' + q', 17 * q')%Z) in *. assert (N1 : (0 <= a)%Z) by apply square_nonneg. assert (N2 : (0 <= b)%Z) by apply square_nonneg.
    apply root_le in G; try lia. apply root_le in G'; try lia. apply root_near in Q; try lia. rewrite Q. auto.
Qed.

(** *** Points at given distances *)
Definition zdet (b c : Z * Z) : Z := (fst b * snd c - snd b * fst c)%Z.
(** For squared distances [X1] and [X2] from [b] and [c] and squared length [N]: the twice the inner products, the defect and its derivative. *)
Definition zk (b : Z * Z) (N X : Z) : Z := (zsquare b + N - X)%Z.
Definition defect (b c : Z * Z) (N X1 X2 : Z) : Z :=
  (zk b N X1 * zk b N X1 * zsquare c - 2 * (zk b N X1 * zk c N X2 * zdot b c) + zk c N X2 * zk c N X2 * zsquare b - 4 * (zdet b c * zdet b c) * N)%Z.
Definition slope (b c : Z * Z) (N X1 X2 : Z) : Z :=
  (2 * (zk b N X1 * zsquare c) - 2 * ((zk b N X1 + zk c N X2) * zdot b c) + 2 * (zk c N X2 * zsquare b) - 4 * (zdet b c * zdet b c))%Z.
Definition curve (b c : Z * Z) : Z := (zsquare c - 2 * zdot b c + zsquare b)%Z.

Lemma solve16 : forall b c N X1 X2 s t, (0 <= N <= 900)%Z -> (0 <= X1)%Z -> (0 <= X2)%Z -> (Z.abs (slope b c N X1 X2) < 10 ^ 7)%Z -> (0 <= curve b c < 10 ^ 4)%Z ->
  edist [s; t] [IZR (fst b); IZR (snd b)] = sqrt (IZR X1) -> edist [s; t] [IZR (fst c); IZR (snd c)] = sqrt (IZR X2) -> Rabs (vlen [s; t] - sqrt (IZR N)) < tol ->
  defect b c N X1 X2 = 0%Z /\ (slope b c N X1 X2 <> 0%Z -> 2 * (s * IZR (fst b) + t * IZR (snd b)) = IZR (zk b N X1) /\ 2 * (s * IZR (fst c) + t * IZR (snd c)) = IZR (zk c N X2)).
Proof.
  intros [x1 y1] [x2 y2] N X1 X2 s t HN HX1 HX2 HS HC E1 E2 HV. cbn [fst snd] in *.
  rewrite edist2 in E1, E2. apply sqrt_inj in E1; [|apply sq2_nonneg|apply (IZR_le 0); auto]. apply sqrt_inj in E2; [|apply sq2_nonneg|apply (IZR_le 0); auto].
  set (n := s * s + t * t). set (dl := n - IZR N).
  assert (DL : Rabs dl <= 61 * tol).
  { unfold vlen in HV. cbn [rdot] in HV. replace (s * s + (t * t + 0)) with n in HV by (unfold n; ring). assert (N0 : 0 <= n) by (unfold n; nra).
    destruct HN as [HN1 HN2]. apply (IZR_le 0) in HN1. apply IZR_le in HN2.
    pose proof (sqrt_sqrt n N0) as S1. pose proof (sqrt_sqrt (IZR N) HN1) as S2. pose proof (sqrt_pos n). pose proof (sqrt_pos (IZR N)).
    assert (U : sqrt (IZR N) <= 30) by nra. assert (T1 : tol < 1). { unfold tol. rewrite <- Rinv_1. apply Rinv_lt_contravar; lra. }
    replace dl with ((sqrt n - sqrt (IZR N)) * (sqrt n + sqrt (IZR N))) by (unfold dl; nra). rewrite Rabs_mult, (Rabs_right (sqrt n + sqrt (IZR N))) by lra.
    assert (V : sqrt n <= 31). { unfold Rabs in HV. destruct (Rcase_abs _); lra. }
    pose proof (Rabs_pos (sqrt n - sqrt (IZR N))). pose proof tol_gt. nra. }
  assert (K1 : 2 * (s * IZR x1 + t * IZR y1) = IZR (zk (x1, y1) N X1) + dl).
  { unfold zk, zsquare. cbn [fst snd]. rewrite minus_IZR, !plus_IZR, !mult_IZR. unfold dl, n. lra. }
  assert (K2 : 2 * (s * IZR x2 + t * IZR y2) = IZR (zk (x2, y2) N X2) + dl).
  { unfold zk, zsquare. cbn [fst snd]. rewrite minus_IZR, !plus_IZR, !mult_IZR. unfold dl, n. lra. }
  assert (ID : IZR (defect (x1, y1) (x2, y2) N X1 X2) + dl * (IZR (slope (x1, y1) (x2, y2) N X1 X2) + dl * IZR (curve (x1, y1) (x2, y2))) = 0).
  { set (k1 := zk (x1, y1) N X1) in *. set (k2 := zk (x2, y2) N X2) in *.
    assert (G : 4 * ((IZR x1 * IZR y2 - IZR y1 * IZR x2) * (IZR x1 * IZR y2 - IZR y1 * IZR x2)) * n =
      (2 * (s * IZR x1 + t * IZR y1)) * (2 * (s * IZR x1 + t * IZR y1)) * (IZR x2 * IZR x2 + IZR y2 * IZR y2)
      - 2 * ((2 * (s * IZR x1 + t * IZR y1)) * (2 * (s * IZR x2 + t * IZR y2)) * (IZR x1 * IZR x2 + IZR y1 * IZR y2))
      + (2 * (s * IZR x2 + t * IZR y2)) * (2 * (s * IZR x2 + t * IZR y2)) * (IZR x1 * IZR x1 + IZR y1 * IZR y1)) by (unfold n; ring).
    rewrite K1, K2 in G. replace n with (IZR N + dl) in G by (unfold dl; ring).
    unfold defect, slope, curve. fold k1 k2. unfold zsquare, zdot, zdet. cbn [fst snd].
    repeat (rewrite ?plus_IZR, ?minus_IZR, ?mult_IZR). clearbody k1 k2 dl. lra. }
  set (W := defect _ _ _ _ _) in *. set (S := slope _ _ _ _ _) in *. set (M := curve _ _) in *.
  assert (FIN : W = 0%Z /\ (S <> 0%Z -> dl = 0)).
  { clearbody W S M dl. clear - ID HS HC DL.
    assert (T : tol = / 10 ^ 10) by reflexivity. assert (TT : 61 * tol <= / 10 ^ 8) by (rewrite T; lra). assert (D8 : Rabs dl <= / 10 ^ 8) by lra.
    assert (HS' : Rabs (IZR S) <= 10 ^ 7). { rewrite <- abs_IZR. replace (10 ^ 7) with (IZR (10 ^ 7)) by (cbn; lra). apply IZR_le. lia. }
    assert (HM : 0 <= IZR M <= 10 ^ 4). { replace (10 ^ 4) with (IZR (10 ^ 4)) by (cbn; lra). split; [apply (IZR_le 0)|apply IZR_le]; lia. }
    pose proof (Rabs_pos dl) as DP.
    assert (B1 : Rabs (dl * IZR M) < 1 / 2). { rewrite Rabs_mult, (Rabs_right (IZR M)) by lra. apply Rle_lt_trans with (/ 10 ^ 8 * 10 ^ 4); [apply Rmult_le_compat; lra|lra]. }
    assert (B2 : Rabs (IZR W) < 1).
    { replace (IZR W) with (- (dl * (IZR S + dl * IZR M))) by lra. rewrite Rabs_Ropp, Rabs_mult. pose proof (Rabs_triang (IZR S) (dl * IZR M)). pose proof (Rabs_pos (IZR S + dl * IZR M)).
      apply Rle_lt_trans with (/ 10 ^ 8 * (10 ^ 7 + 1 / 2)); [apply Rmult_le_compat; lra|lra]. }
    assert (W0 : W = 0%Z). { rewrite <- abs_IZR in B2. apply (lt_IZR _ 1) in B2. lia. }
    split; auto. intros NZ. rewrite W0 in ID. rewrite Rplus_0_l in ID. apply Rmult_integral in ID as [|ID]; auto. exfalso.
    assert (S1 : 1 <= Rabs (IZR S)) by (rewrite <- abs_IZR; apply (IZR_le 1); lia). replace (IZR S) with (- (dl * IZR M)) in S1 by lra. rewrite Rabs_Ropp in S1. lra. }
  destruct FIN as [F1 F2]. split; auto. intros NZ. rewrite K1, K2, F2 by auto. split; ring.
Qed.
Lemma same_products : forall b c s t s' t', zdet b c <> 0%Z -> s * IZR (fst b) + t * IZR (snd b) = s' * IZR (fst b) + t' * IZR (snd b) ->
  s * IZR (fst c) + t * IZR (snd c) = s' * IZR (fst c) + t' * IZR (snd c) -> s = s' /\ t = t'.
Proof.
  intros [x1 y1] [x2 y2] s t s' t' HD E1 E2. unfold zdet in HD. cbn [fst snd] in *. assert (D : IZR x1 * IZR y2 - IZR y1 * IZR x2 <> 0). { rewrite <- !mult_IZR, <- minus_IZR. intros Z0. apply HD. apply (eq_IZR _ 0). auto. }
  assert (G1 : (s - s') * (IZR x1 * IZR y2 - IZR y1 * IZR x2) = 0).
  { replace ((s - s') * (IZR x1 * IZR y2 - IZR y1 * IZR x2)) with (((s * IZR x1 + t * IZR y1) - (s' * IZR x1 + t' * IZR y1)) * IZR y2 - ((s * IZR x2 + t * IZR y2) - (s' * IZR x2 + t' * IZR y2)) * IZR y1) by ring. rewrite E1, E2. ring. }
  assert (G2 : (t - t') * (IZR x1 * IZR y2 - IZR y1 * IZR x2) = 0).
  { replace ((t - t') * (IZR x1 * IZR y2 - IZR y1 * IZR x2)) with (((s * IZR x2 + t * IZR y2) - (s' * IZR x2 + t' * IZR y2)) * IZR x1 - ((s * IZR x1 + t * IZR y1) - (s' * IZR x1 + t' * IZR y1)) * IZR x2) by ring. rewrite E1, E2. ring. }
  apply Rmult_integral in G1 as [G1|G1]; [|contradiction]. apply Rmult_integral in G2 as [G2|G2]; [|contradiction]. split; lra.
Qed.

(** *** The points of the motif *)
Lemma left_over16 : forall x, left_over 2 cell16 (sqrt (IZR 578)) 3 x -> sqrt (IZR 578) < x.
Proof.
  intros x (l & HL & HZ & EX & [|NB]); auto. destruct (Rlt_le_dec (sqrt (IZR 578)) x) as [|LE]; auto. exfalso. apply NB. split; auto. split; auto.
  destruct (pair_of l HL) as (p & q & ->). rewrite EX, <- (gap_lattice 2 cell16 motif16 ltac:(intros v Hv; repeat (destruct Hv as [<-|Hv]; auto); destruct Hv) 0) in LE by (cbn; lia).
  rewrite gap16 in LE by lia. apply root_le in LE; [|apply square_nonneg|lia].
  assert (C : forallb (fun p => forallb (fun q => ((578 <? zgap 0 0 p q)%Z || (zsq [p; q] <=? 4)%Z)%bool) small) small = true) by (vm_compute; reflexivity).
  destruct (gap_small 0 0 p q ltac:(lia) ltac:(lia) LE) as [P1 P2]. rewrite forallb_forall in C. specialize (C p P1). rewrite forallb_forall in C. specialize (C q P2).
  apply orb_true_iff in C as [C|C]; [apply Z.ltb_lt in C; lia|apply Z.leb_le in C; auto].
Qed.
Definition zsub (p q : Z * Z) : Z * Z := (fst p - fst q, snd p - snd q)%Z.
Definition pt (p : Z * Z) : list R := [IZR (fst p); IZR (snd p)].
Lemma edist_pt : forall p q, edist (pt p) (pt q) = sqrt (IZR (zsquare (zsub p q))).
Proof. intros. apply edist_z. Qed.
Lemma vlen_pt : forall p, vlen (pt p) = sqrt (IZR (zsquare p)).
Proof. intros [a b]. apply vlen_z. Qed.
Lemma visible16 : forall i b c, (1 <= i < 3)%nat -> let q := zpt i in In b zneighbors -> In c zneighbors -> zdet b c <> 0%Z ->
  (zsquare q < zsquare (zsub q b) < zsquare (zsub q c))%Z -> (zsquare (zsub q c) <= 578)%Z ->
  (Z.abs (slope b c (zsquare q) (zsquare (zsub q b)) (zsquare (zsub q c))) < 10 ^ 7)%Z -> slope b c (zsquare q) (zsquare (zsub q b)) (zsquare (zsub q c)) <> 0%Z -> (0 <= curve b c < 10 ^ 4)%Z ->
  visible 2 cell16 neighbors16 tol (sqrt (IZR 578)) (sqrt (IZR 578)) 3 (nth i motif16 []).
Proof.
  intros i b c Hi q Hb Hc HD [L1 L2] L3 HS HS' HC. rewrite point16 by lia. fold (pt (zpt i)). fold q.
  pose proof (square_nonneg q) as N1. pose proof (square_nonneg (zsub q b)) as N2. pose proof (square_nonneg (zsub q c)) as N3. split.
  - intros l HL. destruct (pair_of l HL) as (p & s & ->). rewrite lat16. change [IZR (16 * p + s); IZR (17 * s)] with (pt (16 * p + s, 17 * s)%Z). rewrite edist_pt, vlen_pt. apply root_le; [auto|apply square_nonneg|].
    assert (E : zsquare (zsub q (16 * p + s, 17 * s)%Z) = zgap i 0 p s). { unfold zgap, zsub, zsquare. fold q. change (zpt 0) with (0, 0)%Z. cbn [fst snd]. ring. }
    rewrite E. destruct (Z_le_gt_dec (zgap i 0 p s) 578) as [LE|]; [|lia]. destruct (gap_small i 0 p s ltac:(lia) ltac:(lia) LE) as [P1 P2].
    assert (C : forallb (fun i => forallb (fun p => forallb (fun s => (zsquare (zpt i) <=? zgap i 0 p s)%Z) small) small) threes = true) by (vm_compute; reflexivity).
    rewrite forallb_forall in C. specialize (C i (three_in i ltac:(lia))). rewrite forallb_forall in C. specialize (C p P1). rewrite forallb_forall in C. specialize (C s P2). apply Z.leb_le in C. auto.
  - rewrite vlen_pt. split; [apply root_le; lia|]. intros x Hx. apply left_over16 in Hx. apply Rle_trans with (sqrt (IZR 578)); [|lra]. apply root_le; lia.
  - exists [pt b; pt c]. split; [auto|]. split; [|split; [|split; [|split; [|split]]]].
    + intros v [<-|[<-|[]]]; apply (in_map pt); auto.
    + unfold volume, det2, entry. cbn [Nat.eqb nth pt]. rewrite <- !mult_IZR, <- minus_IZR, <- abs_IZR. apply Rlt_le_trans with 1; [unfold tol; rewrite <- Rinv_1; apply Rinv_lt_contravar; lra|]. apply (IZR_le 1). unfold zdet in HD. lia.
    + cbn [map]. rewrite !edist_pt, vlen_pt. assert (Q1 : sqrt (IZR (zsquare q)) < sqrt (IZR (zsquare (zsub q b)))) by (apply root_lt; auto). assert (Q2 : sqrt (IZR (zsquare (zsub q b))) < sqrt (IZR (zsquare (zsub q c)))) by (apply root_lt; auto).
      repeat constructor; auto. lra.
    + intros v [<-|[<-|[]]]; rewrite edist_pt; apply root_le; lia.
    + intros X. discriminate.
    + intros q' HL HE HV. destruct (len2 q' HL) as (s & t & ->). pose proof (HE (pt b) (or_introl eq_refl)) as E1. pose proof (HE (pt c) (or_intror (or_introl eq_refl))) as E2. rewrite edist_pt in E1, E2. rewrite vlen_pt in HV.
      destruct (solve16 b c (zsquare q) (zsquare (zsub q b)) (zsquare (zsub q c)) s t) as [_ S]; auto; try lia. destruct (S HS') as [S1 S2].
      assert (P : forall w, IZR (zk w (zsquare q) (zsquare (zsub q w))) = 2 * (IZR (fst q) * IZR (fst w) + IZR (snd q) * IZR (snd w))).
      { intros w. replace (zk w (zsquare q) (zsquare (zsub q w))) with (2 * (fst q * fst w + snd q * snd w))%Z by (unfold zk, zsquare, zsub; cbn [fst snd]; ring). rewrite mult_IZR, plus_IZR, !mult_IZR. ring. }
      rewrite P in S1, S2. destruct (same_products b c s t (IZR (fst q)) (IZR (snd q)) HD) as [-> ->]; auto; lra.
Qed.
Definition alone (i : nat) (b c : Z * Z) (X1 X2 : Z) : bool :=
  let q := zpt i in let N := zsquare q in let S := slope b c N X1 X2 in
  ((zdet b c =? 0) || (X1 <=? N) || (X2 <=? X1) || (578 <? X2) ||
   ((Z.abs S <? 10 ^ 7) && (0 <=? curve b c) && (curve b c <? 10 ^ 4) &&
    (negb (defect b c N X1 X2 =? 0) || (negb (S =? 0) &&
      ((zk b N X1 =? 2 * zdot q b) && (zk c N X2 =? 2 * zdot q c) || (zk b N X1 =? - (2 * zdot q b)) && (zk c N X2 =? - (2 * zdot q c)))))))%Z.
Lemma alone16 : forallb (fun i => forallb (fun b => forallb (fun c => forallb (fun p => forallb (fun s => forallb (fun p' => forallb (fun s' =>
  alone i b c (zgap 0 i p s) (zgap 0 i p' s')) small) small) small) small) zneighbors) zneighbors) [1; 2]%nat = true.
Proof. vm_compute. reflexivity. Qed.
Lemma unambiguous16 : forall i, (1 <= i < 3)%nat -> unambiguous 2 cell16 motif16 neighbors16 tol (sqrt (IZR 578)) (sqrt (IZR 578)) 3 i (nth i motif16 []).
Proof.
  intros i Hi r bs HL HV HB HN HVOL HC HSS _. rewrite point16 in * by lia. fold (pt (zpt i)) in *. set (q := zpt i) in *.
  assert (Hb : exists b c, bs = [pt b; pt c] /\ In b zneighbors /\ In c zneighbors).
  { destruct bs as [|u [|v [|? ?]]]; try discriminate. pose proof (HN u (or_introl eq_refl)) as Hu. pose proof (HN v (or_intror (or_introl eq_refl))) as Hv.
    apply in_map_iff in Hu as (b & <- & Hb). apply in_map_iff in Hv as (c & <- & Hc). exists b, c. auto. }
  destruct Hb as (b & c & -> & Hb & Hc). destruct (len2 r HL) as (s & t & ->).
  assert (COM : forall x, common 2 cell16 motif16 (sqrt (IZR 578)) (sqrt (IZR 578)) 3 0 i x -> exists p w, In p small /\ In w small /\ (zgap 0 i p w <= 578)%Z /\ x = sqrt (IZR (zgap 0 i p w))).
  { intros x [XB [(l & Hl & ->)|LO]].
    - destruct (pair_of l Hl) as (p & w & ->). rewrite gap16 in * by lia. apply root_le in XB; [|apply square_nonneg|lia]. destruct (gap_small 0 i p w ltac:(lia) ltac:(lia) XB). exists p, w. auto.
    - apply left_over16 in LO. lra. }
  destruct (COM _ (HC (pt b) (or_introl eq_refl))) as (p & w & Hp & Hw & G1 & E1). destruct (COM _ (HC (pt c) (or_intror (or_introl eq_refl)))) as (p' & w' & Hp' & Hw' & G2 & E2).
  assert (A : alone i b c (zgap 0 i p w) (zgap 0 i p' w') = true).
  { pose proof alone16 as A. rewrite forallb_forall in A. assert (I : In i [1; 2]%nat) by (destruct i as [|[|[|i]]]; cbn; auto; lia). specialize (A i I).
    rewrite forallb_forall in A. specialize (A b Hb). rewrite forallb_forall in A. specialize (A c Hc). rewrite forallb_forall in A. specialize (A p Hp). rewrite forallb_forall in A. specialize (A w Hw).
    rewrite forallb_forall in A. specialize (A p' Hp'). rewrite forallb_forall in A. apply (A w' Hw'). }
  set (X1 := zgap 0 i p w) in *. set (X2 := zgap 0 i p' w') in *. assert (N1 : (0 <= X1)%Z) by apply square_nonneg. assert (N2 : (0 <= X2)%Z) by apply square_nonneg. pose proof (square_nonneg q) as N0. clearbody X1 X2.
  cbn [map] in HSS. rewrite E1, E2, vlen_pt in HSS. rewrite vlen_pt in HV.
  inversion HSS as [|? ? HS1 F1]; subst. inversion HS1 as [|? ? _ F2]; subst. inversion F1 as [|? ? Q1 _]; subst. inversion F2 as [|? ? Q2 _]; subst. apply root_lt in Q1; auto. apply root_lt in Q2; auto.
  assert (HD : zdet b c <> 0%Z).
  { intros Z0. unfold volume, det2, entry in HVOL. cbn [Nat.eqb nth pt] in HVOL. rewrite <- !mult_IZR, <- minus_IZR in HVOL. fold (zdet b c) in HVOL. rewrite Z0, Rabs_R0 in HVOL. pose proof tol_gt. lra. }
  unfold alone in A. fold q in A. cbv zeta in A. rewrite !orb_true_iff, Z.eqb_eq, !Z.leb_le, Z.ltb_lt in A. destruct A as [[[[A|A]|A]|A]|A]; try lia; try contradiction.
  rewrite !andb_true_iff, Z.ltb_lt, Z.leb_le, Z.ltb_lt in A. destruct A as [[[A1 A2] A3] A4].
  destruct (solve16 b c (zsquare q) X1 X2 s t) as [S1 S2]; auto; try lia. rewrite S1, Z.eqb_refl in A4. cbn [negb orb] in A4. rewrite andb_true_iff, negb_true_iff, Z.eqb_neq in A4. destruct A4 as [A4 A5].
  destruct (S2 A4) as [K1 K2]. rewrite orb_true_iff, !andb_true_iff, !Z.eqb_eq in A5. destruct A5 as [[B1 B2]|[B1 B2]]; rewrite B1 in K1; rewrite B2 in K2; unfold zdot in K1, K2; rewrite ?opp_IZR, !mult_IZR, plus_IZR, !mult_IZR in K1, K2.
  - left. destruct (same_products b c s t (IZR (fst q)) (IZR (snd q)) HD) as [-> ->]; auto; lra.
  - right. destruct (same_products b c s t (- IZR (fst q)) (- IZR (snd q)) HD) as [-> ->]; auto; lra.
Qed.
Lemma oriented16 : oriented 2 cell16 motif16 tol (sqrt (IZR 578)) (sqrt (IZR 578)) (sqrt (IZR 578)) 3 2 (nth 1 motif16 []) (nth 2 motif16 []).
Proof.
  rewrite !point16 by lia. fold (pt (zpt 1)) (pt (zpt 2)). split.
  - rewrite edist_pt. apply root_le; cbn; lia.
  - assert (E : invert (pt (zpt 2)) = pt (-2, 1)%Z). { unfold invert, pt. cbn [zpt nth zpoints fst snd map]. rewrite <- !opp_IZR. reflexivity. }
    rewrite E, edist_pt. intros x [XB [(l & Hl & ->)|LO]]; [|apply left_over16 in LO; lra]. destruct (pair_of l Hl) as (p & w & ->). rewrite gap16 in * by lia. apply root_le in XB; [|apply square_nonneg|lia].
    destruct (gap_small 1 2 p w ltac:(lia) ltac:(lia) XB) as [P1 P2]. assert (C : forallb (fun p => forallb (fun w => negb (zgap 1 2 p w =? 52)%Z) small) small = true) by (vm_compute; reflexivity).
    rewrite forallb_forall in C. specialize (C p P1). rewrite forallb_forall in C. specialize (C w P2). apply negb_true_iff, Z.eqb_neq in C.
    destruct (Rle_lt_dec tol (Rabs (sqrt (IZR (zgap 1 2 p w)) - sqrt (IZR (zsquare (zsub (zpt 1) (-2, 1)%Z)))))) as [|Q]; auto. exfalso. apply root_near in Q; [contradiction| |cbn; lia]. split; [apply square_nonneg|lia].
Qed.
Lemma distances16 : forall i, (i < 3)%nat -> has_distances 2 cell16 motif16 (sqrt (IZR 578)) (sqrt (IZR 578)) i (nth i rows16 []).
Proof.
  assert (C0 : forallb (fun row => forallb (fun x => ((0 <=? x) && (x <=? 578))%Z) row) zrows = true) by (vm_compute; reflexivity).
  assert (C1 : forallb (fun i => forallb (fun x => existsb (fun j => existsb (fun p => existsb (fun q => ((negb (j =? i)%nat || (0 <? zsq [p; q])%Z) && (x =? zgap i j p q)%Z)%bool) small) small) threes) (nth i zrows [])) threes = true) by (vm_compute; reflexivity).
  assert (C2 : forallb (fun i => forallb (fun j => forallb (fun p => forallb (fun q => (((j =? i)%nat && (zsq [p; q] <=? 0)%Z) || (578 <? zgap i j p q)%Z || existsb (Z.eqb (zgap i j p q)) (nth i zrows []))%bool) small) small) threes) threes = true) by (vm_compute; reflexivity).
  assert (C3 : forall row, In row zrows -> StronglySorted Z.lt row). { intros row H. repeat (destruct H as [<-|H]; [repeat (constructor; [|repeat (constructor; [lia|]); constructor]); constructor|]). destruct H. }
  intros i Hi. assert (HR : In (nth i zrows []) zrows) by (apply nth_In; auto).
  assert (NR : nth i rows16 [] = map (fun x => sqrt (IZR x)) (nth i zrows [])) by (unfold rows16; apply (map_nth (map (fun x => sqrt (IZR x))) zrows [] i)). rewrite NR. split; [|split].
  - specialize (C3 _ HR). rewrite forallb_forall in C0. specialize (C0 _ HR). clear - C3 C0. induction C3 as [|x l S IH F]; cbn [map]; constructor.
    + apply IH. cbn [forallb] in C0. apply andb_true_iff in C0. tauto.
    + apply Forall_forall. intros y Hy. apply in_map_iff in Hy as (z & <- & Hz). rewrite Forall_forall in F. specialize (F z Hz). apply sqrt_le_1_alt. apply IZR_le. lia.
  - intros x Hx. apply in_map_iff in Hx as (z & <- & Hz). rewrite forallb_forall in C0. specialize (C0 _ HR). rewrite forallb_forall in C0. specialize (C0 z Hz). apply andb_true_iff in C0 as [Z0 Z1]. apply Z.leb_le in Z0, Z1.
    split; [apply root_le; lia|]. rewrite forallb_forall in C1. specialize (C1 i (three_in i Hi)). rewrite forallb_forall in C1. specialize (C1 z Hz).
    apply existsb_exists in C1 as (j & Hj & C1). apply existsb_exists in C1 as (p & _ & C1). apply existsb_exists in C1 as (q & _ & C1). apply andb_true_iff in C1 as [N E]. apply Z.eqb_eq in E. subst z.
    assert (J : (j < 3)%nat) by (cbn in Hj; lia). exists j, [p; q]. split; auto. split; auto. split; [|rewrite gap16; auto]. apply orb_true_iff in N as [N|N]; [left; apply negb_true_iff, Nat.eqb_neq in N; auto|right; apply Z.ltb_lt; auto].
  - intros j l Hj HL NS Q. change (length motif16) with 3%nat in Hj. destruct (pair_of l HL) as (p & q & ->). rewrite gap16 in * by auto. apply root_le in Q; [|apply square_nonneg|lia]. destruct (gap_small i j p q Hi Hj Q) as [P1 P2].
    rewrite forallb_forall in C2. specialize (C2 i (three_in i Hi)). rewrite forallb_forall in C2. specialize (C2 j (three_in j Hj)). rewrite forallb_forall in C2. specialize (C2 p P1). rewrite forallb_forall in C2. specialize (C2 q P2).
    rewrite !orb_true_iff, andb_true_iff, Nat.eqb_eq, Z.leb_le, Z.ltb_lt in C2. destruct C2 as [[[C2 C2']|C2]|C2]; [lia|lia|]. apply existsb_exists in C2 as (z & Hz & E). apply Z.eqb_eq in E. rewrite E. apply (in_map (fun x => sqrt (IZR x))). auto.
Qed.
Lemma diam16 : diameter cell16 = Done (sqrt (IZR 578)).
Proof. unfold diameter, cell16. cbn [rows_add rows_sub map2 map squares total fold_left greatest]. f_equal. f_equal. rewrite Rmax_left; lra. Qed.
Lemma shell16 : first_empty_shell 2 cell16 (sqrt (IZR 578)) 3.
Proof.
  split; [lia| |].
  - intros d Hd. assert (d = 1 \/ d = 2)%nat as [->| ->] by lia; [exists [1; 0]%Z|exists [1; 1]%Z]; (split; [split; [auto|cbn; lia]|rewrite lat16, vlen_z; apply root_le; cbn; lia]).
  - intros l (HL & H1 & [H2|H2]); [discriminate|]. destruct (pair_of l HL) as (p & q & ->). destruct (Rlt_le_dec (sqrt (IZR 578)) (vlen (lat 2 cell16 [p; q]))) as [|LE]; auto. exfalso. rewrite lat16, vlen_z in LE. apply root_le in LE; [|apply square_nonneg|lia].
    assert (E : zsquare (16 * p + q, 17 * q)%Z = zgap 0 0 p q) by (unfold zgap, zsquare; change (zpt 0) with (0, 0)%Z; cbn [fst snd]; ring). rewrite E in LE. destruct (gap_small 0 0 p q ltac:(lia) ltac:(lia) LE) as [P1 P2].
    assert (C : forallb (fun p => forallb (fun q => ((578 <? zgap 0 0 p q)%Z || (zsq [p; q] <=? 4)%Z)%bool) small) small = true) by (vm_compute; reflexivity).
    rewrite forallb_forall in C. specialize (C p P1). rewrite forallb_forall in C. specialize (C q P2). apply orb_true_iff in C as [C|C]; [apply Z.ltb_lt in C; lia|apply Z.leb_le in C; cbn in *; lia].
Qed.
Definition inverse16 : list (list R) := [[/ 16; 0]; [- / 272; / 17]].
Lemma inv16 : is_inverse 2 cell16 inverse16.
Proof.
  split; [split; auto; repeat (constructor; auto)|]. unfold fractional, comb_coord, rsum, cell16, inverse16. split.
  - intros p HL. destruct (len2 p HL) as (a & b & ->). cbn [length seq map nth fold_right]. split; auto. f_equal; [field|]. f_equal. field.
  - intros f p [HL ->]. destruct (len2 f HL) as (a & b & ->). cbn [length seq map nth fold_right]. f_equal; [field|]. f_equal. field.
Qed.
Lemma neighbors16_ok : forall v, In v neighbors16 -> In (invert v) neighbors16 /\ exists l, length l = 2%nat /\ v = lat 2 cell16 l.
Proof.
  assert (O : forall a, - IZR a = IZR (- a)) by (intros; rewrite opp_IZR; auto).
  intros v H. unfold neighbors16, zneighbors in *. cbn [map fst snd In] in *.
  repeat (destruct H as [<-|H]); [..|destruct H]; (split; [unfold invert; cbn [map]; rewrite !O; cbn; tauto|]);
    [exists [1; 0]%Z|exists [0; 1]%Z|exists [1; -1]%Z|exists [-1; 0]%Z|exists [0; -1]%Z|exists [-1; 1]%Z]; (split; [auto|]); rewrite lat16; reflexivity.
Qed.
(** The crystal of three points meets the hypotheses of the theorem, and is found. *)
Example C84_crystal_case : exists inv neighbors motif,
  neighbors cell16 tol = Done neighbors16 /\ inv cell16 = Done inverse16 /\ general_position 2 cell16 motif16 tol (sqrt (IZR 578)) /\
  (forall i, (i < 3)%nat -> has_distances 2 cell16 motif16 (sqrt (IZR 578)) (sqrt (IZR 578)) i (nth i rows16 [])) /\
  reconstruct inv neighbors 3 rows16 cell16 = Done motif /\
  (recovered 2 cell16 [-6; 7] [[2; -1]] motif \/ recovered 2 cell16 (invert [-6; 7]) (map invert [[2; -1]]) motif).
Proof.
  assert (HM : forall q, In q motif16 -> length q = 2%nat) by (intros q H; repeat (destruct H as [<-|H]; [reflexivity|]); destruct H).
  assert (VU : forall i, (1 <= i < length motif16)%nat -> visible 2 cell16 neighbors16 tol (sqrt (IZR 578)) (sqrt (IZR 578)) 3 (nth i motif16 []) /\
    unambiguous 2 cell16 motif16 neighbors16 tol (sqrt (IZR 578)) (sqrt (IZR 578)) 3 i (nth i motif16 [])).
  { intros i Hi. change (length motif16) with 3%nat in Hi. split; [|apply unambiguous16; auto].
    destruct i as [|[|[|i]]]; try lia; [apply (visible16 1 (1, 17)%Z (-15, 17)%Z)|apply (visible16 2 (16, 0)%Z (1, 17)%Z)];
      try (vm_compute; intuition discriminate); try lia; unfold zneighbors; cbn [In]; tauto. }
  assert (OR : forall i, (2 <= i < length motif16)%nat -> oriented 2 cell16 motif16 tol (sqrt (IZR 578)) (sqrt (IZR 578)) (sqrt (IZR 578)) 3 i (nth 1 motif16 []) (nth i motif16 [])).
  { intros i Hi. change (length motif16) with 3%nat in Hi. replace i with 2%nat by lia. apply oriented16. }
  destruct (C84_crystal 2 (fun _ => Done inverse16) (fun _ _ => Done neighbors16) neighbors16 inverse16 rows16 motif16 cell16 (sqrt (IZR 578)) 3 3 (sqrt (IZR 578)) (sqrt (IZR 578))
    (or_introl eq_refl) sq16 eq_refl neighbors16_ok eq_refl inv16 diam16 shell16 (le_n 3) (le_S _ _ (le_n 2)) eq_refl HM eq_refl general16 (Rle_refl _) (Rle_refl _) distances16 VU OR) as (motif & E & REC).
  exists (fun _ => Done inverse16), (fun _ _ => Done neighbors16), motif. split; [reflexivity|]. split; [reflexivity|]. split; [exact general16|]. split; [exact distances16|]. split; [exact E|exact REC].
Qed.

Print Assumptions C84_found.
Print Assumptions C84_crystal.
