(** C63: reconstruction of a motif. *)
From Coq Require Import List ZArith Reals Arith Bool Sorted Lia Lra.
From Verif Require Import Num Base Outcome Spec LatticeModel LatticeProofs2 VecR NNModel SpecGeom NNSpecProofs NNComplete SpecCell UtilsModel Props_Utils PSetModel Props_PSet SpecRecon ReconModel Props_Recon.
Import ListNotations.
Open Scope R_scope.
Open Scope list_scope.
Open Scope outcome_scope.

Lemma done_bind : forall A B (a : outcome A) (f : A -> outcome B) b, obind a f = Done b -> exists x, a = Done x /\ f x = Done b.
Proof. intros A B [x| | |] f b H; cbn in H; try discriminate. eauto. Qed.

(** ** Layers of the lattice *)
Lemma lat_latvec : forall dims cell l, square_matrix dims cell -> length l = dims -> latvec dims cell l = lat dims cell l.
Proof.
  intros dims cell l [H1 H2] HL. apply (nth_ext _ _ 0 0); [unfold lat; rewrite map_length, seq_length; apply latvec_length; auto|].
  intros j Hj. rewrite latvec_length in Hj by auto. rewrite latvec_nth by (auto; congruence).
  unfold lat. rewrite (nth_indep _ 0 (lattice_coord cell l 0)) by (rewrite map_length, seq_length; auto).
  rewrite (map_nth (lattice_coord cell l)), seq_nth by auto. auto.
Qed.
Lemma lat_length : forall dims cell l, length (lat dims cell l) = dims.
Proof. intros. unfold lat. rewrite map_length, seq_length. auto. Qed.
Lemma zero_add : forall n (v : list R), length v = n -> vadd (repeat 0 n) v = v.
Proof.
  intros n v. revert n. induction v as [|a v IH]; intros n H; subst n; auto. cbn [length repeat]. unfold vadd in *. cbn [map2]. f_equal; [cbn; lra|]. apply IH. auto.
Qed.
Lemma layer_correct : forall dims cell pos, (1 <= dims)%nat -> square_matrix dims cell ->
  exists layer, concentric_layer dims cell pos = Done layer /\
    forall v, In v layer <-> exists l, in_shell dims pos l /\ v = lat dims cell l.
Proof.
  intros dims cell pos HD HS. destruct (gen_item_correct dims pos HD) as (layer & E & _ & HI). unfold concentric_layer. rewrite E. cbn [obind].
  eexists. split; [reflexivity|]. intros v. unfold lattice_to_cloud. rewrite in_flat_map. setoid_rewrite in_map_iff. split.
  - intros (t & (l & <- & Hl) & (p & <- & [<-|[]])). apply HI in Hl. exists l. split; auto. assert (LL : length l = dims) by apply Hl.
    rewrite lat_latvec by auto. apply zero_add, lat_length.
  - intros (l & Hl & ->). assert (LL : length l = dims) by apply Hl. exists (latvec dims cell l). split; [exists l; split; auto; apply HI; auto|].
    exists (repeat 0 dims). split; [|left; auto]. rewrite lat_latvec by auto. apply zero_add, lat_length.
Qed.
Lemma below_shell : forall dims D l, (1 <= D)%nat -> below dims D l <-> exists d, (1 <= d < D)%nat /\ in_shell dims d l.
Proof.
  intros dims D l D1. unfold below, in_shell. split.
  - intros (HL & H1 & H2). destruct (Z.sqrt_spec (zsq l - 1) ltac:(lia)) as [Q1 Q2]. set (s := Z.sqrt (zsq l - 1)) in *.
    assert (S0 : (0 <= s)%Z) by apply Z.sqrt_nonneg.
    exists (Z.to_nat (s + 1)). rewrite Z2Nat.id by lia.
    split; [|split; [auto|split; [lia|right; replace (s + 1 - 1)%Z with s by lia; lia]]].
    assert (s < Z.of_nat D - 1)%Z by nia. lia.
  - intros (d & Hd & HL & H1 & H2). split; auto. destruct H2 as [H2|H2]; [lia|]. split; nia.
Qed.
Section Cloud.
  Variables (dims : nat) (cell : list (list R)) (diam : R).
  Hypothesis HD : (1 <= dims)%nat.
  Hypothesis HS : square_matrix dims cell.
  Lemma short_layer : forall pos layer, (forall v, In v layer <-> exists l, in_shell dims pos l /\ v = lat dims cell l) ->
    (existsb (fun v => Rleb (norm_row v) diam) layer = true <-> exists l, in_shell dims pos l /\ vlen (lat dims cell l) <= diam).
  Proof.
    intros pos layer HI. rewrite existsb_exists. split.
    - intros (v & Hv & Q). apply HI in Hv as (l & Hl & ->). apply Rleb_true in Q. rewrite norm_vlen in Q. eauto.
    - intros (l & Hl & Q). exists (lat dims cell l). split; [apply HI; eauto|]. apply Rleb_true. rewrite norm_vlen. auto.
  Qed.
  Lemma cloud_loop_inv : forall fuel pos cloud0 cloud, cloud_loop fuel dims cell diam pos cloud0 = Done cloud ->
    exists D, (pos <= D)%nat /\ (forall d, (pos <= d < D)%nat -> exists l, in_shell dims d l /\ vlen (lat dims cell l) <= diam) /\
      (forall l, in_shell dims D l -> diam < vlen (lat dims cell l)) /\ cloud <> [] /\
      forall v, In v cloud <-> In v cloud0 \/ exists d l, (pos <= d < D)%nat /\ in_shell dims d l /\ v = lat dims cell l.
  Proof.
    induction fuel as [|fuel IH]; intros pos cloud0 cloud E; cbn [cloud_loop] in E; [discriminate|].
    destruct (layer_correct dims cell pos HD HS) as (layer & EL & HI). rewrite EL in E. cbn [obind] in E.
    pose proof (short_layer pos layer HI) as SL. destruct (existsb _ layer) eqn:X.
    - destruct (IH _ _ _ E) as (D & H1 & H2 & H3 & H4 & H5). exists D. split; [lia|]. split; [|split; [auto|split; [auto|]]].
      + intros d Hd. destruct (Nat.eq_dec d pos) as [->|]; [apply SL; auto|apply H2; lia].
      + intros v. rewrite H5, in_app_iff. split.
        * intros [[Hv|Hv]|(d & l & Hd & Hl)]; auto; right; [|exists d, l; split; [lia|auto]]. apply HI in Hv as (l & Hl). exists pos, l. split; [lia|auto].
        * intros [Hv|(d & l & Hd & Hl)]; auto. destruct (Nat.eq_dec d pos) as [->|]; [left; right; apply HI; eauto|]. right. exists d, l. split; [lia|auto].
    - exists pos. split; [lia|]. split; [intros; lia|]. assert (CL : cloud = cloud0 /\ cloud <> []) by (destruct cloud0; inversion E; split; auto; discriminate).
      destruct CL as [-> CN]. split; [|split; [auto|]].
      + intros l Hl. destruct (Rle_lt_dec (vlen (lat dims cell l)) diam) as [Q|]; auto. assert (false = true) by (apply SL; eauto). discriminate.
      + intros v. split; auto. intros [H|(d & l & H & _)]; [auto|lia].
  Qed.
  Lemma cloud_correct : forall fuel cloud, cloud_loop fuel dims cell diam 1 [] = Done cloud ->
    exists D, first_empty_shell dims cell diam D /\ forall v, In v cloud <-> exists l, below dims D l /\ v = lat dims cell l.
  Proof.
    intros fuel cloud E. destruct (cloud_loop_inv _ _ _ _ E) as (D & H1 & H2 & H3 & H4 & H5). exists D. split.
    - split; auto. destruct (Nat.eq_dec D 1) as [->|]; [|lia]. destruct cloud as [|v c]; [congruence|]. exfalso.
      destruct (H5 v) as [[[]|(d & l & Hd & _)] _]; [left; auto|lia].
    - intros v. rewrite H5. setoid_rewrite below_shell; auto. split.
      + intros [[]|(d & l & Hd & Hl & E')]. eauto.
      + intros (l & (d & Hd & Hl) & E'). right. eauto.
  Qed.
  Lemma cloud_loop_done : forall n fuel pos cloud0 D, (D = pos + n)%nat -> (n < fuel)%nat -> (forall d, (pos <= d < D)%nat -> exists l, in_shell dims d l /\ vlen (lat dims cell l) <= diam) ->
    (forall l, in_shell dims D l -> diam < vlen (lat dims cell l)) -> (1 <= n)%nat \/ cloud0 <> [] ->
    exists cloud, cloud_loop fuel dims cell diam pos cloud0 = Done cloud.
  Proof.
    induction n as [|n IH]; intros fuel pos cloud0 D HN HF HB HE HC; (destruct fuel as [|fuel]; [lia|]); cbn [cloud_loop];
      destruct (layer_correct dims cell pos HD HS) as (layer & EL & HI); rewrite EL; cbn [obind];
      pose proof (short_layer pos layer HI) as SL; destruct (existsb _ layer) eqn:X.
    - exfalso. destruct (proj1 SL eq_refl) as (l & Hl & Q). replace pos with D in Hl by lia. specialize (HE l Hl). lra.
    - destruct HC as [HC|HC]; [lia|]. destruct cloud0; [congruence|eauto].
    - apply (IH fuel (S pos) _ D); try lia; auto; [intros; apply HB; lia|]. right. intros A. apply app_eq_nil in A as [_ ->]. cbn in X. discriminate.
    - assert (false = true); [apply SL, HB; lia|discriminate].
  Qed.
  Lemma cloud_total : forall D, first_empty_shell dims cell diam D -> exists cloud, forall fuel, (D <= fuel)%nat -> cloud_loop fuel dims cell diam 1 [] = Done cloud.
  Proof.
    intros D [H1 H2 H3]. 
    assert (MONO : forall fuel pos c0 c, cloud_loop fuel dims cell diam pos c0 = Done c -> forall f', (fuel <= f')%nat -> cloud_loop f' dims cell diam pos c0 = Done c).
    { induction fuel as [|fuel IH]; intros pos c0 c E f' HF; cbn [cloud_loop] in E; [discriminate|]. destruct f' as [|f']; [lia|]. cbn [cloud_loop].
      destruct (concentric_layer dims cell pos) as [ly| | |]; cbn [obind] in *; try discriminate. destruct (existsb _ ly); auto. apply IH; auto. lia. }
    destruct (cloud_loop_done (D - 1) D 1 [] D ltac:(lia) ltac:(lia) H2 H3 ltac:(lia)) as (cloud & E). exists cloud. intros fuel HF. eapply MONO; eauto.
  Qed.
End Cloud.

(** ** Choices *)
Lemma combinations_in : forall A r (l c : list A), In c (combinations r l) -> length c = r /\ incl c l.
Proof.
  induction r as [|r IH]; intros l c H; cbn [combinations] in H; [destruct H as [<-|[]]; split; [auto|intros ? []]|].
  induction l as [|x t IHt]; [destruct H|]. apply in_app_iff in H as [H|H].
  - apply in_map_iff in H as (d & <- & Hd). destruct (IH _ _ Hd) as [H1 H2]. split; [cbn; auto|]. intros y [->|Hy]; [left; auto|right; auto].
  - destruct (IHt H) as [H1 H2]. split; auto. intros y Hy. right. auto.
Qed.
Lemma combinations_ordered : forall A (P : A -> A -> Prop) r l c, ForallOrdPairs P l -> In c (combinations r l) -> ForallOrdPairs P c.
Proof.
  induction r as [|r IH]; intros l c HP H; cbn [combinations] in H; [destruct H as [<-|[]]; constructor|].
  induction l as [|x t IHt]; [destruct H|]. inversion HP as [|? ? F HP']; subst. apply in_app_iff in H as [H|H].
  - apply in_map_iff in H as (d & <- & Hd). destruct (combinations_in _ _ _ _ Hd) as [_ HI]. constructor; [|eapply IH; eauto].
    rewrite Forall_forall in *. intros y Hy. apply F, HI. auto.
  - auto.
Qed.
Lemma apart_iff : forall prec l, (forall i j, (i < j < length l)%nat -> prec <= Rabs (nth i l 0 - nth j l 0)) -> apart prec l.
Proof.
  induction l as [|x t IH]; intros H; constructor.
  - apply Forall_forall. intros y Hy. apply (In_nth _ _ 0) in Hy as (j & Hj & <-). apply (H 0%nat (S j)). cbn. lia.
  - apply IH. intros i j Hij. apply (H (S i) (S j)). cbn. lia.
Qed.
Lemma kept_in : forall P arr res x, kept P arr res -> In x res -> exists k, (k < length arr)%nat /\ P k /\ x = nth k arr 0.
Proof. intros P arr res x (ps & _ & K & ->) H. apply in_map_iff in H as (k & <- & Hk). apply K in Hk as [H1 H2]. eauto. Qed.

Lemma shared_in : forall prec vals row row' x,
  In x (unique_within_tol (shared_vals (remove_vals row vals prec) (remove_vals row' vals prec) prec) prec) -> shared prec vals row row' x.
Proof.
  intros prec vals row row' x H. apply (kept_in _ _ _ _ (C56_unique _ _)) in H as (k & Hk & _ & ->).
  set (sv := shared_vals _ _ _) in *. assert (I : In (nth k sv 0) sv) by (apply nth_In; auto). apply C56_shared_values in I as [I1 (e & I2 & Q)].
  apply (kept_in _ _ _ _ (C56_remove _ _ _)) in I1 as (i & Hi & H1 & E1). apply (kept_in _ _ _ _ (C56_remove _ _ _)) in I2 as (j & Hj & H2 & E2).
  rewrite E1. rewrite E1 in Q. split; [apply nth_In; auto|]. split; auto. exists e. rewrite E2. split; [apply nth_In; auto|]. split; auto. rewrite <- E2. auto.
Qed.
Lemma shared_apart : forall prec l, apart prec (unique_within_tol l prec).
Proof. intros. apply apart_iff. intros. apply C56_unique_apart. auto. Qed.

(** ** Bases of lattice vectors *)
Lemma determinant_volume : forall dims m, dims = 2%nat \/ dims = 3%nat -> square_matrix dims m -> Rabs (determinant m) = volume dims m.
Proof.
  intros dims m [->| ->] HS.
  - destruct (square2 m HS) as (a & b & c & d & ->). unfold volume, det2, entry, determinant. cbn [Nat.eqb nth]. f_equal.
  - destruct (square3 m HS) as (a & b & c & d & e & f & g & h & i & ->). unfold volume, det3, entry, determinant. rewrite total_rdot. cbn [Nat.eqb nth cross rdot]. f_equal. ring.
Qed.
Lemma perm_volume : forall dims m p, dims = 2%nat \/ dims = 3%nat -> square_matrix dims m -> In p (permutations dims m) ->
  square_matrix dims p /\ incl p m /\ volume dims p = volume dims m.
Proof.
  intros dims m p [->| ->] HS H.
  - destruct (square2 m HS) as (a & b & c & d & ->). cbn in H. destruct H as [<-|[<-|[]]]; (split; [split; [auto|repeat (constructor; auto)]|]);
      (split; [intros x; cbn; tauto|]); unfold volume, det2, entry; cbn [Nat.eqb nth]; [auto|rewrite <- Rabs_Ropp; f_equal; ring].
  - destruct (square3 m HS) as (a & b & c & d & e & f & g & h & i & ->). cbn in H.
    repeat match type of H with _ \/ _ => destruct H as [<-|H] end; [..|destruct H];
    (split; [split; [auto|repeat (constructor; auto)]|]); (split; [intros x; cbn; tauto|]); unfold volume, det3, entry; cbn [Nat.eqb nth];
    (f_equal; ring) || (rewrite <- Rabs_Ropp; f_equal; ring).
Qed.
Lemma sphere_intersect_sound : forall dims basis ds a prec q, dims = 2%nat \/ dims = 3%nat -> square_matrix dims basis -> volume dims basis <> 0 ->
  (forall d, In d ds -> 0 <= d) -> sphere_intersect basis ds a prec = Some q ->
  length q = dims /\ map (edist q) basis = ds /\ Rabs (vlen q - a) < prec.
Proof.
  intros dims basis ds a prec q [->| ->] HS HV HP E.
  - destruct (square2 basis HS) as (x1 & y1 & x2 & y2 & ->). destruct ds as [|d1 [|d2 [|? ?]]]; try discriminate. cbn [sphere_intersect] in E.
    apply C55_bilaterate_sound in E as (L & E1 & E2 & E3); auto; try (apply HP; cbn; auto).
    + cbn [map]. rewrite E1, E2. auto.
    + intros C. inversion C; subst. apply HV. unfold volume, det2, entry. cbn [Nat.eqb nth]. rewrite <- Rabs_R0. f_equal. ring.
  - destruct (square3 basis HS) as (x1 & y1 & z1 & x2 & y2 & z2 & x3 & y3 & z3 & ->). destruct ds as [|d1 [|d2 [|d3 [|? ?]]]]; try discriminate. cbn [sphere_intersect] in E.
    apply C55_trilaterate_sound in E as (L & E1 & E2 & E3 & E4); auto; try (apply HP; cbn; auto).
    + cbn [map]. rewrite E1, E2, E3. auto.
    + intros C. inversion C; subst. apply HV. unfold volume, det3, entry. cbn [Nat.eqb nth]. rewrite <- Rabs_R0. f_equal. ring.
    + intros (t & C). pose proof (C 0%nat) as C0. pose proof (C 1%nat) as C1. pose proof (C 2%nat) as C2. cbn [nth] in C0, C1, C2. subst x3 y3 z3.
      apply HV. unfold volume, det3, entry. cbn [Nat.eqb nth]. rewrite <- Rabs_R0. f_equal. ring.
Qed.
Lemma first_some_in : forall A B (f : A -> option B) l y, first_some f l = Some y -> exists x, In x l /\ f x = Some y.
Proof.
  induction l as [|a l IH]; intros y H; cbn [first_some] in H; [discriminate|]. destruct (f a) eqn:E.
  - inversion H; subst. exists a. cbn. auto.
  - destruct (IH y H) as (x & H1 & H2). exists x. cbn. auto.
Qed.

Section Search.
  Variables (dims : nat) (cell : list (list R)) (diam prec : R) (cloud nn : list (list R)) (D : nat) (vals : list R).
  Hypothesis HD : dims = 2%nat \/ dims = 3%nat.
  Hypothesis HS : square_matrix dims cell.
  Hypothesis HP : 0 < prec.
  Hypothesis HC : forall v, In v cloud <-> exists l, below dims D l /\ v = lat dims cell l.
  Hypothesis HN : forall v, In v nn -> exists l, length l = dims /\ v = lat dims cell l.
  Let bases := flat_map (fun vecs => if Rltb prec (Rabs (determinant vecs)) then permutations dims vecs else []) (combinations dims nn).

  Lemma bases_in : forall b, In b bases -> square_matrix dims b /\ (forall v, In v b -> exists l, length l = dims /\ v = lat dims cell l) /\ prec < volume dims b.
  Proof.
    intros b H. unfold bases in H. apply in_flat_map in H as (vecs & Hv & Hb). destruct (combinations_in _ _ _ _ Hv) as [H1 H2].
    destruct (Rltb prec _) eqn:Q; [|destruct Hb]. apply Rltb_true in Q.
    assert (SQ : square_matrix dims vecs). { split; auto. apply Forall_forall. intros v Hvv. destruct (HN v (H2 v Hvv)) as (l & _ & ->). apply lat_length. }
    destruct (perm_volume dims vecs b HD SQ Hb) as (S1 & S2 & S3). split; auto. split; [intros v Hvv; apply HN, H2, S2; auto|].
    rewrite S3, <- determinant_volume; auto.
  Qed.
  Lemma search_sound : forall row0 row a rest accept q, (forall d, In d row0 -> 0 <= d) ->
    unique_within_tol (shared_vals (remove_vals row0 vals prec) (remove_vals row vals prec) prec) prec = a :: rest ->
    search_point dims rest bases a prec accept = Some q -> (accept q = true -> nearest_is_origin cloud a prec q = true) ->
    placed dims cell prec D vals row0 row q /\ accept q = true.
  Proof.
    intros row0 row a rest accept q H0 HU E HA. unfold search_point in E. apply first_some_in in E as (ds & Hds & E). apply first_some_in in E as (b & Hb & E).
    destruct (sphere_intersect b ds a prec) as [r|] eqn:SI; [|discriminate]. destruct (accept r) eqn:A; inversion E; subst r. split; auto. specialize (HA A).
    destruct (bases_in b Hb) as (B1 & B2 & B3). destruct (combinations_in _ _ _ _ Hds) as [D1 D2].
    assert (SH : forall x, In x (a :: rest) -> shared prec vals row0 row x). { intros x Hx. apply shared_in. rewrite HU. auto. }
    assert (NON : volume dims b <> 0) by lra.
    destruct (sphere_intersect_sound dims b ds a prec q HD B1 NON) as (Q1 & Q2 & Q3); auto.
    { intros d Hd. apply H0. apply (SH d). right. auto. }
    split; auto. exists a, b. split; [apply SH; left; auto|]. split; auto. split; [apply B1|]. split; auto. split; auto. split; [|split].
    - intros v Hv. apply SH. right. apply D2. rewrite <- Q2. apply in_map. auto.
    - rewrite Q2. pose proof (shared_apart prec (shared_vals (remove_vals row0 vals prec) (remove_vals row vals prec) prec)) as AP. rewrite HU in AP.
      inversion AP as [|? ? F AP']; subst. constructor; [|eapply combinations_ordered; eauto]. rewrite Forall_forall in *. intros y Hy. apply F, D2. auto.
    - intros l Hl. unfold nearest_is_origin in HA. rewrite forallb_forall in HA. specialize (HA (lat dims cell l)).
      assert (I : In (lat dims cell l) cloud) by (apply HC; eauto). apply HA in I. apply Rltb_true in I.
      assert (ED : norm_row (rows_sub (lat dims cell l) q) = edist (lat dims cell l) q).
      { rewrite norm_vlen. unfold vlen, edist. f_equal. generalize (lat dims cell l). clear. induction q as [|y q IH]; intros [|x v]; cbn; auto.
        unfold rows_sub in IH. rewrite IH. auto. }
      rewrite ED in I. lra.
  Qed.
End Search.

Lemma reduce_correct : forall dims cell ci q, (0 < dims)%nat -> square_matrix dims cell -> is_inverse dims cell ci -> length q = dims ->
  moved_into dims cell q (row_times (map frac_part (row_times q ci)) cell).
Proof.
  intros dims cell ci q HD HS (I0 & I1 & _) HL. rewrite (row_times_coord dims q ci) by auto. set (f := map (comb_coord ci q) (seq 0 dims)).
  assert (Lf : length f = dims) by (unfold f; rewrite map_length, seq_length; auto).
  rewrite (row_times_coord dims) by (auto; rewrite map_length; auto). destruct (I1 q HL) as [_ FQ]. fold f in FQ. split.
  - exists (map frac_part f). split; [rewrite map_length; auto|]. split; auto. apply Forall_forall. intros x Hx. apply in_map_iff in Hx as (y & <- & _).
    destruct (base_fp y). lra.
  - exists (map (fun x => (- Int_part x)%Z) f). split; [rewrite map_length; auto|]. apply map_ext_in. intros j Hj. apply in_seq in Hj.
    assert (E : nth j q 0 = comb_coord cell f j).
    { rewrite FQ at 1. rewrite (nth_indep _ 0 (comb_coord cell f 0)) by (rewrite map_length, seq_length; lia). rewrite (map_nth (comb_coord cell f)), seq_nth by lia. auto. }
    rewrite E. unfold lattice_coord, comb_coord. destruct HS as [HS _]. rewrite HS. unfold rsum.
    assert (G : forall l, (forall r, In r l -> (r < dims)%nat) -> fold_right Rplus 0 (map (fun r => nth r (map frac_part f) 0 * nth j (nth r cell []) 0) l) =
      fold_right Rplus 0 (map (fun r => nth r f 0 * nth j (nth r cell []) 0) l) +
      fold_right Rplus 0 (map (fun r => nth r (map IZR (map (fun x => (- Int_part x)%Z) f)) 0 * nth j (nth r cell []) 0) l)).
    { induction l as [|r l IH]; intros H; cbn [map fold_right]; [lra|]. rewrite IH by (intros; apply H; right; auto). specialize (H r (or_introl eq_refl)).
      rewrite map_map. rewrite (nth_indep (map frac_part f) 0 (frac_part 0)) by (rewrite map_length; lia). rewrite (map_nth frac_part).
      rewrite (nth_indep (map (fun x => IZR (- Int_part x)) f) 0 (IZR (- Int_part 0))) by (rewrite map_length; lia). rewrite (map_nth (fun x => IZR (- Int_part x))).
      rewrite opp_IZR. unfold frac_part. ring. }
    apply G. intros r Hr. apply in_seq in Hr. lia.
Qed.

Lemma omap_inv : forall A B (f : A -> outcome B) l r, omap f l = Done r -> Forall2 (fun a b => f a = Done b) l r.
Proof.
  induction l as [|a l IH]; intros r H; cbn [omap] in H; [inversion H; constructor|].
  apply done_bind in H as (b & Hb & H). apply done_bind in H as (bs & Hbs & H). inversion H; subst. constructor; auto.
Qed.
Lemma find_second_inv : forall dims sh bases cloud prec o, find_second_point dims sh bases cloud prec = Done o ->
  exists a rest, sh = a :: rest /\ o = search_point dims rest bases a prec (nearest_is_origin cloud a prec).
Proof. intros dims [|a rest] bases cloud prec o E; cbn [find_second_point] in E; inversion E; subst. eauto. Qed.
Lemma find_further_inv : forall dims sh sh2 bases cloud q prec o, find_further_point dims sh sh2 bases cloud q prec = Done o ->
  exists a rest, sh = a :: rest /\ o = search_point dims rest bases a prec (fun res =>
        (nearest_is_origin cloud a prec res && existsb (fun s => Rltb (Rabs (s - norm_row (rows_sub q res))) prec) sh2)%bool).
Proof. intros dims [|a rest] sh2 bases cloud q prec o E; cbn [find_further_point] in E; inversion E; subst. eauto. Qed.
Lemma norm_sub_edist : forall u v, norm_row (rows_sub u v) = edist u v.
Proof.
  intros u v. rewrite norm_vlen. unfold vlen, edist. f_equal. revert v. induction u as [|x u IH]; intros [|y v]; cbn; auto.
  unfold rows_sub in IH. rewrite IH. auto.
Qed.

(** The precision of the search. *)
Definition tol : R := / 10 ^ 10.
Lemma tol_gt : 0 < tol.
Proof. unfold tol. apply Rinv_0_lt_compat, pow_lt. lra. Qed.

Theorem C63_reconstruct : forall dims inv neighbors fuel pdd cell motif,
  square_matrix dims cell -> (forall row d, In row pdd -> In d row -> 0 <= d) ->
  (forall nn, neighbors cell tol = Done nn -> forall v, In v nn -> exists l, length l = dims /\ v = lat dims cell l) ->
  (forall ci, inv cell = Done ci -> is_inverse dims cell ci) ->
  reconstruct inv neighbors fuel pdd cell = Done motif ->
  (dims = 2%nat \/ dims = 3%nat) /\ length motif = length pdd /\ (1 <= length pdd)%nat /\
  exists qs, length qs = length pdd /\ nth 0 qs [] = repeat 0 dims /\
    ((length pdd <= 2)%nat -> motif = qs) /\
    ((3 <= length pdd)%nat -> forall i, (i < length pdd)%nat -> moved_into dims cell (nth i qs []) (nth i motif [])) /\
    ((2 <= length pdd)%nat -> exists diam D vals, diameter cell = Done diam /\ first_empty_shell dims cell diam D /\ lattice_lengths dims cell diam tol D vals /\
      (forall i, (1 <= i < length pdd)%nat -> placed dims cell tol D vals (nth 0 pdd []) (nth i pdd []) (nth i qs [])) /\
      (forall i, (2 <= i < length pdd)%nat -> exists e, shared tol vals (nth 1 pdd []) (nth i pdd []) e /\ Rabs (e - edist (nth 1 qs []) (nth i qs [])) < tol)).
Proof.
  intros dims inv neighbors fuel pdd cell motif HS HP HN HI E. unfold reconstruct in E. cbv zeta in E. fold tol in E.
  rewrite (proj1 HS) in E. destruct (negb _) eqn:ND in E; [discriminate|]. apply negb_false_iff, orb_true_iff in ND. rewrite !Nat.eqb_eq in ND.
  apply done_bind in E as (diam & ED & E). split; auto. assert (D0 : (1 <= dims)%nat) by lia.
  destruct (length pdd =? 1)%nat eqn:L1.
  { apply Nat.eqb_eq in L1. inversion E; subst motif. cbn [length]. split; [auto|]. split; [lia|]. exists [repeat 0 dims]. cbn [length nth].
    split; [auto|]. split; auto. split; auto. split; intros; lia. }
  apply Nat.eqb_neq in L1. apply done_bind in E as (cloud & EC & E). apply done_bind in E as (nn & EN & E). specialize (HN nn EN).
  destruct (cloud_correct dims cell diam D0 HS fuel cloud EC) as (D & FE & HC).
  set (vals := unique_within_tol _ tol) in E.
  assert (LL : lattice_lengths dims cell diam tol D vals).
  { exists (filter (fun x => Rleb x diam) (map norm_row cloud)). split; [|apply C56_unique]. intros x. rewrite filter_In, Rleb_true, in_map_iff. split.
    - intros [(v & <- & Hv) Q]. split; auto. apply HC in Hv as (l & Hl & ->). exists l. rewrite norm_vlen. auto.
    - intros [Q (l & Hl & <-)]. split; auto. exists (lat dims cell l). rewrite norm_vlen. split; auto. apply HC. eauto. }
  destruct pdd as [|row1 [|row2 pdd]]; [discriminate|cbn [length] in L1; lia|].
  apply done_bind in E as (r1 & E1 & E). inversion E1; subst r1. clear E1. apply done_bind in E as (r2 & E2 & E). inversion E2; subst r2. clear E2.
  apply done_bind in E as (second & E2 & E). destruct second as [q|]; [|discriminate].
  apply find_second_inv in E2 as (a & rest & SH & E2). symmetry in E2.
  assert (P1 : placed dims cell tol D vals row1 row2 q).
  { destruct (search_sound dims cell tol cloud nn D vals ND HS tol_gt HC HN row1 row2 a rest _ q ltac:(intros d; apply HP; left; auto) SH E2 (fun A => A)) as [P _]. auto. }
  destruct (length (row1 :: row2 :: pdd) =? 2)%nat eqn:L2.
  { apply Nat.eqb_eq in L2. destruct pdd; [|cbn [length] in L2; lia]. inversion E; subst motif. cbn [length]. split; [auto|]. split; [lia|]. exists [repeat 0 dims; q]. cbn [length].
    split; [auto|]. split; [auto|]. split; [auto|]. split; [intros; lia|]. intros _. exists diam, D, vals. split; auto. split; auto. split; auto. split.
    - intros i Hi. assert (i = 1%nat) by lia. subst i. cbn [nth]. auto.
    - intros; lia. }
  apply Nat.eqb_neq in L2. apply done_bind in E as (further & EF & E). apply done_bind in E as (ci & EI & E). specialize (HI ci EI).
  apply (f_equal (fun o => match o with Done x => x | _ => [] end)) in E. cbv beta iota in E. apply omap_inv in EF. cbn [skipn] in EF. assert (LF : length further = length pdd) by (clear - EF; induction EF; cbn [length]; auto).
  assert (PF : forall i, (i < length pdd)%nat -> placed dims cell tol D vals row1 (nth i pdd []) (nth i further []) /\
    exists e, shared tol vals row2 (nth i pdd []) e /\ Rabs (e - edist q (nth i further [])) < tol).
  { assert (NTH : forall i, (i < length pdd)%nat -> In (nth i pdd []) pdd) by (intros; apply nth_In; auto).
    intros i Hi. assert (R : forall l l' (Q : list R -> list R -> Prop), Forall2 Q l l' -> forall i, (i < length l)%nat -> Q (nth i l []) (nth i l' [])).
    { induction 1 as [|x y l l' Q1 Q2 IHQ]; intros k Hk; cbn in Hk; [lia|]. destruct k; cbn; auto. apply IHQ. lia. }
    specialize (R _ _ _ EF i Hi). cbv beta in R. apply done_bind in R as (found & E3 & E4). destruct found as [p|]; [|discriminate]. inversion E4 as [E5]. rewrite E5 in *. clear E4.
    apply find_further_inv in E3 as (a' & rest' & SH' & E3). symmetry in E3.
    destruct (search_sound dims cell tol cloud nn D vals ND HS tol_gt HC HN row1 (nth i pdd []) a' rest' _ _ ltac:(intros d; apply HP; left; auto) SH' E3) as [Q1 Q2].
    { intros A. apply andb_true_iff in A. apply A. }
    split; auto. apply andb_true_iff in Q2 as [_ Q2]. apply existsb_exists in Q2 as (e & He & Q2). exists e. split; [apply shared_in; auto|].
    apply Rltb_true in Q2. rewrite norm_sub_edist in Q2. auto. }
  set (qs := repeat 0 dims :: q :: further) in *. assert (LQ : length qs = length (row1 :: row2 :: pdd)) by (unfold qs; cbn [length]; lia).
  split; [rewrite <- E, map_length; auto|]. split; [cbn [length]; lia|]. exists qs. split; auto. split; auto. split; [cbn [length] in *; intros; lia|]. split.
  - intros _ i Hi. rewrite <- E. rewrite (nth_indep (map (fun p => row_times (map frac_part (row_times p ci)) cell) qs) [] (row_times (map frac_part (row_times [] ci)) cell)) by (rewrite map_length; lia).
    rewrite (map_nth (fun p => row_times (map frac_part (row_times p ci)) cell)). apply reduce_correct; auto.
    unfold qs. destruct i as [|[|i]]; cbn [nth]; [apply repeat_length|apply P1|]. apply PF. cbn [length] in Hi. lia.
  - intros _. exists diam, D, vals. split; auto. split; auto. split; auto. split.
    + intros i Hi. unfold qs. destruct i as [|[|i]]; cbn [nth]; [lia|auto|]. apply PF. cbn [length] in Hi. lia.
    + intros i Hi. unfold qs. destruct i as [|[|i]]; cbn [nth]; [lia|lia|]. apply PF. cbn [length] in Hi. lia.
Qed.

(** ** The neighbour set *)
Lemma zsq_pos : forall l, (0 <= zsq l)%Z.
Proof. induction l as [|z l IH]; cbn; [lia|unfold zsq in IH; nia]. Qed.
Lemma zsq_repeat : forall n, zsq (repeat 0%Z n) = 0%Z.
Proof. induction n as [|n IH]; auto. Qed.
Lemma zsq_zero : forall l, zsq l = 0%Z -> l = repeat 0%Z (length l).
Proof.
  induction l as [|z l IH]; intros H; auto. cbn [length repeat]. cbn in H. fold (zsq l) in H. pose proof (zsq_pos l). assert (z = 0%Z) by nia. subst z. f_equal. apply IH. nia.
Qed.
Lemma origin_layer : forall dims cell, (1 <= dims)%nat -> square_matrix dims cell -> concentric_layer dims cell 0 = Done [lat dims cell (repeat 0%Z dims)].
Proof.
  intros dims cell HD HS. destruct (gen_item_correct dims 0 HD) as (layer & E & N & HI). unfold concentric_layer. rewrite E. cbn [obind].
  assert (L : layer = [repeat 0%Z dims]).
  { assert (Z0 : forall l, In l layer -> l = repeat 0%Z dims).
    { intros l Hl. apply HI in Hl as (HL & H1 & _). rewrite <- HL. apply zsq_zero. pose proof (zsq_pos l). cbn in H1. lia. }
    destruct layer as [|x [|y t]].
    - assert (I : In (repeat 0%Z dims) []). { apply HI. split; [apply repeat_length|]. split; [rewrite zsq_repeat; cbn; lia|left; auto]. } destruct I.
    - f_equal. apply Z0. left. auto.
    - exfalso. inversion N; subst. apply H1. rewrite (Z0 x), (Z0 y) by (cbn; auto). left. auto. }
  rewrite L. cbn [map lattice_to_cloud flat_map app]. f_equal. f_equal. rewrite lat_latvec by (auto; apply repeat_length). apply zero_add, lat_length.
Qed.
Lemma select_in : forall A (arr : list A) f x, In x (select arr (map f arr)) <-> In x arr /\ f x = true.
Proof.
  induction arr as [|a arr IH]; intros f x; cbn [map select]; [cbn; tauto|]. destruct (f a) eqn:E; cbn [In]; rewrite IH.
  - split; [intros [->|[H1 H2]]; auto|]. intros [[->|H1] H2]; auto.
  - split; [intros [H1 H2]; auto|]. intros [[->|H1] H2]; [congruence|auto].
Qed.

Theorem C63_neighbor_set : forall dims query fuel empty cell prec nn, (1 <= dims)%nat -> square_matrix dims cell ->
  neighbor_set query fuel empty cell prec = Done nn ->
  (forall v, In v nn -> exists l, length l = dims /\ (0 < zsq l)%Z /\ v = lat dims cell l) /\
  (forall u v, In u nn -> In v nn -> vlen v / 2 - prec <= edist (map (fun a => a / 2) v) u).
Proof.
  intros dims query fuel empty cell prec nn HD HS E. unfold neighbor_set in E. cbv zeta in E. rewrite (proj1 HS) in E.
  rewrite origin_layer in E by auto. cbn [obind] in E.
  apply done_bind in E as (l1 & E1 & E). set (o := lat dims cell (repeat 0%Z dims)) in *.
  set (good := fun v => exists l, length l = dims /\ (0 < zsq l)%Z /\ v = lat dims cell l).
  assert (LG : forall pos layer, concentric_layer dims cell (S pos) = Done layer -> forall v, In v layer -> good v).
  { intros pos layer EL v Hv. destruct (layer_correct dims cell (S pos) HD HS) as (layer' & EL' & HL). rewrite EL in EL'. inversion EL'; subst layer'.
    apply HL in Hv as (l & (H1 & H2 & [H3|H3]) & ->); [discriminate|]. exists l. split; auto. split; auto. nia. }
  destruct (query _ _) as [dists inds] eqn:Q0. apply done_bind in E as ([cloud inds'] & EN & E).
  assert (LOOP : forall fuel pos cl rest d d' i vecs, cl = o :: rest -> (forall v, In v rest -> good v) -> neighbor_loop query fuel dims cell vecs (S pos) cl d d' i = Done (cloud, inds') ->
    exists rest', cloud = o :: rest' /\ forall v, In v rest' -> good v).
  { clear - LG. induction fuel as [|fuel IH]; intros pos cl rest d d' i vecs HC HG EL; cbn [neighbor_loop] in EL; [discriminate|].
    destruct (unchanged d d'); [inversion EL; subst; eauto|]. apply done_bind in EL as (l1 & E1 & EL). apply done_bind in EL as (l2 & E2 & EL). cbv zeta in EL.
    destruct (query _ _) as [dq iq]. eapply (IH _ _ (rest ++ l1 ++ l2)); [| |exact EL]; [subst cl; reflexivity|].
    intros v Hv. apply in_app_iff in Hv as [Hv|Hv]; auto. apply in_app_iff in Hv as [Hv|Hv]; [exact (LG _ _ E1 v Hv)|exact (LG _ _ E2 v Hv)]. }
  destruct (LOOP _ _ _ l1 _ _ _ _ eq_refl ltac:(intros; eapply LG; eauto) EN) as (rest & -> & HG).
  apply done_bind in E as (neighbors & EM & E). apply omap_inv in EM.
  assert (NG : forall v, In v neighbors -> good v).
  { intros v Hv. assert (T : exists i, In i (filter (fun i => negb (i =? 0)%nat) (isort Nat.leb (nodup Nat.eq_dec (List.concat (map (@tl nat) inds'))))) /\ nth_error (o :: rest) i = Some v).
    { clear - EM Hv. induction EM as [|i w li lw Q EM IH]; [destruct Hv|]. destruct Hv as [->|Hv].
      - exists i. split; [left; auto|]. destruct (nth_error _ i); inversion Q; auto.
      - destruct (IH Hv) as (k & H1 & H2). exists k. split; [right|]; auto. }
    destruct T as (i & Hi & T). apply filter_In in Hi as [_ Hi]. destruct i as [|i]; [discriminate|]. cbn [nth_error] in T. apply HG. eapply nth_error_In; eauto. }
  inversion E; subst nn. split.
  - intros v Hv. apply select_in in Hv as [Hv _]. apply NG. auto.
  - intros u v Hu Hv. apply select_in in Hv as [Hv Q]. apply select_in in Hu as [Hu _]. rewrite forallb_forall in Q. specialize (Q u Hu). apply Rleb_true in Q.
    rewrite norm_sub_edist, norm_vlen in Q. lra.
Qed.

(** ** Rows which share no distance *)
Lemma comb_unit : forall cell j, (0 < length cell)%nat -> comb_coord cell (1 :: repeat 0 (length cell - 1)) j = nth j (nth 0 cell []) 0.
Proof.
  intros [|r cell] j H; cbn [length] in H; [lia|]. unfold comb_coord. cbn [length seq map nth rsum fold_right]. replace (S (length cell) - 1)%nat with (length cell) by lia.
  rewrite <- seq_shift, map_map. unfold rsum. cbn [nth]. assert (G : forall l, fold_right Rplus 0 (map (fun x => nth x (repeat 0 (length cell)) 0 * nth j (nth x cell []) 0) l) = 0).
  { induction l as [|x l IH]; cbn [map fold_right]; auto. rewrite IH, nth_repeat. lra. }
  cbn [fold_right]. rewrite G. lra.
Qed.
Lemma comb_zero : forall cell n j, comb_coord cell (repeat 0 n) j = 0.
Proof.
  intros. unfold comb_coord, rsum. induction (seq 0 (length cell)) as [|x l IH]; cbn [map fold_right]; auto. rewrite IH, nth_repeat. lra.
Qed.
Definition unit_vector (dims : nat) : list Z := 1%Z :: repeat 0%Z (dims - 1).
Lemma unit_short : forall dims cell diam, (1 <= dims)%nat -> square_matrix dims cell -> is_diameter dims cell diam ->
  in_shell dims 1 (unit_vector dims) /\ vlen (lat dims cell (unit_vector dims)) <= diam.
Proof.
  intros dims cell diam HD HS [H _]. split.
  - unfold unit_vector. split; [cbn [length]; rewrite repeat_length; lia|]. change (zsq (1 :: repeat 0 (dims - 1)))%Z with (1 * 1 + zsq (repeat 0 (dims - 1)))%Z.
    rewrite zsq_repeat. split; [cbn; lia|right; cbn; lia].
  - set (p := map (comb_coord cell (1 :: repeat 0 (dims - 1))) (seq 0 dims)). set (o := map (comb_coord cell (repeat 0 dims)) (seq 0 dims)).
    assert (E : lat dims cell (unit_vector dims) = p).
    { unfold lat, p, lattice_coord, unit_vector. cbn [map]. replace (map IZR (repeat 0%Z (dims - 1))) with (repeat 0 (dims - 1)); auto.
      generalize (dims - 1)%nat. induction n as [|n IH]; cbn; auto. f_equal. auto. }
    rewrite E. assert (Q : edist p o <= diam).
    { apply H.
      - exists (1 :: repeat 0 (dims - 1)). split; [cbn [length]; rewrite repeat_length; lia|]. split; [|reflexivity]. constructor; [lra|]. apply Forall_forall. intros x Hx. apply repeat_spec in Hx. subst. lra.
      - exists (repeat 0 dims). split; [apply repeat_length|]. split; [|reflexivity]. apply Forall_forall. intros x Hx. apply repeat_spec in Hx. subst. lra. }
    replace (vlen p) with (edist p o); auto. unfold edist, vlen. f_equal. unfold p, o. clear. induction (seq 0 dims) as [|j l IH]; auto. cbn [map sq_dist rdot]. rewrite IH, comb_zero. ring.
Qed.
Lemma empty_shell_exists : forall dims cell diam, dims = 2%nat \/ dims = 3%nat -> square_matrix dims cell -> nonsingular dims cell -> diameter cell = Done diam ->
  exists D, first_empty_shell dims cell diam D.
Proof.
  intros dims cell diam H23 HS NS ED. assert (HD : (1 <= dims)%nat) by lia.
  assert (ID : is_diameter dims cell diam).
  { destruct H23; subst dims.
    - destruct (C51_diameter_2D cell HS) as (d & E & I). rewrite ED in E. inversion E; subst. auto.
    - destruct (C51_diameter_3D cell HS) as (d & E & I). rewrite ED in E. inversion E; subst. auto. }
  destruct (latvec_far dims cell (proj1 HS) (proj2 HS) NS) as (C & HC & FAR).
  destruct (INR_exceeds (C * (diam * diam) + 1)) as (N & HN).
  set (short := fun d => exists l, in_shell dims d l /\ vlen (lat dims cell l) <= diam).
  assert (DEC : forall d, short d \/ ~ short d).
  { intros d. destruct (layer_correct dims cell d HD HS) as (layer & _ & HI). pose proof (short_layer dims cell diam d layer HI) as SL.
    destruct (existsb _ layer); [left; apply SL; auto|right; intros A; apply SL in A; discriminate]. }
  assert (NOT : ~ short (N + 1)%nat).
  { intros (l & (HL & _ & [H|H]) & Q); [lia|]. specialize (FAR l HL). rewrite lat_latvec in FAR by auto.
    replace (dot (lat dims cell l) (lat dims cell l)) with (rdot (lat dims cell l) (lat dims cell l)) in FAR by apply rdot_dot.
    rewrite <- vlen_sq in FAR. assert (V : 0 <= vlen (lat dims cell l)) by (unfold vlen; apply sqrt_pos). assert (V2 : vlen (lat dims cell l) * vlen (lat dims cell l) <= diam * diam) by nra.
    assert (Z1 : (Z.of_nat N * Z.of_nat N <= zsq l)%Z) by nia. apply IZR_le in Z1. rewrite mult_IZR, <- INR_IZR_INZ in Z1.
    assert (INR N >= 1) by nra. nra. }
  assert (LEAST : forall n s, short s -> ~ short (s + n)%nat -> exists D, (s < D <= s + n)%nat /\ ~ short D /\ forall d, (s <= d < D)%nat -> short d).
  { induction n as [|n IH]; intros s H1 H2; [rewrite Nat.add_0_r in H2; contradiction|].
    destruct (DEC (S s)) as [Y|NO].
    - destruct (IH (S s) Y) as (D & D1 & D2 & D3); [replace (S s + n)%nat with (s + S n)%nat by lia; auto|]. exists D. split; [lia|]. split; auto. intros d Hd. destruct (Nat.eq_dec d s) as [->|]; auto. apply D3. lia.
    - exists (S s). split; [lia|]. split; auto. intros d Hd. replace d with s by lia. auto. }
  destruct (LEAST N 1%nat) as (D & D1 & D2 & D3).
  - destruct (unit_short dims cell diam HD HS ID). exists (unit_vector dims). auto.
  - replace (1 + N)%nat with (N + 1)%nat by lia. auto.
  - exists D. split; [lia|apply D3|]. intros l Hl. destruct (Rle_lt_dec (vlen (lat dims cell l)) diam); auto. exfalso. apply D2. exists l. auto.
Qed.
Lemma no_shared : forall vals row row', (forall d e, In d row -> In e row' -> tol <= Rabs (d - e)) ->
  unique_within_tol (shared_vals (remove_vals row vals tol) (remove_vals row' vals tol) tol) tol = [].
Proof.
  intros vals row row' H. destruct (unique_within_tol _ tol) as [|x l] eqn:E; auto. exfalso. assert (S : shared tol vals row row' x) by (apply shared_in; rewrite E; left; auto).
  destruct S as (H1 & _ & e & H2 & _ & H3). specialize (H x e H1 H2). lra.
Qed.
Theorem C63_no_shared_raises : forall dims inv neighbors nn pdd cell, dims = 2%nat \/ dims = 3%nat -> square_matrix dims cell -> nonsingular dims cell ->
  neighbors cell tol = Done nn -> (2 <= length pdd)%nat -> (forall d e, In d (nth 0 pdd []) -> In e (nth 1 pdd []) -> tol <= Rabs (d - e)) ->
  exists n, forall fuel, (n <= fuel)%nat -> reconstruct inv neighbors fuel pdd cell = Raise IndexError.
Proof.
  intros dims inv neighbors nn pdd cell H23 HS NS EN HL HP. assert (HD : (1 <= dims)%nat) by lia.
  assert (ED : exists diam, diameter cell = Done diam).
  { destruct H23; subst dims; [destruct (C51_diameter_2D cell HS) as (d & E & _)|destruct (C51_diameter_3D cell HS) as (d & E & _)]; eauto. }
  destruct ED as (diam & ED). destruct (empty_shell_exists dims cell diam H23 HS NS ED) as (D & FE). destruct (cloud_total dims cell diam HD HS D FE) as (cloud & EC).
  exists D. intros fuel HF. unfold reconstruct. cbv zeta. fold tol. rewrite (proj1 HS). replace (negb _) with false by (destruct H23; subst; auto). rewrite ED. cbn [obind].
  destruct pdd as [|row1 [|row2 pdd]]; cbn [length] in HL; try lia. cbn [length Nat.eqb]. rewrite EC, EN by auto. cbn [obind row_of nth_error]. 
  cbn [nth] in HP. unfold row_of. cbn [nth_error obind]. rewrite no_shared by auto. reflexivity.
Qed.

(** ** A lattice distance which is missed *)
Lemma first_empty_unique : forall dims cell diam D D', first_empty_shell dims cell diam D -> first_empty_shell dims cell diam D' -> D = D'.
Proof.
  intros dims cell diam D D' [A1 A2 A3] [B1 B2 B3]. destruct (lt_eq_lt_dec D D') as [[H|H]|H]; auto; exfalso.
  - destruct (B2 D ltac:(lia)) as (l & Hl & Q). specialize (A3 l Hl). lra.
  - destruct (A2 D' ltac:(lia)) as (l & Hl & Q). specialize (B3 l Hl). lra.
Qed.
Definition skew : list (list R) := [[13; 0]; [15; 7]].
Definition form (p q : Z) : Z := (169 * (p * p) + 390 * (p * q) + 274 * (q * q))%Z.
Lemma skew_lat : forall p q, rdot (lat 2 skew [p; q]) (lat 2 skew [p; q]) = IZR (form p q).
Proof.
  intros p q. unfold lat, lattice_coord, comb_coord, rsum, skew, form. cbn [length seq map nth fold_right rdot]. rewrite !plus_IZR, !mult_IZR. ring.
Qed.
Lemma skew_diameter : diameter skew = Done (sqrt 833).
Proof.
  unfold diameter, skew. cbn [rows_add rows_sub map2 map squares total fold_left greatest]. f_equal. f_equal. rewrite Rmax_left; [ring|lra].
Qed.
Lemma skew_short : forall p q, vlen (lat 2 skew [p; q]) <= sqrt 833 <-> (form p q <= 833)%Z.
Proof.
  intros p q. unfold vlen. rewrite skew_lat. split; intros H.
  - apply le_IZR. apply sqrt_le_0; auto; [rewrite <- skew_lat; apply rdot_nonneg|lra].
  - apply sqrt_le_1_alt. apply IZR_le in H. auto.
Qed.
Definition grid : list Z := [-6; -5; -4; -3; -2; -1; 0; 1; 2; 3; 4; 5; 6]%Z.
Lemma grid_in : forall z, (z * z <= 36)%Z -> In z grid.
Proof. intros z H. assert (-6 <= z <= 6)%Z by nia. unfold grid. cbn. lia. Qed.
Lemma on_grid : forall f : Z -> Z -> bool, forallb (fun p => forallb (f p) grid) grid = true -> forall p q, (p * p + q * q <= 36)%Z -> f p q = true.
Proof. intros f H p q HQ. rewrite forallb_forall in H. specialize (H p (grid_in p ltac:(nia))). rewrite forallb_forall in H. apply H, grid_in. nia. Qed.
Lemma skew_shell : first_empty_shell 2 skew (sqrt 833) 6.
Proof.
  split; [lia| |].
  - assert (W : forall d p q, (p * p + q * q <= Z.of_nat d * Z.of_nat d)%Z -> ((Z.of_nat d - 1) * (Z.of_nat d - 1) < p * p + q * q)%Z -> (form p q <= 833)%Z ->
      exists l, in_shell 2 d l /\ vlen (lat 2 skew l) <= sqrt 833).
    { intros d p q H1 H2 H3. exists [p; q]. split; [|apply skew_short; auto]. split; auto. cbn. split; [lia|right; lia]. }
    intros d Hd. assert (d = 1 \/ d = 2 \/ d = 3 \/ d = 4 \/ d = 5)%nat as [->|[->|[->|[->| ->]]]] by lia.
    + apply (W _ 1%Z 0%Z); vm_compute; congruence.
    + apply (W _ 1%Z (-1)%Z); vm_compute; congruence.
    + apply (W _ 2%Z (-2)%Z); vm_compute; congruence.
    + apply (W _ 3%Z (-2)%Z); vm_compute; congruence.
    + apply (W _ 3%Z (-3)%Z); vm_compute; congruence.
  - intros l (HL & H1 & [H2|H2]); [discriminate|]. destruct l as [|p [|q [|? ?]]]; try discriminate. cbn in H1, H2.
    assert (G := on_grid (fun p q => (p * p + q * q <=? 25)%Z || (36 <? p * p + q * q)%Z || (833 <? form p q)%Z)%bool ltac:(vm_compute; reflexivity) p q ltac:(lia)). cbv beta in G.
    rewrite !orb_true_iff, Z.leb_le, !Z.ltb_lt in G. destruct (Rle_lt_dec (vlen (lat 2 skew [p; q])) (sqrt 833)) as [Q|]; auto. apply skew_short in Q. lia.
Qed.
Lemma skew_nonsingular : nonsingular 2 skew.
Proof.
  exists [[1 / 13; - 15 / 91]; [0; 1 / 7]]. split; [auto|]. split; [repeat (constructor; auto)|]. intros i j Hi Hj.
  destruct i as [|[|i]], j as [|[|j]]; try lia; cbn [skew nth rdot Nat.eqb]; field.
Qed.
Lemma skew_square : square_matrix 2 skew.
Proof. split; auto. repeat (constructor; auto). Qed.
(** Distances between lattice points which are up to the diameter are not all recognised: the search stops at the first
    shell without a short vector, later ones may hold some. *)
Theorem C63_lattice_distances_refuted : exists cell diam l cloud n, square_matrix 2 cell /\ nonsingular 2 cell /\ diameter cell = Done diam /\
  length l = 2%nat /\ 0 < vlen (lat 2 cell l) <= diam /\
  (forall fuel, (n <= fuel)%nat -> cloud_loop fuel 2 cell diam 1 [] = Done cloud) /\
  forall x, In x (unique_within_tol (filter (fun x => Rleb x diam) (map norm_row cloud)) tol) -> tol <= Rabs (vlen (lat 2 cell l) - x).
Proof.
  destruct (cloud_total 2 skew (sqrt 833) ltac:(lia) skew_square 6 skew_shell) as (cloud & EC).
  exists skew, (sqrt 833), [5; -4]%Z, cloud, 6%nat. split; [apply skew_square|]. split; [apply skew_nonsingular|]. split; [apply skew_diameter|]. split; auto. split; [|split; [auto|]].
  { split; [|apply skew_short; vm_compute; congruence]. unfold vlen. rewrite skew_lat. apply sqrt_lt_R0, IZR_lt. reflexivity. }
  intros x Hx. apply (kept_in _ _ _ _ (C56_unique _ _)) in Hx as (k & Hk & _ & ->).
  set (lens := filter _ _) in *. assert (I : In (nth k lens 0) lens) by (apply nth_In; auto). generalize dependent (nth k lens 0). intros x I.
  unfold lens in I. apply filter_In in I as [I Q]. apply Rleb_true in Q. apply in_map_iff in I as (v & <- & Hv).
  destruct (cloud_correct 2 skew (sqrt 833) ltac:(lia) skew_square 6 cloud (EC 6%nat ltac:(lia))) as (D & FE & HC).
  rewrite (first_empty_unique _ _ _ _ _ FE skew_shell) in HC. apply HC in Hv as (l & (HL & H1 & H2) & ->). destruct l as [|p [|q [|? ?]]]; try discriminate. cbn in H1, H2.
  assert (G := on_grid (fun p q => (25 <? p * p + q * q)%Z || negb (form p q =? 809)%Z)%bool ltac:(vm_compute; reflexivity) p q ltac:(lia)). cbv beta in G.
  apply orb_true_iff in G. rewrite Z.ltb_lt, negb_true_iff, Z.eqb_neq in G. destruct G as [G|G]; [lia|]. rewrite norm_vlen in *.
  pose proof (vlen_sq (lat 2 skew [p; q])) as E1. pose proof (vlen_sq (lat 2 skew [5; -4]%Z)) as E2. rewrite skew_lat in E1, E2. replace (form 5 (-4)) with 809%Z in E2 by reflexivity.
  assert (P1 : 0 <= vlen (lat 2 skew [p; q])) by apply sqrt_pos. assert (P2 : 0 <= vlen (lat 2 skew [5; -4]%Z)) by apply sqrt_pos.
  set (a := vlen (lat 2 skew [5; -4]%Z)) in *. set (b := vlen (lat 2 skew [p; q])) in *.
  assert (Q2 : sqrt 833 <= 30). { apply Rsqr_incr_0_var; [|lra]. rewrite Rsqr_sqrt by lra. unfold Rsqr. lra. }
  assert (A2 : a <= 30) by nra.
  assert (Z1 : 1 <= Rabs (a * a - b * b)).
  { rewrite E1, E2. assert (809 - form p q <= -1 \/ 1 <= 809 - form p q)%Z as [H|H] by lia; apply IZR_le in H; rewrite minus_IZR in H; unfold Rabs; destruct (Rcase_abs _); lra. }
  assert (T : tol <= 1 / 60). { unfold tol. apply Rle_trans with (/ 60); [|lra]. apply Rinv_le_contravar; lra. }
  replace (a * a - b * b) with ((a - b) * (a + b)) in Z1 by ring. rewrite Rabs_mult, (Rabs_right (a + b)) in Z1 by lra. pose proof (Rabs_pos (a - b)). nra.
Qed.

(** ** A run: two rows *)
Lemma select_all : forall A (arr : list A) mask, length mask = length arr -> (forall b, In b mask -> b = true) -> select arr mask = arr.
Proof.
  induction arr as [|x arr IH]; intros [|b mask] HL H; cbn in HL; try lia; auto. cbn [select]. rewrite (H b) by (left; auto). f_equal. apply IH; [lia|]. intros c Hc. apply H. right. auto.
Qed.
Lemma remove_nothing : forall vec vals prec, (forall x v, In x vec -> In v vals -> prec <= Rabs (x - v)) -> remove_vals vec vals prec = vec.
Proof.
  intros vec vals prec H. unfold remove_vals. apply select_all; [rewrite map_length, seq_length; auto|]. intros b Hb. apply in_map_iff in Hb as (i & <- & Hi).
  rewrite negb_true_iff, no_within. intros j Hj. apply in_seq in Hi, Hj. apply H; apply nth_In; lia.
Qed.
Lemma unique_all : forall arr prec, (forall i j, (i < j < length arr)%nat -> prec <= Rabs (nth i arr 0 - nth j arr 0)) -> unique_within_tol arr prec = arr.
Proof.
  intros arr prec H. unfold unique_within_tol. cbv zeta. apply select_all; [rewrite map_length, seq_length; auto|]. intros b Hb. apply in_map_iff in Hb as (j & <- & Hj).
  apply negb_true_iff. match goal with |- ?e = false => destruct e eqn:E end; auto. apply existsb_exists in E as (i & _ & Q). apply andb_true_iff in Q as [Q1 Q2].
  apply Nat.ltb_lt in Q1. apply Rltb_true in Q2. apply in_seq in Hj. specialize (H i j ltac:(lia)). lra.
Qed.
Lemma roots_apart : forall a b, 0 <= a <= 900 -> 0 <= b <= 900 -> 1 <= Rabs (a - b) -> tol <= Rabs (sqrt a - sqrt b).
Proof.
  intros a b Ha Hb H. pose proof (sqrt_sqrt a ltac:(lra)) as E1. pose proof (sqrt_sqrt b ltac:(lra)) as E2. pose proof (sqrt_pos a). pose proof (sqrt_pos b).
  set (x := sqrt a) in *. set (y := sqrt b) in *. assert (x <= 30) by nra. assert (y <= 30) by nra.
  assert (T : tol <= 1 / 60). { unfold tol. apply Rle_trans with (/ 60); [|lra]. apply Rinv_le_contravar; lra. }
  replace (a - b) with ((x - y) * (x + y)) in H by nra. rewrite Rabs_mult, (Rabs_right (x + y)) in H by lra. pose proof (Rabs_pos (x - y)). nra.
Qed.
Definition cell20 : list (list R) := [[20; 0]; [0; 20]].
Definition row20 : list R := [sqrt 41; sqrt 601; sqrt 641].
Lemma sq20 : square_matrix 2 cell20.
Proof. split; auto. repeat (constructor; auto). Qed.
Lemma ns20 : nonsingular 2 cell20.
Proof.
  exists [[1 / 20; 0]; [0; 1 / 20]]. split; [auto|]. split; [repeat (constructor; auto)|]. intros i j Hi Hj.
  destruct i as [|[|i]], j as [|[|j]]; try lia; cbn [cell20 nth rdot Nat.eqb]; field.
Qed.
Lemma lat20 : forall p q, lat 2 cell20 [p; q] = [20 * IZR p; 20 * IZR q].
Proof. intros. unfold lat, lattice_coord, comb_coord, rsum, cell20. cbn [length seq map nth fold_right]. f_equal; [ring|]. f_equal. ring. Qed.
Lemma len20 : forall p q, vlen (lat 2 cell20 [p; q]) = sqrt (IZR (400 * (p * p + q * q))).
Proof. intros. rewrite lat20. unfold vlen. cbn [rdot]. f_equal. rewrite mult_IZR, plus_IZR, !mult_IZR. ring. Qed.
Lemma diam20 : diameter cell20 = Done (sqrt 800).
Proof.
  unfold diameter, cell20. cbn [rows_add rows_sub map2 map squares total fold_left greatest]. f_equal. f_equal. rewrite Rmax_left; [ring|lra].
Qed.
Lemma short20 : forall p q, vlen (lat 2 cell20 [p; q]) <= sqrt 800 <-> (p * p + q * q <= 2)%Z.
Proof.
  intros p q. rewrite len20. split; intros H.
  - assert (400 * (p * p + q * q) <= 800)%Z; [|lia]. apply le_IZR. apply sqrt_le_0; auto; [apply IZR_le; nia|lra].
  - apply sqrt_le_1_alt. apply IZR_le. lia.
Qed.
Lemma shell20 : first_empty_shell 2 cell20 (sqrt 800) 3.
Proof.
  split; [lia| |].
  - intros d Hd. assert (d = 1 \/ d = 2)%nat as [->| ->] by lia; [exists [1; 0]%Z|exists [1; 1]%Z]; (split; [split; [auto|cbn; lia]|apply short20; lia]).
  - intros l (HL & H1 & [H2|H2]); [discriminate|]. destruct l as [|p [|q [|? ?]]]; try discriminate. cbn in H1, H2.
    destruct (Rle_lt_dec (vlen (lat 2 cell20 [p; q])) (sqrt 800)) as [Q|]; auto. apply short20 in Q. lia.
Qed.
Lemma bilaterate20 : bilaterate [20; 0] [0; 20] (sqrt 601) (sqrt 641) (sqrt 41) tol = Some [-4; -5].
Proof.
  assert (N : [20; 0] <> [0; 20]) by (intros C; inversion C; lra).
  destruct (bilaterate [20; 0] [0; 20] (sqrt 601) (sqrt 641) (sqrt 41) tol) as [q|] eqn:E.
  - apply C55_bilaterate_sound in E as (L & E1 & E2 & E3); auto; try apply sqrt_pos. destruct (len2 q L) as (x & y & ->).
    rewrite edist2 in E1, E2. apply sqrt_inj in E1; [|apply sq2_nonneg|lra]. apply sqrt_inj in E2; [|apply sq2_nonneg|lra].
    assert (Y : y = x - 1) by lra. subst y. assert (X : (x - 25) * (x + 4) = 0) by lra. apply Rmult_integral in X as [X|X].
    + exfalso. assert (x = 25) by lra. subst x. unfold vlen in E3. cbn [rdot] in E3. replace (25 * 25 + ((25 - 1) * (25 - 1) + 0)) with 1201 in E3 by ring.
      assert (7 <= sqrt 1201 - sqrt 41). { assert (sqrt 41 <= 7). { apply Rsqr_incr_0_var; [|lra]. rewrite Rsqr_sqrt by lra. unfold Rsqr. lra. }
        assert (14 <= sqrt 1201). { apply Rsqr_incr_0_var; [|apply sqrt_pos]. rewrite Rsqr_sqrt by lra. unfold Rsqr. lra. } lra. }
      rewrite Rabs_right in E3 by lra. assert (tol < 1). { unfold tol. apply Rle_lt_trans with (/ 2); [apply Rinv_le_contravar; lra|lra]. } lra.
    + f_equal. f_equal; [lra|]. f_equal. lra.
  - exfalso. revert E. apply C55_bilaterate_complete; auto.
    exists [-4; -5]. split; auto. rewrite !edist2. split; [f_equal; ring|]. split; [f_equal; ring|]. unfold vlen. cbn [rdot]. replace (-4 * -4 + (-5 * -5 + 0)) with 41 by ring.
    replace (sqrt 41 - sqrt 41) with 0 by ring. rewrite Rabs_R0. apply tol_gt.
Qed.

Lemma combinations_pair : forall A (a b : A), combinations 2 [a; b] = [[a; b]].
Proof. reflexivity. Qed.
Lemma row20_apart : forall i j, (i < j < length row20)%nat -> tol <= Rabs (nth i row20 0 - nth j row20 0).
Proof.
  intros i j H. cbn in H. assert (i = 0 /\ j = 1 \/ i = 0 /\ j = 2 \/ i = 1 /\ j = 2)%nat as [[-> ->]|[[-> ->]|[-> ->]]] by lia; cbn [nth row20];
    (apply roots_apart; [lra|lra|unfold Rabs; destruct (Rcase_abs _); lra]).
Qed.
Lemma shared20 : shared_vals row20 row20 tol = row20.
Proof.
  rewrite C56_shared. assert (M : forall x, In x row20 -> matches tol x row20 = 1%nat).
  { pose proof (row20_apart 0 1 ltac:(cbn; lia)) as A1. pose proof (row20_apart 0 2 ltac:(cbn; lia)) as A2. pose proof (row20_apart 1 2 ltac:(cbn; lia)) as A3.
    cbn [nth row20] in A1, A2, A3. pose proof tol_gt as T. 
    assert (SELF : forall x, Rabs (x - x) < tol) by (intros x; replace (x - x) with 0 by ring; rewrite Rabs_R0; auto).
    intros x Hx. unfold row20 in *. cbn [matches].
    assert (Y : forall a (u v : nat), Rabs a < tol -> (if Rlt_dec (Rabs a) tol then u else v) = u) by (intros a u v Q; destruct (Rlt_dec _ _); [auto|lra]).
    assert (N : forall a (u v : nat), tol <= Rabs a -> (if Rlt_dec (Rabs a) tol then u else v) = v) by (intros a u v Q; destruct (Rlt_dec _ _); [lra|auto]).
    destruct Hx as [<-|[<-|[<-|[]]]].
    - rewrite Y, !N; auto.
    - rewrite N, Y, N; auto. rewrite Rabs_minus_sym. auto.
    - rewrite N, N, Y; auto; rewrite Rabs_minus_sym; auto. }
  unfold row20 at 2. cbn [map]. rewrite !M by (cbn; auto). reflexivity.
Qed.
Lemma reconstruct20 : forall inv neighbors fuel, neighbors cell20 tol = Done cell20 -> (3 <= fuel)%nat ->
  reconstruct inv neighbors fuel [row20; row20] cell20 = Done [[0; 0]; [-4; -5]].
Proof.
  intros inv neighbors fuel EN HF. unfold reconstruct. cbv zeta. fold tol. replace (length cell20) with 2%nat by reflexivity. cbn [Nat.eqb orb negb]. rewrite diam20. cbn [obind length Nat.eqb].
  destruct (cloud_total 2 cell20 (sqrt 800) ltac:(lia) sq20 3 shell20) as (cloud & EC).
  destruct (cloud_correct 2 cell20 (sqrt 800) ltac:(lia) sq20 3 cloud (EC 3%nat ltac:(lia))) as (D & FE & HC). rewrite (first_empty_unique _ _ _ _ _ FE shell20) in HC. clear D FE.
  rewrite EC by auto. rewrite EN. cbn [obind]. unfold row_of. cbn [nth_error obind]. set (vals := unique_within_tol (filter _ _) tol).
  assert (RM : remove_vals row20 vals tol = row20).
  { apply remove_nothing. intros x v Hx Hv. unfold vals in Hv. apply (kept_in _ _ _ _ (C56_unique _ _)) in Hv as (k & Hk & _ & ->).
    set (lens := filter _ _) in *. assert (I : In (nth k lens 0) lens) by (apply nth_In; auto). generalize dependent (nth k lens 0). intros v I.
    unfold lens in I. apply filter_In in I as [I Q]. apply Rleb_true in Q. apply in_map_iff in I as (w & <- & Hw). apply HC in Hw as (l & (HL & H1 & H2) & ->).
    destruct l as [|p [|q [|? ?]]]; try discriminate. cbn in H1, H2. rewrite norm_vlen in *. apply short20 in Q. rewrite len20.
    assert (p * p + q * q = 1 \/ p * p + q * q = 2)%Z as [->| ->] by lia; unfold row20 in Hx; destruct Hx as [<-|[<-|[<-|[]]]];
      change (400 * 1)%Z with 400%Z; change (400 * 2)%Z with 800%Z; (apply roots_apart; [lra|lra|unfold Rabs; destruct (Rcase_abs _); lra]). }
  rewrite RM, shared20, (unique_all row20) by apply row20_apart. unfold row20 at 1. cbn [find_second_point]. change (combinations 2 cell20) with [[[20; 0]; [0; 20]]].
  cbn [flat_map]. replace (Rltb tol (Rabs (determinant [[20; 0]; [0; 20]]))) with true.
  2:{ symmetry. apply Rltb_true. unfold determinant. cbn [nth]. rewrite Rabs_right by lra. unfold tol. apply Rle_lt_trans with (/ 2); [apply Rinv_le_contravar; lra|lra]. }
  cbn [permutations seq flat_map nth_error drop_at firstn skipn map app length]. unfold search_point. rewrite combinations_pair. cbn [first_some sphere_intersect]. rewrite bilaterate20.
  replace (nearest_is_origin cloud (sqrt 41) tol [-4; -5]) with true; [reflexivity|].
  symmetry. apply forallb_forall. intros v Hv. apply HC in Hv as (l & (HL & _) & ->). destruct l as [|p [|q [|? ?]]]; try discriminate.
  apply Rltb_true. rewrite norm_sub_edist, lat20, edist2. pose proof tol_gt.
  assert (S : sqrt 41 <= sqrt ((20 * IZR p - -4) * (20 * IZR p - -4) + (20 * IZR q - -5) * (20 * IZR q - -5))); [|lra]. apply sqrt_le_1_alt.
  assert (Z1 : (0 <= 400 * (p * p) + 160 * p)%Z) by nia. assert (Z2 : (0 <= 400 * (q * q) + 200 * q)%Z) by nia. apply IZR_le in Z1, Z2. rewrite plus_IZR, !mult_IZR in Z1, Z2. lra.
Qed.
Lemma cell20_lattice : forall v, In v cell20 -> exists l, length l = 2%nat /\ v = lat 2 cell20 l.
Proof.
  intros v [<-|[<-|[]]]; [exists [1; 0]%Z|exists [0; 1]%Z]; (split; auto; rewrite lat20; f_equal; [ring|f_equal; ring]).
Qed.
(** The motif of two rows is not moved into the cell. *)
Theorem C63_two_rows_refuted : exists inv neighbors pdd cell motif p, square_matrix 2 cell /\ nonsingular 2 cell /\ (forall row d, In row pdd -> In d row -> 0 <= d) /\
  (forall nn, neighbors cell tol = Done nn -> forall v, In v nn -> exists l, length l = 2%nat /\ v = lat 2 cell l) /\
  (forall fuel, (3 <= fuel)%nat -> reconstruct inv neighbors fuel pdd cell = Done motif) /\ In p motif /\ ~ in_cell 2 cell p.
Proof.
  exists (fun c => Done c), (fun c _ => Done c), [row20; row20], cell20, [[0; 0]; [-4; -5]], [-4; -5]. split; [apply sq20|]. split; [apply ns20|]. split; [|split; [|split; [|split]]].
  - intros row d [<-|[<-|[]]] [<-|[<-|[<-|[]]]]; apply sqrt_pos.
  - intros nn E. inversion E; subst. apply cell20_lattice.
  - intros fuel HF. apply reconstruct20; auto.
  - right. left. auto.
  - intros (f & HL & HF & E). destruct (len2 f HL) as (a & b & ->). inversion HF; subst. unfold comb_coord, rsum, cell20 in E. cbn [length seq map nth fold_right] in E. inversion E. lra.
Qed.
Example C63_case : exists inv neighbors pdd cell, square_matrix 2 cell /\ (forall row d, In row pdd -> In d row -> 0 <= d) /\
  (forall nn, neighbors cell tol = Done nn -> forall v, In v nn -> exists l, length l = 2%nat /\ v = lat 2 cell l) /\
  (forall ci, inv cell = Done ci -> is_inverse 2 cell ci) /\ length pdd = 2%nat /\
  exists motif, reconstruct inv neighbors 3 pdd cell = Done motif.
Proof.
  exists (fun _ => Raise ValueError), (fun c _ => Done c), [row20; row20], cell20. split; [apply sq20|]. split; [|split; [|split; [|split; [auto|]]]].
  - intros row d [<-|[<-|[]]] [<-|[<-|[<-|[]]]]; apply sqrt_pos.
  - intros nn E. inversion E; subst. apply cell20_lattice.
  - discriminate.
  - eexists. apply reconstruct20; auto.
Qed.

(** Rows which share no distance end in IndexError and not in the message that no point was found. *)
Theorem C63_not_found_refuted : exists inv neighbors pdd cell, square_matrix 2 cell /\ nonsingular 2 cell /\ (exists nn, neighbors cell tol = Done nn) /\ length pdd = 2%nat /\
  exists n, forall fuel, (n <= fuel)%nat -> reconstruct inv neighbors fuel pdd cell = Raise IndexError.
Proof.
  exists (fun c => Done c), (fun c _ => Done c), [[1]; [2]], cell20. split; [apply sq20|]. split; [apply ns20|]. split; [eauto|]. split; auto.
  apply (C63_no_shared_raises 2 _ _ cell20); auto; [apply sq20|apply ns20|]. cbn [nth]. intros d e [<-|[]] [<-|[]].
  replace (1 - 2) with (- (1)) by ring. rewrite Rabs_Ropp, Rabs_R1. unfold tol. apply Rle_trans with (/ 2); [apply Rinv_le_contravar; lra|lra].
Qed.

Theorem C63_dimensions : forall inv neighbors fuel pdd cell,
  (length cell <> 2%nat -> length cell <> 3%nat -> reconstruct inv neighbors fuel pdd cell = Raise ValueError) /\
  (forall dims, dims = 2%nat \/ dims = 3%nat -> square_matrix dims cell -> length pdd = 1%nat -> reconstruct inv neighbors fuel pdd cell = Done [repeat 0 dims]).
Proof.
  intros inv neighbors fuel pdd cell. split.
  - intros H2 H3. unfold reconstruct. cbv zeta. apply Nat.eqb_neq in H2, H3. rewrite H2, H3. reflexivity.
  - intros dims HD HS HL. unfold reconstruct. cbv zeta. rewrite (proj1 HS), HL. 
    assert (ED : exists diam, diameter cell = Done diam).
    { destruct HD; subst dims; [destruct (C51_diameter_2D cell HS) as (d & E & _)|destruct (C51_diameter_3D cell HS) as (d & E & _)]; eauto. }
    destruct ED as (diam & ->). destruct HD; subst dims; reflexivity.
Qed.
Example C63_neighbor_case : exists query nn, neighbor_set query 1 [] cell20 tol = Done nn /\ nn <> [].
Proof.
  set (query := fun _ _ : list (list R) => ([] : list (list R), [[0%nat; 1%nat]])).
  destruct (layer_correct 2 cell20 1 ltac:(lia) sq20) as (l1 & E1 & HL).
  assert (X : exists v t, l1 = v :: t).
  { destruct l1 as [|v t]; eauto. exfalso. apply (HL (lat 2 cell20 [1; 0]%Z)). exists [1; 0]%Z. split; auto. split; auto. cbn. split; [lia|right; lia]. }
  destruct X as (v & t & ->). exists query, [v]. split; [|discriminate].
  unfold neighbor_set. cbv zeta. replace (length cell20) with 2%nat by reflexivity. rewrite (origin_layer 2 cell20 ltac:(lia) sq20), E1. cbn [obind]. unfold query at 1.
  cbn [neighbor_loop]. change (unchanged [] []) with true. cbv iota. cbn [obind map tl List.concat app].
  change (filter (fun i => negb (i =? 0)%nat) (isort Nat.leb (nodup Nat.eq_dec [1%nat]))) with [1%nat]. cbn [omap obind nth_error app map forallb].
  replace (Rleb 0 (norm_row (rows_sub (map (fun a => a / 2) v) v) - norm_row v / 2 + tol)) with true; [reflexivity|].
  symmetry. apply Rleb_true. rewrite norm_sub_edist, norm_vlen. assert (Q : edist (map (fun a => a / 2) v) v = vlen v / 2).
  { unfold edist, vlen. apply sqrt_eq; [pose proof (sqrt_pos (rdot v v)); lra|]. replace (sqrt (rdot v v) / 2 * (sqrt (rdot v v) / 2)) with (sqrt (rdot v v) * sqrt (rdot v v) / 4) by field.
    rewrite sqrt_sqrt by apply rdot_nonneg. clear. induction v as [|a v IH]; cbn [map sq_dist rdot]; [lra|]. rewrite IH. field. }
  rewrite Q. pose proof tol_gt. lra.
Qed.
Print Assumptions C63_reconstruct.
Print Assumptions C63_neighbor_set.
Print Assumptions C63_no_shared_raises.
Print Assumptions C63_not_found_refuted.
Print Assumptions C63_lattice_distances_refuted.
Print Assumptions C63_two_rows_refuted.
Print Assumptions C63_dimensions.
