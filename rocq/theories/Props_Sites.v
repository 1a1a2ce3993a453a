(** C45 and C46: duplicate sites and the expansion of an asymmetric unit. *)
From Coq Require Import List ZArith Reals Arith Bool Lia Lra Sorted.
From Verif Require Import Num Base Outcome NNModel VecR SpecGeom CalcModel CalcProofs2 CompareModel
  SitesModel SpecSites SitesProofs SitesExpand.
Import ListNotations.
Open Scope R_scope.
Open Scope list_scope.
Notation length := List.length.

(** ** C45 *)

(** A site is kept iff it is not within the tolerance of an earlier site. *)
Theorem C45_unique_sites : forall dims tol sites, tol < 1 ->
  Forall (fun p => length p = dims /\ in_unit p) sites ->
  length (unique_sites tol sites) = length sites /\
  forall i, (i < length sites)%nat ->
    (nth i (unique_sites tol sites) false = true <->
     forall j, (j < i)%nat -> ~ close_mod1 tol (nth j sites []) (nth i sites [])).
Proof.
  intros dims tol sites Ht Hs. split; [apply unique_len|]. intros i Hi. apply (unique_nth dims); auto.
Qed.

(** The kept sites are pairwise further apart than the tolerance, the first site is kept, and
    a dropped site is within the tolerance of an earlier one. *)
Theorem C45_kept_and_dropped : forall dims tol sites, tol < 1 ->
  Forall (fun p => length p = dims /\ in_unit p) sites ->
  let kept := select (unique_sites tol sites) sites in
  (forall k l, (k < l < length kept)%nat -> ~ close_mod1 tol (nth k kept []) (nth l kept [])) /\
  firstn 1 kept = firstn 1 sites /\
  (forall i, (i < length sites)%nat -> nth i (unique_sites tol sites) false = false ->
     exists j, (j < i)%nat /\ close_mod1 tol (nth j sites []) (nth i sites [])).
Proof.
  intros dims tol sites Ht Hs kept.
  assert (EK : kept = map (fun i => nth i sites []) (chosen (unique_sites tol sites))) by (apply select_chosen, unique_len).
  split; [|split].
  - intros k l Hkl. rewrite EK in *. rewrite map_length in Hkl. rewrite !(nth_map' _ _ _ _ _ 0%nat) by lia.
    assert (C : forall k, (k < length (chosen (unique_sites tol sites)))%nat ->
      (nth k (chosen (unique_sites tol sites)) 0 < length sites)%nat /\ nth (nth k (chosen (unique_sites tol sites)) 0%nat) (unique_sites tol sites) false = true).
    { intros x Hx. rewrite <- (unique_len tol sites). apply chosen_In, nth_In. auto. }
    destruct (C l ltac:(lia)) as [C1 C2]. apply (proj1 (unique_nth dims tol sites _ Ht Hs C1) C2).
    apply (StronglySorted_nth 0%nat (chosen_sorted (unique_sites tol sites))). auto.
  - unfold kept. destruct sites as [|p t]; auto.
  - intros i Hi H. unfold unique_sites in H. rewrite unique_from_nth in H by auto. simpl in H.
    assert (X : exists q, In q (firstn i sites) /\ site_neq tol q (nth i sites []) = false).
    { revert H. induction (firstn i sites) as [|q l IH]; [discriminate|]. simpl. intros H. apply andb_false_iff in H as [H|H].
      - exists q. auto.
      - destruct (IH H) as (x & Hx & Q). exists x. auto. }
    destruct X as (q & Hq & Q). apply (In_firstn_nth _ _ []) in Hq as (j & Hj & Hl & <-). exists j. split; auto.
    destruct (sites_ok_nth _ _ i Hs Hi) as [L U]. destruct (sites_ok_nth _ _ j Hs Hl) as [L' U'].
    apply site_neq_ok in Q; auto. congruence.
Qed.

Lemma not_near_int : forall d tol m, IZR m + tol < d -> d < IZR m + 1 - tol -> ~ exists n : Z, Rabs (d - IZR n) <= tol.
Proof.
  intros d tol m H1 H2 [n Hn]. assert (- tol <= d - IZR n <= tol) by (revert Hn; unfold Rabs; destruct (Rcase_abs _); lra).
  assert (IZR m < IZR n) by lra. assert (IZR n < IZR (m + 1)) by (rewrite plus_IZR; lra). apply lt_IZR in H0, H3. lia.
Qed.

(** A dropped site need not be close to a kept one: sites are compared with dropped sites too. *)
Definition chain : list (list R) := [[0]; [8 / 10000]; [16 / 10000]].
Theorem C45_near_kept_refuted : exists tol sites, 0 < tol < 1 /\ Forall (fun p => length p = 1%nat /\ in_unit p) sites /\
  exists i, (i < length sites)%nat /\ nth i (unique_sites tol sites) false = false /\
    forall k, (k < length sites)%nat -> nth k (unique_sites tol sites) false = true ->
      ~ close_mod1 tol (nth k sites []) (nth i sites []).
Proof.
  exists (1 / 1000), chain. split; [lra|].
  assert (Hs : Forall (fun p => length p = 1%nat /\ in_unit p) chain).
  { unfold chain, in_unit. repeat (constructor; [split; [auto|constructor; [lra|constructor]]|]). constructor. }
  split; auto. exists 2%nat. split; [simpl; lia|].
  assert (C : forall i j, (i < 2)%nat -> j = S i -> close_mod1 (1 / 1000) (nth i chain []) (nth j chain [])).
  { intros i j Hi -> l Hl. exists 0%Z. assert (i = 0 \/ i = 1)%nat as [->| ->] by lia; simpl in Hl |- *;
      (assert (l = 0)%nat by lia; subst l; simpl; unfold Rabs; destruct (Rcase_abs _); lra). }
  assert (D : forall i, (i = 1 \/ i = 2)%nat -> nth i (unique_sites (1 / 1000) chain) false = false).
  { intros i Hi. apply not_true_iff_false. intros X. 
    apply (proj1 (unique_nth 1 (1 / 1000) chain i ltac:(lra) Hs ltac:(simpl; lia)) X (i - 1)%nat); [lia|]. apply C; lia. }
  split; [apply D; auto|]. intros k Hk X. simpl in Hk.
  assert (k = 0 \/ k = 1 \/ k = 2)%nat as [Q|Q] by lia; [|rewrite D in X by auto; discriminate]. subst k.
  intros Y. destruct (Y 0%nat) as [n Hn]; [simpl; lia|]. simpl in Hn. apply (not_near_int (0 - 16 / 10000) (1 / 1000) (-1)); [lra|lra|eauto].
Qed.

(** ** C46 *)

Lemma rdot_comb : forall (f : list R) cell j, length f = length cell ->
  rdot f (map (fun row => nth j row 0) cell) = comb_coord cell f j.
Proof.
  intros f cell j. unfold comb_coord. revert f. induction cell as [|r cell IH]; intros [|a f] Hl; try discriminate; auto.
  cbn [length seq map rdot rsum fold_right nth]. f_equal. rewrite <- seq_shift, map_map. apply IH. simpl in Hl. lia.
Qed.
Lemma to_cartesian_ok : forall (cell : list (list R)) f, length f = length cell -> to_cartesian cell f = cartesian cell f.
Proof.
  intros cell f Hl. unfold to_cartesian, cartesian. apply map_ext. intros j. rewrite np_dot_rdot. apply rdot_comb. auto.
Qed.

(** What a converter returns for an asymmetric unit and a list of operations. *)
Record converted (dims : nat) (tol : R) (uniquify : bool) (cell asym : list (list R)) (types : list nat)
  (ops : list operation) (cs : crystal_set (T := R)) (frac : list (list R)) (origin which starts mult : list nat) : Prop := {
  cv_cell : ps_cell (cs_set cs) = cell;
  cv_motif : ps_motif (cs_set cs) = map (cartesian cell) frac;
  cv_asym : ps_asym (cs_set cs) = Some starts;
  cv_mult : ps_mult (cs_set cs) = Some mult;
  (** the points, their sites and operations *)
  cv_points : expansion dims tol ops asym frac origin which;
  (** positions and multiplicities of the sites in the motif *)
  cv_runs : runs origin starts mult;
  (** types *)
  cv_types : length (cs_types cs) = length frac /\
    forall k, (k < length frac)%nat -> nth k (cs_types cs) 0%nat = nth (nth k origin 0%nat) types 0%nat;
  (** no duplicates, among all points or among the images of one site *)
  cv_apart : forall k l, (k < l < length frac)%nat -> uniquify = true \/ nth k origin 0%nat = nth l origin 0%nat ->
    ~ close_mod1 tol (nth k frac []) (nth l frac []);
  (** every image of every site is represented *)
  cv_represented : transitive_images tol asym ops ->
    forall i w, (i < length asym)%nat -> (w < length ops)%nat -> exists k, (k < length frac)%nat /\
      (nth k origin 0 <= i)%nat /\ (uniquify = false \/ disjoint_orbits tol asym ops -> nth k origin 0%nat = i) /\
      close_mod1 tol (nth k frac []) (affine (nth w ops ([], [])) (nth i asym []));
  (** every site has its own entry, with its image under the first operation in front *)
  cv_sites : uniquify = false \/ disjoint_orbits tol asym ops ->
    length starts = length asym /\
    forall i, (i < length asym)%nat -> nth (nth i starts 0%nat) origin 0%nat = i /\ nth (nth i starts 0%nat) which 0%nat = 0%nat
}.

Theorem C46_expansion : forall dims tol uniquify cell asym types ops cs warn,
  0 <= tol < 1 -> ops <> [] -> Forall (operation_ok dims) ops -> asym <> [] -> Forall (fun p => length p = dims) asym ->
  length cell = dims ->
  finish mod1 tol uniquify cell asym types ops = Done (cs, warn) ->
  exists frac origin which starts mult, converted dims tol uniquify cell asym types ops cs frac origin which starts mult.
Proof.
  intros dims tol uniquify cell asym types ops cs warn [Ht0 Ht] Ho Hops Ha Hasym Hcell Q. unfold finish in Q.
  destruct (expand_asym_unit mod1 tol uniquify asym ops) as [[[frac origin] w]| | |] eqn:X; try discriminate. cbn [obind] in Q.
  destruct (expand_form tol asym ops uniquify frac origin w Ha X) as (K & EF & EO & HK).
  destruct (np_unique_counts origin) as [vals mult] eqn:U.
  destruct (take types origin) as [ts| | |] eqn:TK; try discriminate. cbn [obind] in Q. injection Q as <- <-.
  assert (HK' : (forall j, (j < length asym)%nat -> K j = fresh tol asym ops j) \/ (forall j, (j < length asym)%nat -> keeps tol asym ops K j)) by tauto.
  pose proof (form_filter tol asym ops K HK') as HF.
  pose proof (kept_expansion dims tol asym ops Ht Hops Hasym K HF) as EX. rewrite <- EF, <- EO in EX.
  exists frac, origin, (whichs asym K), (asym_inds mult), mult.
  assert (F1 : uniquify = false \/ disjoint_orbits tol asym ops -> forall j, (j < length asym)%nat -> K j = fresh tol asym ops j).
  { intros D. destruct HK as [[H _]|[Hu H]]; auto. destruct D as [D|D]; [congruence|]. apply (disjoint_fresh dims); auto. }
  constructor; auto; cbn [cs_set ps_cell ps_motif ps_asym ps_mult cs_types].
  - apply map_ext_in. intros f Hf. apply to_cartesian_ok. transitivity dims; [|symmetry; exact Hcell].
    pose proof (ex_unit _ _ _ _ _ _ _ EX) as G. rewrite Forall_forall in G. apply G. auto.
  - pose proof (kept_runs asym K) as G. rewrite <- EO, U in G. exact G.
  - pose proof (ex_origin _ _ _ _ _ _ _ EX) as LO.
    assert (G : forall l ts, take types l = Done ts -> length ts = length l /\ forall k, (k < length l)%nat -> nth k ts 0%nat = nth (nth k l 0%nat) types 0%nat).
    { unfold take. induction l as [|a l IH]; intros ts' E; simpl in E.
      - injection E as <-. split; auto. simpl. intros; lia.
      - destruct (nth_error types a) as [t|] eqn:N; [|discriminate]. cbn [obind] in E.
        destruct (omap _ l) as [tt| | |] eqn:O; try discriminate. cbn [obind] in E. injection E as <-.
        destruct (IH tt eq_refl) as [I1 I2]. split; [simpl; congruence|]. intros [|k] Hk; simpl.
        + symmetry. apply nth_error_nth. auto.
        + apply I2. simpl in Hk. lia. }
    destruct (G _ _ TK) as [G1 G2]. rewrite <- LO. auto.
  - intros k l Hkl D. destruct HK as [[H HU]|[Hu H]].
    + destruct D as [D|D].
      * apply (all_unique dims tol Ht frac); auto. apply (ex_unit _ _ _ _ _ _ _ EX).
      * rewrite EF in *. rewrite EO in D. apply (kept_apart dims tol asym ops Ht Hops Hasym K HF); auto.
    + rewrite EF in *. apply (keeps_apart dims); auto.
  - intros HT i w' Hi Hw. destruct (represented dims tol asym ops Ht Hops Hasym K Ht0 HT HK' i w' Hi Hw) as (j & v & Hj & Hv & C & S).
    destruct (kept_index asym ops K j v) as (k & Hk & Ok & Wk & Fk); [lia|auto|].
    rewrite <- EF in Hk, Fk. rewrite <- EO in Ok. exists k. split; auto. split; [lia|]. split.
    + intros D. rewrite Ok. apply S. apply F1. auto.
    + rewrite Fk. eapply close_same; [| |exact C].
      * apply (img_ok dims); auto.
      * assert (Hv' : (v < length ops)%nat).
        { destruct (HF j ltac:(lia)) as [p Q]. rewrite Q in Hv. apply filter_In in Hv as [Hv _]. apply (fresh_In dims) in Hv; auto; [tauto|lia]. }
        destruct (img_ok dims asym ops Hops Hasym j v ltac:(lia) Hv') as (L1 & _). destruct (img_ok dims asym ops Hops Hasym i w' Hi Hw) as (L2 & _). congruence.
  - intros D. pose proof (all_sites dims tol asym ops Ht Hops Hasym K Ho (F1 D)) as G. cbv zeta in G.
    rewrite <- EO, U in G. exact G.
Qed.

(** The expansion never fails when there is a type for every site. *)
Theorem C46_total : forall dims tol uniquify cell asym types ops,
  0 <= tol < 1 -> Forall (operation_ok dims) ops -> asym <> [] -> Forall (fun p => length p = dims) asym ->
  length types = length asym -> exists r, finish mod1 tol uniquify cell asym types ops = Done r.
Proof.
  intros dims tol uniquify cell asym types ops [Ht0 Ht] Hops Ha Hasym Hty. unfold finish.
  destruct (expand_Done tol asym ops uniquify Ha) as [[[frac origin] w] X]. rewrite X. cbn [obind].
  destruct (expand_form tol asym ops uniquify frac origin w Ha X) as (K & EF & EO & HK).
  destruct (np_unique_counts origin) as [vals mult].
  rewrite (take_ok _ types 0%nat origin); [cbn [obind]; eauto|].
  apply Forall_forall. intros o Hoo. rewrite EO in Hoo. unfold origins in Hoo. apply blocks_In in Hoo as [Hoo _]. apply in_seq in Hoo. lia.
Qed.

(** Coordinates on a grid finer than the tolerance cannot form chains. *)
Lemma grid_transitive : forall N tol asym ops, 0 < IZR N -> tol < / IZR N ->
  (forall p g c, In p asym -> In g ops -> In c (affine g p) -> exists z : Z, c = IZR z / IZR N) ->
  (forall p q, In p asym -> In q asym -> length p = length q) ->
  transitive_images tol asym ops.
Proof.
  intros N tol asym ops HN Ht HG HL p q r g h k Hp Hq Hr Hg Hh Hk C1 C2 j Hj.
  destruct (C1 j Hj) as [a Ha]. rewrite affine_length in Hj. destruct (C2 j) as [b Hb].
  { rewrite affine_length. rewrite (HL q p); auto. }
  exists (a + b)%Z. rewrite plus_IZR.
  assert (G : forall p q g h n, In p asym -> In q asym -> In g ops -> In h ops -> (j < length p)%nat -> (j < length q)%nat ->
     Rabs (nth j (affine g p) 0 - nth j (affine h q) 0 - IZR n) <= tol -> nth j (affine g p) 0 - nth j (affine h q) 0 = IZR n).
  { intros p' q' g' h' n Hp' Hq' Hg' Hh' J1 J2 Hn.
    destruct (HG p' g' (nth j (affine g' p') 0)) as [z1 E1]; auto. { apply nth_In. rewrite affine_length. auto. }
    destruct (HG q' h' (nth j (affine h' q') 0)) as [z2 E2]; auto. { apply nth_In. rewrite affine_length. auto. }
    rewrite E1, E2 in *.
    assert (X : IZR z1 / IZR N - IZR z2 / IZR N - IZR n = IZR (z1 - z2 - n * N) / IZR N).
    { rewrite !minus_IZR, mult_IZR. field. lra. }
    rewrite X in Hn. unfold Rdiv in Hn. rewrite Rabs_mult, (Rabs_right (/ IZR N)) in Hn.
    2:{ apply Rle_ge. left. apply Rinv_0_lt_compat. auto. }
    assert (Y : Rabs (IZR (z1 - z2 - n * N)) < 1).
    { apply Rmult_lt_reg_r with (/ IZR N); [apply Rinv_0_lt_compat; auto|lra]. }
    rewrite <- abs_IZR in Y. apply lt_IZR in Y. assert (Z : (z1 - z2 - n * N = 0)%Z) by lia.
    rewrite Z in X. unfold Rdiv in X at 3. rewrite Rmult_0_l in X. lra. }
  apply G in Ha; auto; [|rewrite (HL q p); auto]. apply G in Hb; auto; [|rewrite (HL q p); auto|rewrite (HL r p); auto].
  replace (_ - _ - _) with 0 by lra. rewrite Rabs_R0. apply Rle_trans with (Rabs (nth j (affine g p) 0 - nth j (affine h q) 0 - IZR a)).
  - apply Rabs_pos.
  - destruct (C1 j) as [a' Ha']; [rewrite affine_length; auto|]. rewrite Ha. rewrite Rminus_eq_0, Rabs_R0.
    pose proof (Rabs_pos (nth j (affine g p) 0 - nth j (affine h q) 0 - IZR a')). lra.
Qed.

(** A site on the inversion centre and one off it: the hypotheses hold. *)
Definition inversion : list operation := [([[1]], [0]); ([[-1]], [0])].
Definition two_sites : list (list R) := [[0]; [1 / 4]].
Example C46_case : Forall (operation_ok 1) inversion /\ Forall (fun p => length p = 1%nat) two_sites /\
  transitive_images (1 / 1000) two_sites inversion /\ disjoint_orbits (1 / 1000) two_sites inversion.
Proof.
  assert (O : Forall (operation_ok 1) inversion).
  { unfold inversion, operation_ok. repeat (constructor; [split; [auto|split; [repeat constructor|auto]]|]). constructor. }
  split; auto. split; [repeat constructor|]. split.
  - apply (grid_transitive 4); [lra|lra| |].
    + intros p g c Hp Hg Hc. destruct Hp as [<-|[<-|[]]], Hg as [<-|[<-|[]]]; simpl in Hc; destruct Hc as [<-|[]].
      * exists 0%Z. lra.
      * exists 0%Z. lra.
      * exists 1%Z. lra.
      * exists (-1)%Z. lra.
    + intros p q Hp Hq. destruct Hp as [<-|[<-|[]]], Hq as [<-|[<-|[]]]; auto.
  - intros i j g h Hij Hg Hh C. simpl in Hij. assert (i = 0%nat) by lia. assert (j = 1%nat) by lia. subst i j.
    destruct (C 0%nat) as [n Hn]; [simpl; lia|]. cbn [nth two_sites] in Hn.
    destruct Hg as [<-|[<-|[]]], Hh as [<-|[<-|[]]]; simpl in Hn.
    + apply (not_near_int (1 * 0 + 0 + 0 - (1 * (1 / 4) + 0 + 0)) (1 / 1000) (-1)); [lra|lra|eauto].
    + apply (not_near_int (1 * 0 + 0 + 0 - (-1 * (1 / 4) + 0 + 0)) (1 / 1000) 0); [lra|lra|eauto].
    + apply (not_near_int (-1 * 0 + 0 + 0 - (1 * (1 / 4) + 0 + 0)) (1 / 1000) (-1)); [lra|lra|eauto].
    + apply (not_near_int (-1 * 0 + 0 + 0 - (-1 * (1 / 4) + 0 + 0)) (1 / 1000) 0); [lra|lra|eauto].
Qed.

(** Without transitivity images can be lost: near a sixfold axis (the operations of P6 in the
    usual order) the six images of (0.0007, 0, 0) are reduced to the first one, although the
    image under the twofold rotation is 0.0014 away from it. *)
Definition p6 : list operation :=
  let o := [0; 0; 0] in
  [([[1; 0; 0]; [0; 1; 0]; [0; 0; 1]], o); ([[1; -1; 0]; [1; 0; 0]; [0; 0; 1]], o);
   ([[0; -1; 0]; [1; -1; 0]; [0; 0; 1]], o); ([[-1; 0; 0]; [0; -1; 0]; [0; 0; 1]], o);
   ([[-1; 1; 0]; [-1; 0; 0]; [0; 0; 1]], o); ([[0; 1; 0]; [-1; 1; 0]; [0; 0; 1]], o)].
Definition near_axis : list (list R) := [[7 / 10000; 0; 0]].

Theorem C46_represented_refuted : exists dims tol asym ops, 0 < tol < 1 /\ Forall (operation_ok dims) ops /\
  Forall (fun p => length p = dims) asym /\ asym <> [] /\
  forall uniquify frac origin w, expand_asym_unit mod1 tol uniquify asym ops = Done (frac, origin, w) ->
    exists g p, In g ops /\ In p asym /\ forall f, In f frac -> ~ close_mod1 tol f (affine g p).
Proof.
  exists 3%nat, (1 / 1000), near_axis, p6. split; [lra|].
  assert (O : Forall (operation_ok 3) p6).
  { unfold p6, operation_ok. repeat (constructor; [split; [auto|split; [repeat constructor|auto]]|]). constructor. }
  assert (A : Forall (fun p => length p = 3%nat) near_axis) by repeat constructor.
  split; auto. split; auto. split; [discriminate|]. intros uniquify frac origin w X.
  destruct (expand_form _ near_axis p6 uniquify frac origin w ltac:(discriminate) X) as (K & EF & EO & HK).
  assert (HF : forall j, (j < length near_axis)%nat -> exists p, K j = filter p (fresh (1 / 1000) near_axis p6 j)) by (apply form_filter; tauto).
  pose proof (kept_expansion 3 (1 / 1000) near_axis p6 ltac:(lra) O A K HF) as EX. rewrite <- EF, <- EO in EX.
  exists ([[-1; 0; 0]; [0; -1; 0]; [0; 0; 1]], [0; 0; 0]), [7 / 10000; 0; 0].
  split; [simpl; auto 6|]. split; [simpl; auto|].
  intros f Hf C. apply (In_nth _ _ []) in Hf as (k & Hk & <-).
  destruct (ex_range _ _ _ _ _ _ _ EX k Hk) as [R1 R2]. pose proof (ex_image _ _ _ _ _ _ _ EX k Hk) as IM.
  pose proof (ex_new _ _ _ _ _ _ _ EX k) as NW.
  assert (O0 : nth k origin 0%nat = 0%nat) by (simpl in R1; lia). rewrite O0 in *. cbn [nth near_axis] in IM, NW.
  set (v := nth k (whichs near_axis K) 0%nat) in *.
  assert (CL : forall u, (u < v)%nat -> ~ close_mod1 (1 / 1000) (affine (nth v p6 ([], [])) [7 / 10000; 0; 0]) (affine (nth u p6 ([], [])) [7 / 10000; 0; 0])).
  { intros u Hu Q. apply (NW u Hk Hu). eapply close_same_l; [apply same_sym; exact IM|]. exact Q. }
  assert (V0 : v = 0%nat).
  { destruct (Nat.eq_dec v 0) as [|D]; auto. exfalso. simpl in R2.
    assert (NR : forall x y : R, - (1 / 1000) <= x - y <= 1 / 1000 -> exists n : Z, Rabs (x - y - IZR n) <= 1 / 1000).
    { intros x y Hxy. exists 0%Z. apply Rabs_le. lra. }
    apply (CL (if Nat.eqb v 2 then 0 else v - 1)%nat); [destruct (Nat.eqb_spec v 2); lia|].
    assert (v = 1 \/ v = 2 \/ v = 3 \/ v = 4 \/ v = 5)%nat as V by lia. clearbody v.
    destruct V as [V|[V|[V|[V|V]]]]; subst v; intros j Hj; apply NR; cbn in Hj;
      (assert (j = 0 \/ j = 1 \/ j = 2)%nat as J by lia); destruct J as [J|[J|J]]; subst j; cbn; lra. }
  rewrite V0 in IM. cbn [nth p6] in IM.
  apply (close_same_l _ _ _ _ IM) in C. destruct (C 0%nat) as [n Hn]; [cbn; lia|]. cbn in Hn.
  revert Hn. match goal with |- Rabs (?d - _) <= _ -> _ => intros Hn; apply (not_near_int d (1 / 1000) 0); [lra|lra|eauto] end.
Qed.

Print Assumptions C45_unique_sites.
Print Assumptions C45_kept_and_dropped.
Print Assumptions C45_near_kept_refuted.
Print Assumptions C46_expansion.
Print Assumptions C46_total.
Print Assumptions C46_represented_refuted.
