(** The initial state of _emd.py satisfies the invariant. *)
From Coq Require Import List ZArith Bool Lia Permutation.
From Verif Require Import Outcome EmdModel EmdArr EmdTree EmdOps EmdPath EmdFlow EmdSurgery EmdCycle EmdPivot EmdTerm.
Import ListNotations.
Open Scope outcome_scope.
Open Scope Z_scope.

Definition nthz (l : list Z) (k : Z) : Z := nth (Z.to_nat k) l 0.

Lemma zsum_app : forall l1 l2, zsum (l1 ++ l2) = zsum l1 + zsum l2.
Proof. induction l1 as [|a l1 IH]; intros l2; [reflexivity|]. simpl. rewrite IH. lia. Qed.

Lemma arange_S : forall a b, a < b -> arange a b = a :: arange (a + 1) b.
Proof.
  intros a b H. unfold arange. replace (Z.to_nat (b - a)) with (S (Z.to_nat (b - (a + 1)))) by lia.
  cbn [seq map]. f_equal; [lia|]. rewrite <- seq_shift, map_map. apply map_ext. intros k. lia.
Qed.

Lemma arange_snoc : forall a b, a < b -> arange a b = arange a (b - 1) ++ [b - 1].
Proof.
  intros a b H. unfold arange. replace (Z.to_nat (b - a)) with (S (Z.to_nat (b - 1 - a))) by lia.
  rewrite seq_S, map_app. cbn [map]. f_equal. f_equal. lia.
Qed.

Lemma arange_nil : forall a b, b <= a -> arange a b = [].
Proof. intros a b H. unfold arange. now replace (Z.to_nat (b - a)) with 0%nat by lia. Qed.

Lemma arange_split : forall a b c, a <= b <= c -> arange a c = arange a b ++ arange b c.
Proof.
  intros a b c H. unfold arange. replace (Z.to_nat (c - a)) with (Z.to_nat (b - a) + Z.to_nat (c - b))%nat by lia.
  rewrite seq_app, map_app. f_equal. rewrite <- (map_map Z.of_nat (fun k => a + k)).
  assert (E : forall s len, seq (0 + s) len = map (fun k => (k + s)%nat) (seq 0 len)).
  { intros s len. induction s as [|s IH].
    - rewrite (map_ext _ (fun k => k)); [now rewrite map_id|]. intros; lia.
    - cbn [Nat.add] in *. rewrite <- seq_shift, IH, map_map. apply map_ext. intros; lia. }
  rewrite E, !map_map. apply map_ext. intros k. lia.
Qed.

Lemma lsum_nthz : forall l a, lsum (fun v => nthz l (v - a)) (arange a (a + Z.of_nat (length l))) = zsum l.
Proof.
  induction l as [|x l IH]; intros a.
  - rewrite arange_nil by (simpl; lia). reflexivity.
  - cbn [length]. rewrite arange_S by lia. rewrite lsum_cons. cbn [zsum fold_right]. fold (zsum l).
    rewrite <- (IH (a + 1)). replace (a + 1 + Z.of_nat (length l)) with (a + Z.of_nat (S (length l))) by lia.
    f_equal; [unfold nthz; now replace (a - a) with 0 by lia|]. apply lsum_ext. intros v Hv. apply arange_in in Hv.
    unfold nthz. replace (Z.to_nat (v - a)) with (S (Z.to_nat (v - (a + 1)))) by lia. reflexivity.
Qed.

Lemma lsum_single : forall f l a, NoDup l -> In a l -> (forall b, In b l -> b <> a -> f b = 0) -> lsum f l = f a.
Proof.
  intros f l a Hn Ha H. apply in_split in Ha. destruct Ha as (l1 & l2 & ->).
  apply NoDup_remove_2 in Hn. rewrite lsum_app, lsum_cons.
  rewrite (lsum_zero f l1), (lsum_zero f l2); [lia | |].
  - intros b Hb. apply H; [rewrite in_app_iff; simpl; auto|]. intros ->. apply Hn. rewrite in_app_iff. auto.
  - intros b Hb. apply H; [rewrite in_app_iff; simpl; auto|]. intros ->. apply Hn. rewrite in_app_iff. auto.
Qed.

Lemma maxz_ge : forall l a, In a l -> a <= maxz l.
Proof.
  induction l as [|b l IH]; intros a H; [destruct H|]. destruct H as [<- | H]; cbn [maxz fold_right]; fold (maxz l); [lia|].
  specialize (IH a H). lia.
Qed.

Lemma zsum_nonneg : forall l, Forall (fun a => 0 <= a) l -> 0 <= zsum l.
Proof. induction 1; cbn [zsum fold_right]; [lia|]. fold (zsum l). lia. Qed.

Lemma ceil_sqrt_bound : forall k, 1 <= k -> 1 <= ceil_sqrt k <= k.
Proof.
  intros k H. unfold ceil_sqrt. pose proof (Z.sqrt_spec k ltac:(lia)) as S. cbv zeta in S.
  pose proof (Z.sqrt_nonneg k) as Hn. unfold Z.succ in S. destruct (Z.eqb_spec (Z.sqrt k * Z.sqrt k) k).
  - assert (1 <= Z.sqrt k) by nia. nia.
  - assert (1 <= Z.sqrt k) by nia. nia.
Qed.

(** [flat_map] over a rectangle. *)
Lemma nth_rect : forall (A B C : Type) (g : A -> B -> C) (L : list B) (l : list A) (i j : nat) a0 b0 d,
  (i < length l)%nat -> (j < length L)%nat ->
  nth (i * length L + j) (flat_map (fun x => map (g x) L) l) d = g (nth i l a0) (nth j L b0).
Proof.
  induction l as [|x l IH]; intros i j a0 b0 d Hi Hj; [simpl in Hi; lia|]. cbn [flat_map]. destruct i as [|i].
  - cbn [Nat.mul Nat.add nth]. rewrite app_nth1 by (now rewrite map_length).
    rewrite (nth_indep _ d (g x b0)) by (now rewrite map_length). apply (map_nth (g x)).
  - rewrite app_nth2 by (rewrite map_length; lia). rewrite map_length.
    replace (S i * length L + j - length L)%nat with (i * length L + j)%nat by lia.
    cbn [nth]. apply IH; auto. simpl in Hi. lia.
Qed.

Lemma rect_length : forall (A B C : Type) (g : A -> B -> C) (L : list B) (l : list A),
  length (flat_map (fun x => map (g x) L) l) = (length l * length L)%nat.
Proof.
  induction l as [|x l IH]; [reflexivity|]. cbn [flat_map length]. rewrite app_length, map_length, IH. lia.
Qed.

Section Init.
  Variables src snk cost cap : list Z.
  Notation ns_ := (Z.of_nat (length src)).
  Notation nd_ := (Z.of_nat (length snk)).

  Definition inst_of : inst := {|
    ns := ns_; nd := nd_;
    sup := fun v => if v <? ns_ then nthz src v else nthz snk (v - ns_);
    cst := nthz cost; cpc := nthz cap;
    big := faux_inf src snk cost cap
  |}.

  (** Integer weights of the same sum at most one, costs not negative, capacities positive
      and at most the weights. *)
  Record balanced : Prop := {
    b_src : src <> [];
    b_snk : snk <> [];
    b_psrc : Forall (fun a => 1 <= a) src;
    b_psnk : Forall (fun a => 1 <= a) snk;
    b_sum : zsum src = zsum snk;
    b_tot : zsum src <= FP;
    b_lcost : length cost = (length src * length snk)%nat;
    b_lcap : length cap = (length src * length snk)%nat;
    b_cost : Forall (fun a => 0 <= a) cost;
    b_cap : forall i j, (i < length src)%nat -> (j < length snk)%nat ->
      1 <= nth (i * length snk + j) cap 0 /\
      nth (i * length snk + j) cap 0 <= nth i src 0 /\ nth (i * length snk + j) cap 0 <= nth j snk 0
  }.

  Hypothesis B : balanced.
  Notation I := inst_of.
  Notation n := (ns I + nd I).
  Notation e := (ns I * nd I).
  Notation m := (e + n).

  Lemma ns_pos : 1 <= ns I.
  Proof. destruct B as [h _ _ _ _ _ _ _ _ _]. cbn [ns inst_of]. destruct src; [congruence|]. cbn [length]. lia. Qed.
  Lemma nd_pos : 1 <= nd I.
  Proof. destruct B as [_ h _ _ _ _ _ _ _ _]. cbn [nd inst_of]. destruct snk; [congruence|]. cbn [length]. lia. Qed.

  Lemma e_nat : Z.to_nat e = (length src * length snk)%nat.
  Proof. cbn [ns nd inst_of]. lia. Qed.

  Lemma nthz_pos : forall l v, Forall (fun a => 1 <= a) l -> 0 <= v < Z.of_nat (length l) -> 1 <= nthz l v.
  Proof. intros l v H Hv. rewrite Forall_forall in H. apply H. unfold nthz. apply nth_In. lia. Qed.

  Lemma big_bound : 1 <= big I /\ 3 * zsum cost <= big I.
  Proof.
    cbn [big inst_of]. unfold faux_inf. destruct B as [h1 _ h3 _ _ _ _ _ _ _].
    assert (1 <= maxz src).
    { destruct src as [|a l]; [congruence|]. pose proof (maxz_ge (a :: l) a ltac:(simpl; auto)). apply Forall_inv in h3. lia. }
    lia.
  Qed.

  Lemma div_mod_nat : forall a, 0 <= a < e -> exists i j, (i < length src)%nat /\ (j < length snk)%nat /\
    Z.to_nat a = (i * length snk + j)%nat /\ a / nd I = Z.of_nat i /\ a mod nd I = Z.of_nat j.
  Proof.
    intros a Ha. pose proof nd_pos as P. pose proof (Z.mod_pos_bound a (nd I)) as M. pose proof (Z.div_mod a (nd I)) as D.
    exists (Z.to_nat (a / nd I)), (Z.to_nat (a mod nd I)).
    assert (0 <= a / nd I) by (apply Z.div_pos; lia).
    assert (a / nd I < ns I) by (apply Z.div_lt_upper_bound; lia).
    cbn [ns nd inst_of] in *. split; [lia|]. split; [lia|]. split; [nia|]. lia.
  Qed.

  Lemma good_init : good I.
  Proof.
    pose proof ns_pos as P1. pose proof nd_pos as P2.
    pose proof B as [h1 h2 h3 h4 h5 h6 h7 h8 h9 h10]. constructor; auto.
    - intros v Hv. cbn [sup inst_of] in *. destruct (Z.ltb_spec v ns_); apply nthz_pos; auto; cbn [ns nd inst_of] in Hv; lia.
    - rewrite (lsum_ext (sup I) (fun v => nthz src (v - 0)) (arange 0 (ns I))).
      2: { intros v Hv. apply arange_in in Hv. cbn [sup ns inst_of] in *. destruct (Z.ltb_spec v ns_); [|lia]. now rewrite Z.sub_0_r. }
      rewrite (lsum_ext (sup I) (fun v => nthz snk (v - ns I)) (arange (ns I) n)).
      2: { intros v Hv. apply arange_in in Hv. cbn [sup ns inst_of] in *. destruct (Z.ltb_spec v ns_); [lia|]. reflexivity. }
      cbn [ns nd inst_of]. rewrite <- (Z.add_0_l ns_) at 1. rewrite !lsum_nthz. exact h5.
    - rewrite (lsum_ext (sup I) (fun v => nthz src (v - 0)) (arange 0 (ns I))).
      2: { intros v Hv. apply arange_in in Hv. cbn [sup ns inst_of] in *. destruct (Z.ltb_spec v ns_); [|lia]. now rewrite Z.sub_0_r. }
      cbn [ns inst_of]. rewrite <- (Z.add_0_l ns_) at 1. rewrite lsum_nthz. exact h6.
    - intros a Ha. cbn [cst inst_of]. rewrite Forall_forall in h9. apply h9. unfold nthz. apply nth_In. rewrite h7, <- e_nat. lia.
    - intros a Ha. destruct (div_mod_nat a Ha) as (i & j & Hi & Hj & E & E1 & E2).
      unfold tl_, hd_. destruct (Z.ltb_spec a e); [|lia]. rewrite E1, E2. cbn [cpc sup inst_of ns].
      destruct (h10 i j Hi Hj) as (C1 & C2 & C3). unfold nthz. rewrite E.
      destruct (Z.ltb_spec (Z.of_nat i) ns_); [|lia]. destruct (Z.ltb_spec (ns_ + Z.of_nat j) ns_); [lia|].
      rewrite Nat2Z.id. replace (Z.to_nat (ns_ + Z.of_nat j - ns_)) with j by lia. auto.
    - pose proof big_bound as [b1 b2]. split; auto.
      rewrite (lsum_ext (cst I) (fun v => nthz cost (v - 0))) by (intros; cbn [cst inst_of]; now rewrite Z.sub_0_r).
      replace e with (0 + Z.of_nat (length cost)) by (rewrite h7; cbn [ns nd inst_of]; lia). rewrite lsum_nthz.
      pose proof (zsum_nonneg cost h9). lia.
  Qed.

  Notation N := (make_net src snk cost cap).

  Lemma demands_nth : forall k, (k < length src + length snk)%nat ->
    nth k (map Z.opp src ++ snk) 0 = if Z.of_nat k <? ns_ then - nthz src (Z.of_nat k) else nthz snk (Z.of_nat k - ns_).
  Proof.
    intros k Hk. destruct (Z.ltb_spec (Z.of_nat k) ns_).
    - rewrite app_nth1 by (rewrite map_length; lia). change 0 with (- 0) at 1. rewrite (map_nth Z.opp).
      unfold nthz. now rewrite Nat2Z.id.
    - rewrite app_nth2 by (rewrite map_length; lia). rewrite map_length. unfold nthz. f_equal. lia.
  Qed.

  Lemma art_nth : forall k, (k < length src + length snk)%nat ->
    nth k (map (fun id => if 0 <? snd id then -1 else fst id)
      (combine (arange 0 (ns_ + nd_)) (map Z.opp src ++ snk))) 0 = if Z.of_nat k <? ns_ then Z.of_nat k else -1.
  Proof.
    intros k Hk. pose proof B as [_ _ h3 h4 _ _ _ _ _ _].
    set (f := fun id : Z * Z => if 0 <? snd id then -1 else fst id).
    assert (Hlen : length (arange 0 (ns_ + nd_)) = length (map Z.opp src ++ snk)).
    { rewrite arange_length, app_length, map_length. lia. }
    rewrite (nth_indep _ 0 (f (0, 0))).
    2: { rewrite map_length, combine_length, arange_length, app_length, map_length. lia. }
    rewrite (map_nth f). rewrite combine_nth by auto. unfold f. cbn [fst snd].
    rewrite demands_nth by auto. rewrite arange_nth by lia.
    destruct (Z.ltb_spec (Z.of_nat k) ns_) as [H|H].
    - pose proof (nthz_pos src (Z.of_nat k) h3 ltac:(lia)).
      destruct (Z.ltb_spec 0 (- nthz src (Z.of_nat k))); lia.
    - pose proof (nthz_pos snk (Z.of_nat k - ns_) h4 ltac:(lia)).
      destruct (Z.ltb_spec 0 (nthz snk (Z.of_nat k - ns_))); lia.
  Qed.

  Lemma earr_intro : forall k l f, Z.of_nat (length l) = k ->
    (forall j, (j < length l)%nat -> nth j l 0 = f (Z.of_nat j)) -> earr k l f.
  Proof. intros k l f H1 H2. split; auto. now apply arr_nth. Qed.

  Lemma netrep_init : netrep I N.
  Proof.
    pose proof ns_pos as P1. pose proof nd_pos as P2.
    pose proof B as [h1 h2 h3 h4 h5 h6 h7 h8 h9 h10].
    set (pairs := flat_map (fun i => map (fun j => (i, ns_ + j)) (arange 0 nd_)) (arange 0 ns_)).
    assert (Lp : length pairs = (length src * length snk)%nat).
    { unfold pairs. rewrite (rect_length Z Z (Z * Z) (fun i j => (i, ns_ + j))). rewrite !arange_length. lia. }
    assert (La : length (map (fun id => if 0 <? snd id then -1 else fst id)
      (combine (arange 0 (ns_ + nd_)) (map Z.opp src ++ snk))) = (length src + length snk)%nat).
    { rewrite map_length, combine_length, arange_length, app_length, map_length. lia. }
    assert (Np : forall k, (k < length pairs)%nat -> nth k pairs (0, 0) = (Z.of_nat k / nd I, ns I + Z.of_nat k mod nd I)).
    { intros k Hk. rewrite Lp in Hk. destruct (div_mod_nat (Z.of_nat k)) as (i & j & Hi & Hj & E & E1 & E2).
      { cbn [ns nd inst_of]. lia. }
      rewrite Nat2Z.id in E. rewrite E1, E2. unfold pairs.
      replace k with (i * length (arange 0 nd_) + j)%nat by (rewrite arange_length; nia).
      rewrite (nth_rect Z Z (Z * Z) (fun i j => (i, ns_ + j)) _ _ i j 0 0) by (rewrite arange_length; lia).
      rewrite !arange_nth by lia. cbn [ns inst_of]. f_equal. }
    assert (Htl : forall k, (k < length pairs)%nat -> nth k (map fst pairs) 0 = Z.of_nat k / nd I).
    { intros k Hk. change 0 with (fst (0, 0)) at 1. rewrite (map_nth fst). rewrite Np by auto. reflexivity. }
    assert (Hhd : forall k, (k < length pairs)%nat -> nth k (map snd pairs) 0 = ns I + Z.of_nat k mod nd I).
    { intros k Hk. change 0 with (snd (0, 0)) at 1. rewrite (map_nth snd). rewrite Np by auto. reflexivity. }
    constructor.
    - reflexivity.
    - reflexivity.
    - cbn [make_net block]. pose proof (ceil_sqrt_bound (ns_ * nd_)) as C. cbn [ns nd inst_of] in *. apply C. nia.
    - cbn [make_net tails]. fold pairs. apply earr_intro.
      + rewrite app_length, map_length, La, Lp. cbn [ns nd inst_of]. lia.
      + intros k Hk. rewrite app_length, map_length, La, Lp in Hk. unfold tl_. destruct (Z.ltb_spec (Z.of_nat k) e) as [H|H].
        * assert (k < length pairs)%nat by (rewrite Lp; cbn [ns nd inst_of] in H; lia).
          rewrite app_nth1 by (rewrite map_length; auto). auto.
        * assert (Hk2 : (length pairs <= k)%nat) by (rewrite Lp; cbn [ns nd inst_of] in H; lia).
          rewrite app_nth2 by (rewrite map_length; auto). rewrite map_length, Lp. rewrite art_nth by lia.
          replace (Z.of_nat (k - length src * length snk)) with (Z.of_nat k - e) by (cbn [ns nd inst_of]; lia).
          cbn [ns inst_of]. reflexivity.
    - cbn [make_net heads]. fold pairs. apply earr_intro.
      + rewrite app_length, map_length, La, Lp. cbn [ns nd inst_of]. lia.
      + intros k Hk. rewrite app_length, map_length, La, Lp in Hk. unfold fhd. destruct (Z.ltb_spec (Z.of_nat k) e) as [H|H].
        * assert (k < length pairs)%nat by (rewrite Lp; cbn [ns nd inst_of] in H; lia).
          rewrite app_nth1 by (rewrite map_length; auto). auto.
        * assert (Hk2 : (length pairs <= k)%nat) by (rewrite Lp; cbn [ns nd inst_of] in H; lia).
          rewrite app_nth2 by (rewrite map_length; auto). rewrite map_length, Lp. rewrite art_nth by lia.
          replace (Z.of_nat (k - length src * length snk)) with (Z.of_nat k - e) by (cbn [ns nd inst_of]; lia).
          cbn [ns inst_of]. reflexivity.
    - cbn [make_net costs]. apply earr_intro.
      + rewrite app_length, map_length, app_length, map_length, h7. cbn [ns nd inst_of]. lia.
      + intros k Hk. rewrite app_length, map_length, app_length, map_length, h7 in Hk. unfold cost_. destruct (Z.ltb_spec (Z.of_nat k) e) as [H|H].
        * rewrite app_nth1 by (rewrite h7; cbn [ns nd inst_of] in H; lia). cbn [cst inst_of]. unfold nthz. now rewrite Nat2Z.id.
        * rewrite app_nth2 by (rewrite h7; cbn [ns nd inst_of] in H; lia). rewrite h7.
          set (f := fun _ : Z => faux_inf src snk cost cap). rewrite (nth_indep _ 0 (f 0)).
          -- rewrite (map_nth f). reflexivity.
          -- rewrite map_length, app_length, map_length. cbn [ns nd inst_of] in H. lia.
    - cbn [make_net capac]. apply earr_intro.
      + rewrite app_length, map_length, app_length, map_length, h8. cbn [ns nd inst_of]. lia.
      + intros k Hk. rewrite app_length, map_length, app_length, map_length, h8 in Hk. unfold cap_. destruct (Z.ltb_spec (Z.of_nat k) e) as [H|H].
        * rewrite app_nth1 by (rewrite h8; cbn [ns nd inst_of] in H; lia). cbn [cpc inst_of]. unfold nthz. now rewrite Nat2Z.id.
        * rewrite app_nth2 by (rewrite h8; cbn [ns nd inst_of] in H; lia). rewrite h8.
          set (f := fun _ : Z => FP). rewrite (nth_indep _ 0 (f 0)).
          -- rewrite (map_nth f). reflexivity.
          -- rewrite map_length, app_length, map_length. cbn [ns nd inst_of] in H. lia.
  Qed.

  (** * The star *)
  Definition F0 : tfun := TF
    (fun v => if v =? -1 then -2 else -1)
    (fun v => if v =? -1 then n + 1 else 1)
    (fun v => if v =? n - 1 then -1 else v + 1)
    (fun v => if v =? -1 then n - 1 else v)
    (fun v => if v =? -1 then n - 1 else v - 1)
    (fun v => e + v).
  Definition T0 : rtree := Node (-1) (map (fun v => Node v []) (arange 0 n)).
  Definition x0 (a : Z) : Z := if a <? e then 0 else sup I (a - e).
  Definition pi0 (v : Z) : Z := if v =? -1 then 0 else if v <? ns I then big I else - big I.

  Lemma pre_T0 : pre T0 = arange (-1) n.
  Proof.
    pose proof ns_pos. pose proof nd_pos. unfold T0. rewrite pre_node. rewrite (arange_S (-1)) by lia. f_equal.
    change (-1 + 1) with 0. generalize (arange 0 n). induction l as [|a l IH]; [reflexivity|]. cbn [map]. rewrite pres_cons, IH. reflexivity.
  Qed.

  Lemma narr_intro : forall l y f, Z.of_nat (length l) = n -> (forall j, (j < length l)%nat -> nth j l 0 = f (Z.of_nat j)) ->
    y = f (-1) -> narr n (l ++ [y]) f.
  Proof.
    intros l y f H1 H2 H3. split; [rewrite app_length; cbn [length]; lia|]. now apply arr_nth_root.
  Qed.

  Lemma rep_init : rep n (tree (init_state src snk cost cap)) F0.
  Proof.
    pose proof ns_pos as P1. pose proof nd_pos as P2. cbn [init_state tree].
    assert (Hc : forall k : Z, length (map (fun _ : Z => k) (arange 0 (ns_ + nd_))) = Z.to_nat n).
    { intros k. rewrite map_length, arange_length. cbn [ns nd inst_of]. lia. }
    assert (Hcn : forall (k : Z) j, (j < Z.to_nat n)%nat -> nth j (map (fun _ : Z => k) (arange 0 (ns_ + nd_))) 0 = k).
    { intros k j Hj. set (f := fun _ : Z => k). rewrite (nth_indep _ 0 (f 0)) by (unfold f; rewrite Hc; auto).
      rewrite (map_nth f). reflexivity. }
    constructor; cbn [parent size next_node last_node prev_node edge F0 fpar fsz fnx fla fpv fed].
    - apply narr_intro; [rewrite Hc; lia | | reflexivity]. intros j Hj. rewrite Hc in Hj. rewrite Hcn by auto.
      destruct (Z.eqb_spec (Z.of_nat j) (-1)); [lia|reflexivity].
    - apply narr_intro; [rewrite Hc; lia | | reflexivity]. intros j Hj. rewrite Hc in Hj. rewrite Hcn by auto.
      destruct (Z.eqb_spec (Z.of_nat j) (-1)); [lia|reflexivity].
    - change [-1; 0] with ([-1] ++ [0]). rewrite app_assoc. apply narr_intro.
      + rewrite app_length, arange_length. cbn [length ns nd inst_of] in *. lia.
      + intros j Hj. rewrite app_length, arange_length in Hj. cbn [length] in Hj.
        destruct (Z.eqb_spec (Z.of_nat j) (n - 1)) as [E|E].
        * rewrite app_nth2 by (rewrite arange_length; cbn [ns nd inst_of] in *; lia). rewrite arange_length.
          replace (j - Z.to_nat (ns_ + nd_ - 1))%nat with 0%nat by (cbn [ns nd inst_of] in *; lia). reflexivity.
        * rewrite app_nth1 by (rewrite arange_length; cbn [ns nd inst_of] in *; lia).
          rewrite arange_nth by (cbn [ns nd inst_of] in *; lia). lia.
      + destruct (Z.eqb_spec (-1) (n - 1)); [lia|reflexivity].
    - apply narr_intro.
      + rewrite arange_length. cbn [ns nd inst_of]. lia.
      + intros j Hj. rewrite arange_length in Hj. rewrite arange_nth by lia.
        destruct (Z.eqb_spec (Z.of_nat j) (-1)); lia.
      + reflexivity.
    - rewrite (arange_snoc (-1)) by (cbn [ns nd inst_of] in *; lia). apply narr_intro.
      + rewrite arange_length. cbn [ns nd inst_of] in *. lia.
      + intros j Hj. rewrite arange_length in Hj. rewrite arange_nth by lia.
        destruct (Z.eqb_spec (Z.of_nat j) (-1)); lia.
      + reflexivity.
    - apply earr_intro.
      + rewrite arange_length. cbn [ns nd inst_of]. lia.
      + intros j Hj. rewrite arange_length in Hj. rewrite arange_nth by lia. reflexivity.
  Qed.

  Lemma chain_arange : forall nx pv k a, (forall v, a <= v < a + Z.of_nat k - 1 -> nx v = v + 1 /\ pv (v + 1) = v) ->
    chain nx pv (arange a (a + Z.of_nat k)).
  Proof.
    intros nx pv. induction k as [|k IH]; intros a H.
    - rewrite arange_nil by lia. exact Logic.I.
    - rewrite arange_S by lia. destruct k as [|k].
      + rewrite arange_nil by lia. exact Logic.I.
      + specialize (IH (a + 1)). replace (a + 1 + Z.of_nat (S k)) with (a + Z.of_nat (S (S k))) in IH by lia.
        rewrite (arange_S (a + 1)) in * by lia. cbn [chain]. split; [apply H; lia|]. apply IH. intros v Hv. apply H. lia.
  Qed.

  Lemma tinv_init : TInv I F0 T0.
  Proof.
    pose proof ns_pos as P1. pose proof nd_pos as P2. pose proof good_init as G. constructor.
    - split.
      + unfold T0. rewrite ok_node. split.
        * change (-1 :: pres (map (fun v => Node v []) (arange 0 n))) with (pre T0). rewrite pre_T0.
          unfold okn. cbn [F0 fpar fsz fla]. split; [reflexivity|]. split.
          -- rewrite arange_length, Z.eqb_refl. lia.
          -- rewrite arange_snoc by lia. rewrite lst_snoc. reflexivity.
        * apply Forall_forall. intros t Ht. apply in_map_iff in Ht. destruct Ht as (v & <- & Hv). apply arange_in in Hv.
          rewrite ok_node. split; [|constructor]. unfold okn. cbn [F0 fpar fsz fla pres flat_map length lst].
          destruct (Z.eqb_spec v (-1)); [lia|]. auto.
      + rewrite pre_T0. apply ring_iff.
        * rewrite arange_S by lia. congruence.
        * assert (En : n = -1 + Z.of_nat (Z.to_nat (n + 1))) by lia.
          split; [|split].
          -- rewrite En. apply chain_arange. intros v Hv. cbn [F0 fnx fpv]. destruct (Z.eqb_spec v (n - 1)); [lia|].
             destruct (Z.eqb_spec (v + 1) (-1)); lia.
          -- rewrite (arange_snoc (-1)) at 1 by lia. rewrite lst_snoc.
             rewrite arange_S by lia. cbn [hdz hd F0 fnx]. now rewrite Z.eqb_refl.
          -- rewrite (arange_snoc (-1)) at 2 by lia. rewrite lst_snoc.
             rewrite arange_S by lia. cbn [hdz hd F0 fpv]. reflexivity.
    - reflexivity.
    - rewrite pre_T0. apply arange_nodup.
    - intros v. rewrite pre_T0, arange_in. unfold inr. tauto.
    - intros v Hv. cbn [F0 fed fpar]. split; [lia|]. destruct (Z.eqb_spec v (-1)); [lia|].
      pose proof (arc_art I G (e + v) ltac:(lia)) as A. unfold conn. destruct A as [A | A]; [left | right]; lia.
  Qed.

  Lemma finv_init : FInv I F0 x0 pi0.
  Proof.
    pose proof ns_pos as P1. pose proof nd_pos as P2. pose proof good_init as G.
    assert (Hs : forall v, 0 <= v < n -> 1 <= sup I v <= FP).
    { intros v Hv. split; [apply (g_sup _ G); auto | apply (sup_bound I G v Hv)]. }
    assert (Hcase : forall a, 0 <= a < m -> a < e \/ exists v, 0 <= v < n /\ a = e + v).
    { intros a Ha. destruct (Z_lt_ge_dec a e); [auto|right]. exists (a - e). lia. }
    constructor.
    - reflexivity.
    - intros a Ha. unfold x0, cap_. destruct (Z.ltb_spec a e).
      + pose proof (g_cap _ G a ltac:(lia)). lia.
      + pose proof (Hs (a - e) ltac:(lia)). lia.
    - intros v Hv. rewrite (lsum_single _ _ (e + v)).
      + unfold x0. destruct (Z.ltb_spec (e + v) e); [lia|]. replace (e + v - e) with v by lia.
        pose proof (arc_art I G (e + v) ltac:(lia)) as A. unfold inc.
        destruct (Z.ltb_spec v (ns I)).
        * destruct A as [(A1 & A2 & _) | A]; [|lia]. rewrite A1, A2.
          replace (e + v - e) with v by lia. rewrite Z.eqb_refl. destruct (Z.eqb_spec (-1) v); lia.
        * destruct A as [A | (A1 & A2 & _)]; [lia|]. rewrite A1, A2.
          replace (e + v - e) with v by lia. rewrite Z.eqb_refl. destruct (Z.eqb_spec (-1) v); lia.
      + apply arange_nodup.
      + apply arange_in. lia.
      + intros b Hb Hne. apply arange_in in Hb. destruct (Hcase b Hb) as [H | (u & Hu & ->)].
        * unfold x0. destruct (Z.ltb_spec b e); lia.
        * pose proof (arc_art I G (e + u) ltac:(lia)) as A. unfold inc.
          destruct (Z.eqb_spec (tl_ I (e + u)) v) as [K1|K1]; destruct (Z.eqb_spec (hd_ I (e + u)) v) as [K2|K2]; lia.
    - intros a Ha Hnt. destruct (Hcase a Ha) as [H | (u & Hu & ->)].
      + left. unfold x0. destruct (Z.ltb_spec a e); lia.
      + exfalso. apply (Hnt u Hu). reflexivity.
    - intros v Hv. cbn [F0 fed]. unfold rc, cost_. destruct (Z.ltb_spec (e + v) e); [lia|].
      pose proof (arc_art I G (e + v) ltac:(lia)) as A. unfold pi0.
      destruct A as [(A1 & A2 & _ & A4) | (A1 & A2 & _ & A4)]; rewrite A1, A2; replace (e + v - e) with v in * by lia.
      + rewrite (Z.eqb_refl (-1)). destruct (Z.eqb_spec v (-1)); [lia|]. destruct (Z.ltb_spec v (ns I)); lia.
      + rewrite (Z.eqb_refl (-1)). destruct (Z.eqb_spec v (-1)); [lia|]. destruct (Z.ltb_spec v (ns I)); lia.
    - intros v Hv. cbn [F0 fed fpar]. destruct (Z.eqb_spec v (-1)); [lia|].
      pose proof (Hs v Hv) as S. pose proof (arc_art I G (e + v) ltac:(lia)) as A. unfold res, x0, cap_.
      destruct (Z.ltb_spec (e + v) e); [lia|]. replace (e + v - e) with v in * by lia.
      destruct A as [(A1 & A2 & _ & A4) | (A1 & A2 & _ & A4)]; rewrite A1.
      + left. destruct (Z.eqb_spec v (-1)); lia.
      + rewrite Z.eqb_refl. destruct (Z.eq_dec (sup I v) FP) as [E|E]; [right|left; lia]. lia.
    - intros a Ha Hnt. exfalso. apply (Hnt (a - e)); [lia|]. cbn [F0 fed]. lia.
  Qed.

  Theorem inv_init : Inv I (init_state src snk cost cap) F0 T0 x0 pi0.
  Proof.
    pose proof ns_pos as P1. pose proof nd_pos as P2. pose proof B as [h1 h2 h3 h4 h5 h6 h7 h8 h9 h10].
    constructor.
    - apply rep_init.
    - cbn [init_state flows]. apply earr_intro.
      + rewrite !app_length, map_length, h7. cbn [ns nd inst_of]. lia.
      + intros k Hk. rewrite !app_length, map_length, h7 in Hk. unfold x0. destruct (Z.ltb_spec (Z.of_nat k) e) as [H|H].
        * set (f := fun _ : Z => 0).
          assert (k < length (map f cost))%nat by (rewrite map_length, h7; cbn [ns nd inst_of] in H; lia).
          rewrite app_nth1 by auto. rewrite (nth_indep _ 0 (f 0)) by auto. rewrite (map_nth f). reflexivity.
        * rewrite app_nth2 by (rewrite map_length, h7; cbn [ns nd inst_of] in H; lia). rewrite map_length, h7.
          cbn [sup inst_of]. destruct (Z.ltb_spec (Z.of_nat k - e) ns_) as [H'|H'].
          -- rewrite app_nth1 by (cbn [ns nd inst_of] in *; lia). unfold nthz. f_equal. cbn [ns nd inst_of] in *. lia.
          -- rewrite app_nth2 by (cbn [ns nd inst_of] in *; lia). unfold nthz. f_equal. cbn [ns nd inst_of] in *. lia.
    - cbn [init_state potentials]. apply earr_intro.
      + rewrite map_length, app_length, map_length. cbn [ns nd inst_of]. lia.
      + intros k Hk. rewrite map_length, app_length, map_length in Hk.
        set (f := fun d => if d <=? 0 then faux_inf src snk cost cap else - faux_inf src snk cost cap).
        rewrite (nth_indep _ 0 (f 0)) by (rewrite map_length, app_length, map_length; auto).
        rewrite (map_nth f). rewrite demands_nth by auto. unfold f, pi0. destruct (Z.eqb_spec (Z.of_nat k) (-1)); [lia|].
        cbn [ns big inst_of]. destruct (Z.ltb_spec (Z.of_nat k) ns_) as [H|H].
        * pose proof (nthz_pos src (Z.of_nat k) h3 ltac:(lia)). destruct (Z.leb_spec (- nthz src (Z.of_nat k)) 0); lia.
        * pose proof (nthz_pos snk (Z.of_nat k - ns_) h4 ltac:(lia)). destruct (Z.leb_spec (nthz snk (Z.of_nat k - ns_)) 0); lia.
    - cbn [init_state pos]. nia.
    - apply tinv_init.
    - apply finv_init.
  Qed.
End Init.
