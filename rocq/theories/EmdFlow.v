(** Flows on the network of _emd.py: residual capacities, cycles, augmentation. *)
From Coq Require Import List ZArith Bool Lia FinFun.
From Verif Require Import Outcome EmdModel EmdArr EmdTree EmdOps EmdPath.
Import ListNotations.
Open Scope outcome_scope.
Open Scope Z_scope.

(** * Sums *)
Definition lsum (f : Z -> Z) (l : list Z) : Z := fold_right (fun a s => f a + s) 0 l.

Lemma lsum_cons : forall f a l, lsum f (a :: l) = f a + lsum f l.
Proof. reflexivity. Qed.

Lemma lsum_ext : forall f g l, (forall a, In a l -> f a = g a) -> lsum f l = lsum g l.
Proof. induction l as [|a l IH]; simpl; intros H; auto. rewrite H by auto. rewrite IH; auto. Qed.

Lemma lsum_plus : forall f g l, lsum (fun a => f a + g a) l = lsum f l + lsum g l.
Proof. induction l as [|a l IH]; simpl; auto. rewrite IH. lia. Qed.

Lemma lsum_scal : forall k f l, lsum (fun a => k * f a) l = k * lsum f l.
Proof. induction l as [|a l IH]; simpl; [lia|]. rewrite IH. lia. Qed.

Lemma lsum_le : forall f g l, (forall a, In a l -> f a <= g a) -> lsum f l <= lsum g l.
Proof. induction l as [|a l IH]; simpl; intros H; [lia|]. specialize (H a) as H1. specialize (IH ltac:(auto)). specialize (H1 ltac:(auto)). lia. Qed.

Lemma lsum_nonneg : forall f l, (forall a, In a l -> 0 <= f a) -> 0 <= lsum f l.
Proof. induction l as [|a l IH]; simpl; intros H; [lia|]. specialize (H a) as H1. specialize (IH ltac:(auto)). specialize (H1 ltac:(auto)). lia. Qed.

Lemma lsum_app : forall f l1 l2, lsum f (l1 ++ l2) = lsum f l1 + lsum f l2.
Proof. induction l1 as [|a l IH]; simpl; intros l2; auto. rewrite IH. lia. Qed.

Lemma lsum_zero : forall f l, (forall a, In a l -> f a = 0) -> lsum f l = 0.
Proof. induction l as [|a l IH]; simpl; intros H; auto. rewrite H by auto. rewrite IH; auto. Qed.

Lemma lsum_const : forall k l, lsum (fun _ => k) l = k * Z.of_nat (length l).
Proof. induction l as [|a l IH]; [simpl; lia|]. rewrite lsum_cons, IH. simpl length. lia. Qed.

Lemma lsum_map : forall f g l, lsum f (map g l) = lsum (fun a => f (g a)) l.
Proof. induction l as [|a l IH]; simpl; auto. now rewrite IH. Qed.

Lemma lsum_swap : forall (f : Z -> Z -> Z) l1 l2,
  lsum (fun a => lsum (fun b => f a b) l2) l1 = lsum (fun b => lsum (fun a => f a b) l1) l2.
Proof.
  induction l1 as [|a l1 IH]; intros l2.
  - simpl. symmetry. apply lsum_zero. auto.
  - rewrite lsum_cons. rewrite IH.
    rewrite <- lsum_plus. reflexivity.
Qed.

(** One entry changes. *)
Lemma lsum_fupd : forall (g : Z -> Z) (x : Z -> Z) a y l, NoDup l -> In a l ->
  lsum (fun b => g b * fupd x a y b) l = lsum (fun b => g b * x b) l + g a * (y - x a).
Proof.
  intros g x a y. induction l as [|b l IH]; intros Hn Ha; [destruct Ha|].
  apply NoDup_cons_iff in Hn. destruct Hn as [H1 H2]. rewrite !lsum_cons.
  destruct (Z.eq_dec b a) as [->|Hne].
  - rewrite fupd_eq. rewrite (lsum_ext (fun b => g b * fupd x a y b) (fun b => g b * x b)).
    + lia.
    + intros b Hb. rewrite fupd_neq; auto. intros ->. auto.
  - destruct Ha as [Ha | Ha]; [congruence|]. rewrite fupd_neq by auto.
    rewrite IH by auto. lia.
Qed.

Lemma lsum_ge_one : forall f l a, (forall b, In b l -> 0 <= f b) -> In a l -> f a <= lsum f l.
Proof.
  intros f l a H Ha. apply in_split in Ha. destruct Ha as (l1 & l2 & ->).
  rewrite lsum_app. rewrite !lsum_cons.
  assert (0 <= lsum f l1) by (apply lsum_nonneg; intros; apply H; rewrite in_app_iff; auto).
  assert (0 <= lsum f l2) by (apply lsum_nonneg; intros; apply H; rewrite in_app_iff; simpl; auto).
  lia.
Qed.

Lemma lsum_ge_two : forall f l a b, (forall c, In c l -> 0 <= f c) -> In a l -> In b l -> a <> b -> f a + f b <= lsum f l.
Proof.
  intros f l a b H Ha Hb Hne. apply in_split in Ha. destruct Ha as (l1 & l2 & ->).
  rewrite lsum_app. rewrite !lsum_cons.
  rewrite in_app_iff in Hb. simpl in Hb.
  assert (Hb2 : In b (l1 ++ l2)) by (rewrite in_app_iff; tauto).
  assert (f b <= lsum f (l1 ++ l2)).
  { apply lsum_ge_one; auto. intros c Hc. apply H. rewrite in_app_iff in *. simpl. tauto. }
  rewrite lsum_app in *. lia.
Qed.

(** * [arange] *)
Lemma arange_in : forall a b x, In x (arange a b) <-> a <= x < b.
Proof.
  intros a b x. unfold arange. rewrite in_map_iff. split.
  - intros (k & <- & Hk). apply in_seq in Hk. lia.
  - intros H. exists (Z.to_nat (x - a)). split; [lia|]. apply in_seq. lia.
Qed.

Lemma arange_nodup : forall a b, NoDup (arange a b).
Proof.
  intros a b. unfold arange. apply Injective_map_NoDup; [|apply seq_NoDup].
  intros x y H. lia.
Qed.

Lemma arange_length : forall a b, length (arange a b) = Z.to_nat (b - a).
Proof. intros. unfold arange. now rewrite map_length, seq_length. Qed.

Lemma arange_nth : forall a b k, (k < Z.to_nat (b - a))%nat -> nth k (arange a b) 0 = a + Z.of_nat k.
Proof.
  intros a b k H. unfold arange. rewrite (nth_indep _ 0 (a + Z.of_nat 0)) by (rewrite map_length, seq_length; auto).
  rewrite (map_nth (fun k => a + Z.of_nat k)). rewrite seq_nth by auto. lia.
Qed.

(** * The network *)
Record inst := {
  ns : Z; nd : Z;
  sup : Z -> Z;         (* supply of a source, demand of a sink *)
  cst : Z -> Z;         (* of an edge between the two sides *)
  cpc : Z -> Z;
  big : Z
}.

Section Net.
  Variable I : inst.
  Notation n := (ns I + nd I).
  Notation e := (ns I * nd I).
  Notation m := (e + n).

  Definition tl_ (a : Z) : Z :=
    if a <? e then a / nd I else if a - e <? ns I then a - e else -1.
  Definition hd_ (a : Z) : Z :=
    if a <? e then ns I + a mod nd I else if a - e <? ns I then -1 else a - e.
  (** What the array [heads] contains. *)
  Definition fhd (a : Z) : Z :=
    if a <? e then ns I + a mod nd I else if a - e <? ns I then a - e else -1.
  Definition cost_ (a : Z) : Z := if a <? e then cst I a else big I.
  Definition cap_ (a : Z) : Z := if a <? e then cpc I a else FP.

  (** Distributions with weights at least one (i.e. 1e-8), of the same sum, at most [FP]. *)
  Record good : Prop := {
    g_ns : 1 <= ns I;
    g_nd : 1 <= nd I;
    g_sup : forall v, 0 <= v < n -> 1 <= sup I v;
    g_bal : lsum (sup I) (arange 0 (ns I)) = lsum (sup I) (arange (ns I) n);
    g_tot : lsum (sup I) (arange 0 (ns I)) <= FP;
    g_cst : forall a, 0 <= a < e -> 0 <= cst I a;
    g_cap : forall a, 0 <= a < e -> 1 <= cpc I a /\ cpc I a <= sup I (tl_ a) /\ cpc I a <= sup I (hd_ a);
    g_big : 1 <= big I /\ lsum (cst I) (arange 0 e) <= big I
  }.

  Record netrep (N : net) : Prop := {
    nr_n : n_nodes N = n;
    nr_e : n_arcs N = e;
    nr_B : 1 <= block N <= e;
    nr_tl : earr m (tails N) tl_;
    nr_hd : earr m (heads N) fhd;
    nr_c : earr m (costs N) cost_;
    nr_cap : earr m (capac N) cap_
  }.

  Definition conn (a u v : Z) : Prop := (tl_ a = u /\ hd_ a = v) \/ (tl_ a = v /\ hd_ a = u).

  Definition inc (a v : Z) : Z := (if tl_ a =? v then 1 else 0) - (if hd_ a =? v then 1 else 0).

  Lemma conn_sym : forall a u v, conn a u v -> conn a v u.
  Proof. unfold conn. tauto. Qed.

  Section Good.
  Hypothesis G : good.

  Lemma e_pos : 1 <= e.
  Proof. destruct G. nia. Qed.

  Lemma arc_real : forall a, 0 <= a < e -> 0 <= tl_ a < ns I /\ ns I <= hd_ a < n /\ fhd a = hd_ a.
  Proof.
    intros a Ha. destruct G. unfold tl_, hd_, fhd. destruct (Z.ltb_spec a e); [|lia].
    pose proof (Z.mod_pos_bound a (nd I)). repeat split; try lia.
    - apply Z.div_pos; lia.
    - apply Z.div_lt_upper_bound; lia.
  Qed.

  Lemma arc_art : forall a, e <= a < m ->
    (tl_ a = a - e /\ hd_ a = -1 /\ fhd a = a - e /\ 0 <= a - e < ns I) \/
    (tl_ a = -1 /\ hd_ a = a - e /\ fhd a = -1 /\ ns I <= a - e < n).
  Proof.
    intros a Ha. destruct G. unfold tl_, hd_, fhd. destruct (Z.ltb_spec a e); [lia|].
    destruct (Z.ltb_spec (a - e) (ns I)); [left|right]; lia.
  Qed.

  Lemma arc_ends : forall a, 0 <= a < m -> tl_ a <> hd_ a /\ -1 <= tl_ a < n /\ -1 <= hd_ a < n.
  Proof.
    intros a Ha. destruct G. destruct (Z_lt_ge_dec a e) as [H | H].
    - pose proof (arc_real a ltac:(lia)). lia.
    - pose proof (arc_art a ltac:(lia)). lia.
  Qed.

  Lemma real_inj : forall a b, 0 <= a < e -> 0 <= b < e -> tl_ a = tl_ b -> hd_ a = hd_ b -> a = b.
  Proof.
    intros a b Ha Hb. unfold tl_, hd_. destruct (Z.ltb_spec a e), (Z.ltb_spec b e); try lia. intros H1 H2.
    rewrite (Z.div_mod a (nd I)), (Z.div_mod b (nd I)) by (destruct G; lia). destruct G. nia.
  Qed.

  (** The pair of ends determines the arc. *)
  Lemma conn_inj : forall a b u v, 0 <= a < m -> 0 <= b < m -> conn a u v -> conn b u v -> a = b.
  Proof.
    intros a b u v Ha Hb Ca Cb. destruct G.
    destruct (Z_lt_ge_dec a e) as [H | H], (Z_lt_ge_dec b e) as [H' | H'].
    - pose proof (arc_real a ltac:(lia)). pose proof (arc_real b ltac:(lia)).
      apply real_inj; try lia; destruct Ca as [[? ?]|[? ?]], Cb as [[? ?]|[? ?]]; lia.
    - pose proof (arc_real a ltac:(lia)). pose proof (arc_art b ltac:(lia)).
      destruct Ca as [[? ?]|[? ?]], Cb as [[? ?]|[? ?]]; lia.
    - pose proof (arc_art a ltac:(lia)). pose proof (arc_real b ltac:(lia)).
      destruct Ca as [[? ?]|[? ?]], Cb as [[? ?]|[? ?]]; lia.
    - pose proof (arc_art a ltac:(lia)). pose proof (arc_art b ltac:(lia)).
      destruct Ca as [[? ?]|[? ?]], Cb as [[? ?]|[? ?]]; lia.
  Qed.

  Lemma cap_pos : forall a, 0 <= a < m -> 1 <= cap_ a.
  Proof.
    intros a Ha. unfold cap_. destruct (Z.ltb_spec a e).
    - destruct G as [_ _ _ _ _ _ H1 _]. apply H1. lia.
    - unfold FP. lia.
  Qed.

  Lemma cost_bound : forall a, 0 <= a < m -> 0 <= cost_ a <= big I.
  Proof.
    intros a Ha. unfold cost_. destruct G. destruct (Z.ltb_spec a e).
    - split; [apply g_cst0; lia|].
      assert (cst I a <= lsum (cst I) (arange 0 e)).
      { apply lsum_ge_one; [|apply arange_in; lia]. intros b Hb. apply arange_in in Hb. auto. }
      lia.
    - lia.
  Qed.

  (** * Cycles *)
  Definition res (x : Z -> Z) (a u : Z) : Z := if tl_ a =? u then cap_ a - x a else x a.
  Definition dir (a u : Z) : Z := if tl_ a =? u then 1 else -1.

  (** [walk c w]: the steps of [c] follow each other and end at [w]. *)
  Fixpoint walk (c : list (Z * Z)) (w : Z) : Prop :=
    match c with
    | [] => True
    | (a, u) :: c' => 0 <= a < m /\ conn a u (match c' with [] => w | (_, v) :: _ => v end) /\ walk c' w
    end.

  Definition start (c : list (Z * Z)) (w : Z) : Z := match c with [] => w | (_, v) :: _ => v end.

  Lemma walk_cons : forall a u c w, walk ((a, u) :: c) w <-> 0 <= a < m /\ conn a u (start c w) /\ walk c w.
  Proof. reflexivity. Qed.

  Lemma walk_app : forall c1 c2 w, walk (c1 ++ c2) w <-> walk c1 (start c2 w) /\ walk c2 w.
  Proof.
    induction c1 as [|[a u] c1 IH]; intros c2 w.
    - simpl. tauto.
    - cbn [app]. rewrite !walk_cons, IH. replace (start (c1 ++ c2) w) with (start c1 (start c2 w)); [tauto|].
      destruct c1 as [|[b v] c1]; reflexivity.
  Qed.

  Fixpoint push (x : Z -> Z) (k : Z) (c : list (Z * Z)) : Z -> Z :=
    match c with
    | [] => x
    | (a, u) :: c' => push (fupd x a (x a + dir a u * k)) k c'
    end.

  Lemma push_out : forall c x k a, ~ In a (map fst c) -> push x k c a = x a.
  Proof.
    induction c as [|[b u] c IH]; intros x k a H; auto. cbn [push]. rewrite IH.
    - apply fupd_neq. intros ->. apply H. simpl. auto.
    - intros Q. apply H. simpl. auto.
  Qed.

  Lemma push_in : forall c x k a u, NoDup (map fst c) -> In (a, u) c -> push x k c a = x a + dir a u * k.
  Proof.
    induction c as [|[b v] c IH]; intros x k a u Hn H; [destruct H|].
    cbn [map fst] in Hn. apply NoDup_cons_iff in Hn. destruct Hn as [N1 N2]. cbn [push].
    destruct H as [H | H].
    - inversion H; subst. rewrite push_out by auto. apply fupd_eq.
    - rewrite (IH _ k a u) by auto. rewrite fupd_neq; auto. intros ->. apply N1. apply in_map_iff. exists (b, u). auto.
  Qed.

  Lemma dir_inc : forall a u v w, 0 <= a < m -> conn a u w ->
    dir a u * inc a v = (if u =? v then 1 else 0) - (if w =? v then 1 else 0).
  Proof.
    intros a u v w Ha Hc. pose proof (arc_ends a Ha) as [Hne _]. unfold dir, inc.
    destruct Hc as [[<- <-] | [<- <-]].
    - rewrite Z.eqb_refl. lia.
    - destruct (Z.eqb_spec (tl_ a) (hd_ a)); [tauto|]. lia.
  Qed.

  (** A sum weighted by potential differences telescopes. *)
  Lemma push_sum : forall g c x k w l, NoDup l -> (forall a, 0 <= a < m -> In a l) -> walk c w ->
    lsum (fun b => g b * push x k c b) l =
    lsum (fun b => g b * x b) l + k * fold_right (fun au s => dir (fst au) (snd au) * g (fst au) + s) 0 c.
  Proof.
    intros g. induction c as [|[a u] c IH]; intros x k w l Hn Hl Hw.
    - simpl. lia.
    - rewrite walk_cons in Hw. destruct Hw as (Ha & Hc & Hw). cbn [push fold_right fst snd].
      rewrite (IH _ k w) by auto. rewrite lsum_fupd by auto. lia.
  Qed.

  Lemma walk_inc : forall v c w, walk c w ->
    fold_right (fun au s => dir (fst au) (snd au) * inc (fst au) v + s) 0 c =
    (if start c w =? v then 1 else 0) - (if w =? v then 1 else 0).
  Proof.
    intros v. induction c as [|[a u] c IH]; intros w Hw.
    - simpl. lia.
    - rewrite walk_cons in Hw. destruct Hw as (Ha & Hc & Hw). cbn [fold_right fst snd]. rewrite (IH w Hw).
      rewrite (dir_inc a u v (start c w)) by auto. simpl start. lia.
  Qed.

  (** Conservation is kept by pushing along a closed walk. *)
  Lemma push_conserve : forall c w x k v, walk c w -> start c w = w ->
    lsum (fun a => inc a v * push x k c a) (arange 0 m) = lsum (fun a => inc a v * x a) (arange 0 m).
  Proof.
    intros c w x k v Hw Hs. rewrite (push_sum _ c x k w).
    - rewrite walk_inc with (w := w) by auto. rewrite Hs. lia.
    - apply arange_nodup.
    - intros a Ha. now apply arange_in.
    - auto.
  Qed.

  (** Reduced costs. *)
  Definition rc (pi : Z -> Z) (a : Z) : Z := cost_ a - pi (tl_ a) + pi (hd_ a).

  Lemma dir_pi : forall pi a u w, 0 <= a < m -> conn a u w ->
    dir a u * cost_ a = dir a u * rc pi a + pi u - pi w.
  Proof.
    intros pi a u w Ha Hc. pose proof (arc_ends a Ha) as [Hne _]. unfold dir, rc.
    destruct Hc as [[<- <-] | [<- <-]].
    - rewrite Z.eqb_refl. lia.
    - destruct (Z.eqb_spec (tl_ a) (hd_ a)); [tauto|]. lia.
  Qed.

  Lemma walk_cost : forall pi c w, walk c w ->
    fold_right (fun au s => dir (fst au) (snd au) * cost_ (fst au) + s) 0 c =
    fold_right (fun au s => dir (fst au) (snd au) * rc pi (fst au) + s) 0 c + pi (start c w) - pi w.
  Proof.
    intros pi. induction c as [|[a u] c IH]; intros w Hw.
    - simpl. lia.
    - rewrite walk_cons in Hw. destruct Hw as (Ha & Hc & Hw). cbn [fold_right fst snd]. rewrite (IH w Hw).
      rewrite (dir_pi pi a u (start c w)) by auto. simpl start. lia.
  Qed.

  (** * Model functions on functions *)
  Variable N : net.
  Hypothesis NR : netrep N.

  Lemma reduced_cost_correct : forall pots pi fl x a, earr n pots pi -> earr m fl x -> 0 <= a < e ->
    reduced_cost N pots fl a = Done (if x a =? 0 then rc pi a else - rc pi a).
  Proof.
    intros pots pi fl x a Hp Hx Ha. destruct NR as [_ _ _ Rt Rh Rc _]. destruct G as [G1 G2 _ _ _ _ _ _].
    assert (Hm : 0 <= a < m) by lia. pose proof (arc_real a Ha) as (A1 & A2 & A3).
    unfold reduced_cost. rewrite (earr_get _ _ _ _ Rc Hm), (earr_get _ _ _ _ Rt Hm). cbn [obind].
    rewrite (earr_get _ _ _ _ Hp) by lia. cbn [obind]. rewrite (earr_get _ _ _ _ Rh Hm). cbn [obind].
    rewrite A3. rewrite (earr_get _ _ _ _ Hp) by lia. cbn [obind]. rewrite (earr_get _ _ _ _ Hx Hm). reflexivity.
  Qed.

  Lemma residual_correct : forall fl x a u, earr m fl x -> 0 <= a < m -> residual N fl a u = Done (res x a u).
  Proof.
    intros fl x a u Hx Ha. destruct NR as [_ _ _ Rt _ _ Rk]. unfold residual, res.
    rewrite (earr_get _ _ _ _ Rt Ha). cbn [obind]. destruct (tl_ a =? u).
    - rewrite (earr_get _ _ _ _ Rk Ha), (earr_get _ _ _ _ Hx Ha). reflexivity.
    - apply (earr_get _ _ _ _ Hx Ha).
  Qed.

  Lemma augment_correct : forall c fl x k, earr m fl x -> (forall a, In a (map fst c) -> 0 <= a < m) ->
    exists fl', augment N fl k c = Done fl' /\ earr m fl' (push x k c).
  Proof.
    destruct NR as [_ _ _ Rt _ _ _].
    induction c as [|[a u] c IH]; intros fl x k Hx Hc.
    - exists fl. auto.
    - assert (Ha : 0 <= a < m) by (apply Hc; simpl; auto). cbn [augment].
      rewrite (earr_get _ _ _ _ Rt Ha). cbn [obind]. rewrite (earr_get _ _ _ _ Hx Ha). cbn [obind].
      replace (if tl_ a =? u then x a + k else x a - k) with (x a + dir a u * k)
        by (unfold dir; destruct (tl_ a =? u); lia).
      destruct (earr_set _ _ _ a (x a + dir a u * k) Hx Ha) as (fl1 & -> & H1). cbn [obind].
      destruct (IH fl1 _ k H1) as (fl2 & -> & H2); [intros b Hb; apply Hc; simpl; auto|].
      exists fl2. auto.
  Qed.

  Lemma leaving_loop_correct : forall rest fl x j s pre_, earr m fl x ->
    (forall a, In a (map fst rest) -> 0 <= a < m) ->
    (forall a u, In (a, u) pre_ -> res x j s < res x a u) ->
    forall mid, (forall a u, In (a, u) mid -> res x j s <= res x a u) ->
    exists j' s' c1 c2, leaving_loop N fl j s (res x j s) rest = Done (j', s') /\
      pre_ ++ (j, s) :: mid ++ rest = c1 ++ (j', s') :: c2 /\
      (forall a u, In (a, u) c1 -> res x j' s' < res x a u) /\
      (forall a u, In (a, u) c2 -> res x j' s' <= res x a u).
  Proof.
    induction rest as [|[a u] rest IH]; intros fl x j s pre_ Hx Hr Hp mid Hm.
    - exists j, s, pre_, mid. rewrite app_nil_r. auto.
    - cbn [leaving_loop]. rewrite (residual_correct fl x a u Hx) by (apply Hr; simpl; auto). cbn [obind].
      destruct (Z.ltb_spec (res x a u) (res x j s)).
      + destruct (IH fl x a u (pre_ ++ (j, s) :: mid)) with (mid := @nil (Z * Z)) as (j' & s' & c1 & c2 & E & E2 & H1 & H2); auto.
        * intros b Hb. apply Hr. simpl. auto.
        * intros b v Hb. rewrite in_app_iff in Hb. destruct Hb as [Hb | [Hb | Hb]].
          -- specialize (Hp _ _ Hb). lia.
          -- inversion Hb. subst. lia.
          -- specialize (Hm _ _ Hb). lia.
        * intros b v [].
        * exists j', s', c1, c2. split; auto. split; auto. rewrite <- E2. rewrite <- app_assoc. reflexivity.
      + destruct (IH fl x j s pre_) with (mid := mid ++ [(a, u)]) as (j' & s' & c1 & c2 & E & E2 & H1 & H2); auto.
        * intros b Hb. apply Hr. simpl. auto.
        * intros b v Hb. rewrite in_app_iff in Hb. destruct Hb as [Hb | [Hb | []]]; auto. inversion Hb. subst. lia.
        * exists j', s', c1, c2. split; auto. split; auto. rewrite <- E2. rewrite <- app_assoc. reflexivity.
  Qed.

  Lemma find_leaving_correct : forall c fl x, c <> [] -> earr m fl x -> (forall a, In a (map fst c) -> 0 <= a < m) ->
    exists j s c1 c2, c = c1 ++ (j, s) :: c2 /\
      (forall a u, In (a, u) c1 -> res x j s < res x a u) /\
      (forall a u, In (a, u) c2 -> res x j s <= res x a u) /\
      find_leaving_edge N fl c = Done (j, s, if tl_ j =? s then fhd j else tl_ j).
  Proof.
    intros [|[j0 s0] rest] fl x Hne Hx Hc; [congruence|]. unfold find_leaving_edge.
    rewrite (residual_correct fl x j0 s0 Hx) by (apply Hc; simpl; auto). cbn [obind].
    destruct (leaving_loop_correct rest fl x j0 s0 [] Hx) with (mid := @nil (Z * Z)) as (j & s & c1 & c2 & E & E2 & H1 & H2).
    - intros a Ha. apply Hc. simpl. auto.
    - intros a u [].
    - intros a u [].
    - cbn [app] in E2. rewrite E. cbn [obind].
      assert (Hj : 0 <= j < m). { apply Hc. rewrite E2, map_app, in_app_iff. simpl. auto. }
      destruct NR as [_ _ _ Rt Rh _ _]. rewrite (earr_get _ _ _ _ Rt Hj). cbn [obind].
      exists j, s, c1, c2. repeat split; auto.
      destruct (tl_ j =? s); auto. rewrite (earr_get _ _ _ _ Rh Hj). reflexivity.
  Qed.

  (** * The search for an entering edge *)
  Definition srch (x pi : Z -> Z) (a : Z) : Z := if x a =? 0 then rc pi a else - rc pi a.

  Lemma best_edge_correct : forall js pots pi fl x i, earr n pots pi -> earr m fl x ->
    (forall a, In a js -> 0 <= a < e) ->
    exists i', best_edge N pots fl i (srch x pi i) js = Done (i', srch x pi i') /\ In i' (i :: js) /\
      (forall a, In a (i :: js) -> srch x pi i' <= srch x pi a).
  Proof.
    induction js as [|j js IH]; intros pots pi fl x i Hp Hx Hj.
    - exists i. split; [reflexivity|]. split; [simpl; auto|]. intros a [<- | []]. lia.
    - cbn [best_edge]. rewrite (reduced_cost_correct pots pi fl x j Hp Hx) by (apply Hj; simpl; auto). cbn [obind].
      fold (srch x pi j). destruct (Z.ltb_spec (srch x pi j) (srch x pi i)).
      + destruct (IH pots pi fl x j Hp Hx) as (i' & E & H1 & H2); [intros; apply Hj; simpl; auto|].
        exists i'. split; auto. split; [simpl in *; tauto|]. intros a [<- | Ha]; auto.
        specialize (H2 j ltac:(simpl; auto)). lia.
      + destruct (IH pots pi fl x i Hp Hx) as (i' & E & H1 & H2); [intros; apply Hj; simpl; auto|].
        exists i'. split; auto. split; [simpl in *; tauto|]. intros a [<- | [<- | Ha]].
        * apply H2. simpl. auto.
        * specialize (H2 i ltac:(simpl; auto)). lia.
        * apply H2. simpl. auto.
  Qed.

  (** Blocks and the positions covered so far. *)
  Lemma block_edges_spec : forall f, 0 <= f <= e -> let '(l, f') := block_edges N f in
    l <> [] /\ (forall a, In a l -> 0 <= a < e) /\ 0 <= f' <= e /\
    (forall k, 0 <= k < block N -> In ((f + k) mod e) l) /\ (f' = f + block N \/ f' = f + block N - e).
  Proof.
    intros f Hf. destruct NR as [_ Ee EB _ _ _ _]. pose proof e_pos as Hpos. unfold block_edges. rewrite Ee.
    destruct (Z.leb_spec (f + block N) e).
    - split; [|split; [|split; [|split]]]; try lia.
      + intros Q. assert (In f (arange f (f + block N))) by (apply arange_in; lia). rewrite Q in *. simpl in *. tauto.
      + intros a Ha. apply arange_in in Ha. lia.
      + intros k Hk. apply arange_in. rewrite Z.mod_small by lia. lia.
    - split; [|split; [|split; [|split]]]; try lia.
      + intros Q. apply app_eq_nil in Q. destruct Q as [_ Q].
        assert (In 0 (arange 0 (f + block N - e))) by (apply arange_in; lia). rewrite Q in *. simpl in *. tauto.
      + intros a Ha. apply in_app_iff in Ha. rewrite !arange_in in Ha. lia.
      + intros k Hk. rewrite in_app_iff, !arange_in. destruct (Z_lt_ge_dec (f + k) e).
        * rewrite Z.mod_small by lia. lia.
        * right. replace (f + k) with (f + k - e + 1 * e) by lia. rewrite Z.mod_add by lia. rewrite Z.mod_small by lia. lia.
  Qed.

  Lemma find_entering_correct : forall b pots pi fl x f, earr n pots pi -> earr m fl x -> 0 <= f <= e ->
    (find_entering N b pots fl f = Done None /\
      forall k, 0 <= k < Z.of_nat b * block N -> 0 <= srch x pi ((f + k) mod e)) \/
    (exists i f', find_entering N b pots fl f =
        Done (Some (if x i =? 0 then (i, tl_ i, hd_ i, f') else (i, hd_ i, tl_ i, f'))) /\
      0 <= i < e /\ 0 <= f' <= e /\ srch x pi i < 0).
  Proof.
    induction b as [|b IH]; intros pots pi fl x f Hp Hx Hf.
    - left. split; [reflexivity|]. intros k Hk. lia.
    - cbn [find_entering]. pose proof (block_edges_spec f Hf) as HB. destruct (block_edges N f) as [l f'].
      destruct HB as (H1 & H2 & H3 & H4 & H5). destruct l as [|i0 js]; [congruence|].
      rewrite (reduced_cost_correct pots pi fl x i0 Hp Hx) by (apply H2; simpl; auto). cbn [obind].
      fold (srch x pi i0).
      destruct (best_edge_correct js pots pi fl x i0 Hp Hx) as (i & E & Hi & Hmin); [intros; apply H2; simpl; auto|].
      rewrite E. cbn [obind]. destruct (Z.leb_spec 0 (srch x pi i)) as [Hc | Hc].
      + destruct (IH pots pi fl x f' Hp Hx H3) as [[E2 Hk] | Hs]; [left | right; exact Hs].
        split; auto. intros k Hkk. destruct (Z_lt_ge_dec k (block N)) as [Hlt | Hge].
        * specialize (H4 k ltac:(lia)). specialize (Hmin _ H4). lia.
        * specialize (Hk (k - block N)). replace ((f + k) mod e) with ((f' + (k - block N)) mod e).
          -- apply Hk. lia.
          -- pose proof e_pos. destruct H5 as [-> | ->].
             ++ f_equal. lia.
             ++ replace (f + k) with (f + block N - e + (k - block N) + 1 * e) by lia. now rewrite Z.mod_add by lia.
      + assert (Hie : 0 <= i < e) by (apply H2; auto).
        pose proof e_pos. assert (Him : 0 <= i < m) by (destruct G; lia).
        pose proof (arc_real i Hie) as (_ & _ & A3).
        destruct NR as [_ _ _ Rt Rh _ _].
        rewrite (earr_get _ _ _ _ Hx Him), (earr_get _ _ _ _ Rt Him), (earr_get _ _ _ _ Rh Him). cbn [obind]. rewrite A3.
        right. exists i, f'. repeat split; auto; lia.
  Qed.

  Lemma find_entering_edges_correct : forall pots pi fl x f, earr n pots pi -> earr m fl x -> 0 <= f <= e ->
    (find_entering_edges N pots fl f = Done None /\ forall a, 0 <= a < e -> 0 <= srch x pi a) \/
    (exists i f', find_entering_edges N pots fl f =
        Done (Some (if x i =? 0 then (i, tl_ i, hd_ i, f') else (i, hd_ i, tl_ i, f'))) /\
      0 <= i < e /\ 0 <= f' <= e /\ srch x pi i < 0).
  Proof.
    intros pots pi fl x f Hp Hx Hf. unfold find_entering_edges.
    destruct (find_entering_correct (n_blocks N) pots pi fl x f Hp Hx Hf) as [[E H] | H]; [left | right; exact H].
    split; auto. intros a Ha. pose proof e_pos. specialize (H ((a - f) mod e)).
    replace a with ((f + (a - f) mod e) mod e).
    - apply H. split; [apply Z.mod_pos_bound; lia|].
      destruct NR as [_ Ee EB _ _ _ _]. unfold n_blocks. rewrite Ee.
      rewrite Z2Nat.id by (apply Z.div_pos; lia).
      pose proof (Z.mod_pos_bound (a - f) e ltac:(lia)).
      pose proof (Z.div_mod (e + block N - 1) (block N) ltac:(lia)).
      pose proof (Z.mod_pos_bound (e + block N - 1) (block N) ltac:(lia)). nia.
    - rewrite Z.add_mod_idemp_r by lia. replace (f + (a - f)) with a by lia. apply Z.mod_small. auto.
  Qed.
  End Good.
End Net.
