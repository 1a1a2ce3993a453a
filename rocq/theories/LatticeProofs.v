(** Proofs about the integer lattice generator. *)
From Coq Require Import List ZArith Arith Bool Lia Permutation.
From Verif Require Import Base Outcome LatticeModel.
Import ListNotations.
Open Scope outcome_scope.

(** * product *)
Lemma product_range_In : forall a r xy,
  In xy (product_range a r) <-> length xy = r /\ Forall (fun i => i < a) xy.
Proof.
  induction r as [|r IH]; intros xy; simpl.
  - split.
    + intros [<-|[]]; auto.
    + intros [H _]. destruct xy; [auto|discriminate].
  - rewrite in_flat_map. split.
    + intros (i & Hi & Hx). apply in_seq in Hi. apply in_map_iff in Hx as (t & <- & Ht).
      apply IH in Ht as [H1 H2]. split; simpl; auto. constructor; auto. lia.
    + intros [H1 H2]. destruct xy as [|i t]; [discriminate|]. simpl in H1. injection H1 as H1.
      inversion H2; subst. exists i. split; [apply in_seq; lia|].
      apply in_map, IH; auto.
Qed.

(** * Radial counts *)
Definition cnt (d : nat) (xy : list nat) : nat :=
  if sumsq xy <=? d * d then S (Nat.sqrt (d * d - sumsq xy)) else 0.

Lemma cnt_spec : forall d xy y, y < cnt d xy <-> sumsq xy + y * y <= d * d.
Proof.
  intros d xy y. unfold cnt. destruct (Nat.leb_spec (sumsq xy) (d * d)) as [H|H]; [|lia].
  pose proof (Nat.sqrt_spec (d * d - sumsq xy) (Nat.le_0_l _)) as [S1 S2].
  set (q := Nat.sqrt (d * d - sumsq xy)) in *. split; intros Hy.
  - assert (y * y <= q * q) by (apply Nat.mul_le_mono; lia). lia.
  - destruct (Nat.lt_ge_cases y (S q)); auto.
    assert (S q * S q <= y * y) by (apply Nat.mul_le_mono; lia). lia.
Qed.

Lemma cnt_le : forall d xy, cnt d xy <= S d.
Proof.
  intros. destruct (Nat.le_gt_cases (cnt d xy) (S d)) as [|H]; auto.
  apply cnt_spec in H. nia.
Qed.

Lemma cnt_mono : forall d xy, cnt d xy <= cnt (S d) xy.
Proof.
  intros. destruct (Nat.le_gt_cases (cnt d xy) (cnt (S d) xy)) as [|H]; auto.
  apply cnt_spec in H. assert (cnt (S d) xy < cnt (S d) xy); [|lia].
  apply cnt_spec. nia.
Qed.

Lemma sumsq_ge : forall xy i, In i xy -> i * i <= sumsq xy.
Proof.
  induction xy as [|a t IH]; simpl; intros i H; [destruct H|].
  destruct H as [->|H]; [lia|]. apply IH in H. lia.
Qed.

Lemma cnt_out : forall d xy, ~ Forall (fun i => i < d + 1) xy -> cnt d xy = 0.
Proof.
  intros d xy H. destruct (cnt d xy) eqn:E; auto. exfalso. apply H.
  apply Forall_forall. intros i Hi. apply sumsq_ge in Hi.
  assert (0 < cnt d xy) by lia. apply cnt_spec in H0. nia.
Qed.

(** * The passes *)
Record pinv (r d : nat) (h0 h : heights) (acc : list (list nat)) : Prop := {
  pi_low : forall xy, length xy = r -> h0 xy <= h xy;
  pi_high : forall xy, length xy = r -> h xy <= Nat.max (h0 xy) (cnt d xy);
  pi_In : forall p, In p acc <-> exists xy y, p = xy ++ [y] /\ length xy = r /\ h0 xy <= y < h xy;
  pi_nodup : NoDup acc
}.

Lemma hset_same : forall h xy v, hset h xy v xy = v.
Proof. intros. unfold hset. destruct (list_eq_dec Nat.eq_dec xy xy); congruence. Qed.
Lemma hset_other : forall h xy v z, z <> xy -> hset h xy v z = h z.
Proof. intros. unfold hset. destruct (list_eq_dec Nat.eq_dec z xy); congruence. Qed.

Lemma pass_step_eq : forall d h acc b xy, pass_step d (h, acc, b) xy =
  if sumsq xy + h xy * h xy <=? d * d
  then (hset h xy (S (h xy)), acc ++ [xy ++ [h xy]], true) else (h, acc, b).
Proof. reflexivity. Qed.

Lemma pass_step_inv : forall r d h0 h acc b xy, length xy = r ->
  pinv r d h0 h acc ->
  let '(h', acc', _) := pass_step d (h, acc, b) xy in pinv r d h0 h' acc'.
Proof.
  intros r d h0 h acc b xy Hr [H1 H2 H3 H4]. unfold pass_step.
  destruct (Nat.leb_spec (sumsq xy + h xy * h xy) (d * d)) as [Hc|Hc]; [|constructor; auto].
  apply cnt_spec in Hc.
  constructor.
  - intros z Hz. destruct (list_eq_dec Nat.eq_dec z xy) as [->|Hne].
    + rewrite hset_same. specialize (H1 _ Hr). lia.
    + rewrite hset_other by auto. auto.
  - intros z Hz. destruct (list_eq_dec Nat.eq_dec z xy) as [->|Hne].
    + rewrite hset_same. lia.
    + rewrite hset_other by auto. auto.
  - intros p. rewrite in_app_iff, H3. split.
    + intros [(z & y & -> & Hz & Hy)|[<-|[]]].
      * exists z, y. repeat split; auto; try lia.
        destruct (list_eq_dec Nat.eq_dec z xy) as [->|Hne];
          [rewrite hset_same; lia | rewrite hset_other by auto; lia].
      * exists xy, (h xy). rewrite hset_same. repeat split; auto.
    + intros (z & y & -> & Hz & Hy).
      destruct (list_eq_dec Nat.eq_dec z xy) as [->|Hne].
      * rewrite hset_same in Hy. destruct (Nat.eq_dec y (h xy)) as [->|].
        -- right; left; auto.
        -- left. exists xy, y. repeat split; auto; lia.
      * rewrite hset_other in Hy by auto. left. exists z, y. auto.
  - apply NoDup_app_intro; auto; [constructor; [intros []|constructor]|].
    intros p Hp [<-|[]]. apply H3 in Hp as (z & y & E & Hz & Hy).
    apply app_inj_tail in E as [<- <-]. lia.
Qed.

Lemma pass_fold_inv : forall r d h0 xs h acc b, Forall (fun xy => length xy = r) xs ->
  pinv r d h0 h acc ->
  let '(h', acc', _) := fold_left (pass_step d) xs (h, acc, b) in
  pinv r d h0 h' acc' /\ (forall z, h z <= h' z) /\
  (forall z, In z xs -> Nat.min (cnt d z) (S (h z)) <= h' z).
Proof.
  induction xs as [|xy xs IH]; intros h acc b Hall Hinv; simpl.
  - split; [auto|split; [auto|intros z []]].
  - inversion Hall; subst.
    pose proof (pass_step_inv (length xy) d h0 h acc b xy eq_refl Hinv) as Hs.
    assert (Hm : let '(h1, _, _) := pass_step d (h, acc, b) xy in
                 (forall z, h z <= h1 z) /\ Nat.min (cnt d xy) (S (h xy)) <= h1 xy).
    { unfold pass_step. destruct (Nat.leb_spec (sumsq xy + h xy * h xy) (d * d)) as [Hc|Hc].
      - split.
        + intros z. destruct (list_eq_dec Nat.eq_dec z xy) as [->|Hne];
          [rewrite hset_same; lia | rewrite hset_other by auto; lia].
        + rewrite hset_same. lia.
      - split; auto.
        destruct (Nat.le_gt_cases (cnt d xy) (h xy)) as [|Hgt]; [lia|].
        apply cnt_spec in Hgt. lia. }
    change (if sumsq xy + h xy * h xy <=? d * d
            then (hset h xy (S (h xy)), acc ++ [xy ++ [h xy]], true) else (h, acc, b))
      with (pass_step d (h, acc, b) xy).
    destruct (pass_step d (h, acc, b) xy) as [[h1 acc1] b1] eqn:E1. destruct Hm as [Hm1 Hm2].
    specialize (IH h1 acc1 b1 H2 Hs).
    destruct (fold_left (pass_step d) xs (h1, acc1, b1)) as [[h2 acc2] b2].
    destruct IH as (I1 & I2 & I3). split; auto. split.
    + intros z. etransitivity; [apply Hm1|apply I2].
    + intros z [<-|Hz].
      * etransitivity; [apply Hm2|apply I2].
      * specialize (I3 z Hz). specialize (Hm1 z). lia.
Qed.

(** When nothing was appended, nothing changed and no column was below its count. *)
Lemma pass_fold_nobatch : forall d xs h acc b h' acc',
  fold_left (pass_step d) xs (h, acc, b) = (h', acc', false) ->
  b = false /\ h' = h /\ acc' = acc /\ forall z, In z xs -> cnt d z <= h z.
Proof.
  induction xs as [|xy xs IH]; intros h acc b h' acc' E.
  - simpl in E. injection E as -> -> ->. repeat split; auto. intros z [].
  - cbn [fold_left] in E. rewrite pass_step_eq in E.
    destruct (Nat.leb_spec (sumsq xy + h xy * h xy) (d * d)) as [Hc|Hc].
    + apply IH in E. destruct E; discriminate.
    + apply IH in E as (-> & -> & -> & Hz). repeat split; auto.
      intros z [<-|Hin]; auto.
      destruct (Nat.le_gt_cases (cnt d xy) (h xy)) as [|Hgt]; auto.
      apply cnt_spec in Hgt. lia.
Qed.

Lemma pass_fold_batch : forall d xs h acc h' acc' b,
  (forall z, In z xs -> cnt d z <= h z) ->
  fold_left (pass_step d) xs (h, acc, b) = (h', acc', true) -> b = true.
Proof.
  induction xs as [|xy xs IH]; intros h acc h' acc' b Hz E.
  - simpl in E. congruence.
  - cbn [fold_left] in E. rewrite pass_step_eq in E.
    destruct (Nat.leb_spec (sumsq xy + h xy * h xy) (d * d)) as [Hc|Hc].
    + apply cnt_spec in Hc. specialize (Hz xy (or_introl eq_refl)). lia.
    + eapply IH; [|exact E]. intros; apply Hz; right; auto.
Qed.

Lemma passes_correct : forall r d h0, (forall xy, length xy = r -> h0 xy <= cnt d xy) ->
  forall fuel p h acc, fuel + p >= d + 2 -> fuel >= 1 ->
  pinv r d h0 h acc ->
  (forall xy, length xy = r -> Nat.min (cnt d xy) p <= h xy) ->
  exists h' acc', passes fuel (S r) d h acc = Done (h', acc') /\
    pinv r d h0 h' acc' /\ forall xy, length xy = r -> h' xy = cnt d xy.
Proof.
  intros r d h0 Hh0. induction fuel as [|fuel IH]; intros p h acc Hf Hf1 Hinv Hprog; [lia|].
  simpl passes.
  assert (Hall : Forall (fun xy => length xy = r) (product_range (d + 1) r)).
  { apply Forall_forall. intros xy Hx. apply product_range_In in Hx. tauto. }
  destruct (pass (S r) d h acc) as [[h1 acc1] b1] eqn:E1.
  pose proof (pass_fold_inv r d h0 _ h acc false Hall Hinv) as Hp.
  unfold pass in E1. replace (S r - 1) with r in E1 by lia. rewrite E1 in Hp.
  destruct Hp as (Hinv1 & Hmono & Hprog1).
  assert (Hout : forall xy, length xy = r -> ~ In xy (product_range (d + 1) r) -> cnt d xy = 0).
  { intros xy Hr Hn. apply cnt_out. intro F. apply Hn, product_range_In; auto. }
  destruct b1.
  - assert (Hfuel : fuel >= 1).
    { destruct fuel; [|lia]. exfalso.
      assert (false = true); [|discriminate].
      eapply pass_fold_batch; [|exact E1].
      intros z Hz. apply product_range_In in Hz as [Hr _].
      specialize (Hprog z Hr). pose proof (cnt_le d z). lia. }
    apply (IH (S p)); auto; try lia.
    intros xy Hr.
    destruct (in_dec (list_eq_dec Nat.eq_dec) xy (product_range (d + 1) r)) as [Hin|Hn].
    + specialize (Hprog1 xy Hin). specialize (Hprog xy Hr). lia.
    + rewrite Hout by auto. lia.
  - apply pass_fold_nobatch in E1 as (_ & -> & -> & Hz).
    exists h, acc. split; auto. split; auto.
    intros xy Hr. destruct Hinv as [P1 P2 _ _]. specialize (P2 xy Hr). specialize (Hh0 xy Hr).
    destruct (in_dec (list_eq_dec Nat.eq_dec) xy (product_range (d + 1) r)) as [Hin|Hn].
    + specialize (Hz xy Hin). lia.
    + rewrite Hout in * by auto. lia.
Qed.

(** Points with non-negative coordinates and (d-1)^2 < |v|^2 <= d^2. *)
Definition nat_shell (dims d : nat) (v : list nat) : Prop :=
  length v = dims /\ sumsq v <= d * d /\ (d = 0 \/ (d - 1) * (d - 1) < sumsq v).

Lemma sumsq_snoc : forall v y, sumsq (v ++ [y]) = sumsq v + y * y.
Proof. induction v; simpl; intros; [lia|]. rewrite IHv. lia. Qed.

(** Heights before radius [d]. *)
Definition hbefore (d : nat) (xy : list nat) : nat :=
  match d with O => 0 | S d' => cnt d' xy end.

Lemma hbefore_le : forall d xy, hbefore d xy <= cnt d xy.
Proof. destruct d; simpl; intros; [lia|apply cnt_mono]. Qed.

Lemma passes_layer : forall r d h, (forall xy, length xy = r -> h xy = hbefore d xy) ->
  exists h' pos, passes (d + 2) (S r) d h [] = Done (h', pos) /\
    (forall xy, length xy = r -> h' xy = cnt d xy) /\
    NoDup pos /\ forall v, In v pos <-> nat_shell (S r) d v.
Proof.
  intros r d h Hh.
  destruct (passes_correct r d h) with (fuel := d + 2) (p := 0) (h := h) (acc := @nil (list nat))
    as (h' & pos & HE & [P1 P2 P3 P4] & Hcnt); try lia.
  - intros xy Hr. rewrite Hh by auto. apply hbefore_le.
  - constructor.
    + auto.
    + intros; lia.
    + intros p. split; [intros []|]. intros (xy & y & _ & _ & Hy). lia.
    + constructor.
  - exists h', pos. repeat split; auto.
    + apply P3 in H as (xy & y & -> & Hr & Hy). rewrite app_length, Hr. simpl. lia.
    + apply P3 in H as (xy & y & -> & Hr & Hy). rewrite sumsq_snoc.
      apply cnt_spec. rewrite <- Hcnt by auto. lia.
    + apply P3 in H as (xy & y & -> & Hr & Hy). rewrite sumsq_snoc.
      destruct d as [|d]; auto. right. rewrite Hh in Hy by auto. simpl in Hy.
      replace (S d - 1) with d by lia.
      destruct (Nat.lt_ge_cases (d * d) (sumsq xy + y * y)) as [|Hle]; auto.
      apply cnt_spec in Hle. lia.
    + intros (Hl & Hs & Hd). apply P3.
      destruct (@exists_last _ v) as (xy & y & ->); [intros ->; discriminate|].
      rewrite app_length in Hl. simpl in Hl.
      exists xy, y. split; auto. split; [lia|]. rewrite sumsq_snoc in *.
      assert (Hr : length xy = r) by lia.
      split.
      * rewrite Hh by auto. destruct d as [|d]; simpl; [lia|].
        destruct Hd as [|Hd]; [discriminate|]. replace (S d - 1) with d in Hd by lia.
        destruct (Nat.le_gt_cases (cnt d xy) y) as [|Hgt]; auto.
        apply cnt_spec in Hgt. lia.
      * rewrite Hcnt by auto. apply cnt_spec. auto.
Qed.
