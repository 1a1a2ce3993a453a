(** C01, C02: the integer lattice batches and their caches. *)
From Coq Require Import List ZArith Arith Lia.
From Verif Require Import Base Spec Outcome LatticeModel LatticeProofs LatticeProofs2
  CacheModel CacheProofs.
Import ListNotations.

(** ** C01 *)

(** Batch [d] is the shell of radius [d], each vector once. *)
Theorem C01_batch_is_shell : forall dims d, 1 <= dims ->
  exists batch, gen_item dims d = Done batch /\ NoDup batch /\
    forall v, In v batch <-> in_shell dims d v.
Proof. exact gen_item_correct. Qed.

(** Every integer vector is in exactly one batch. *)
Theorem C01_every_vector_in_one_batch : forall dims v, 1 <= dims -> length v = dims ->
  exists! d, exists batch, gen_item dims d = Done batch /\ In v batch.
Proof.
  intros dims v Hd Hl.
  assert (Hz : (0 <= zsq v)%Z) by (clear; induction v; simpl; nia).
  set (r := Z.sqrt_up (zsq v)).
  assert (Hr : (0 <= r)%Z) by apply Z.sqrt_up_nonneg.
  assert (Hsh : in_shell dims (Z.to_nat r) v).
  { unfold in_shell. split; auto. destruct (Z.eq_dec (zsq v) 0) as [E|E].
    - assert (Er : r = 0%Z) by (unfold r; rewrite E; reflexivity). rewrite Er. simpl. split; auto. lia.
    - pose proof (Z.sqrt_up_spec (zsq v)) as Hs. fold r in Hs. rewrite Z2Nat.id by auto.
      specialize (Hs ltac:(lia)). split; [lia|right; lia]. }
  exists (Z.to_nat r). split.
  - destruct (gen_item_correct dims (Z.to_nat r) Hd) as (b & Hb & _ & Hin).
    exists b. split; auto. apply Hin; auto.
  - intros d (b & Hb & Hv). destruct (gen_item_correct dims d Hd) as (b' & Hb' & _ & Hin).
    assert (b' = b) by congruence. subst b'. apply Hin in Hv.
    destruct Hv as (_ & H1 & H2), Hsh as (_ & H3 & H4).
    set (e := Z.to_nat r) in *. clearbody e. nia.
Qed.

Example C01_example_2d : gen_item 2 1 = Done [[0; 1]; [1; 0]; [-1; 0]; [0; -1]]%Z.
Proof. reflexivity. Qed.
Example C01_example_3d : exists b, gen_item 3 2 = Done b /\ length b = 26 /\ In [1; -1; 1]%Z b.
Proof. eexists; split; [reflexivity|]. split; [reflexivity|]. vm_compute. tauto. Qed.

(** ** C02 *)

(** A cache-free reference machine: a request is answered as in a fresh process
    ([fresh_request] runs the code on the initial state); each iterator handed out is
    just a dimension and a position, independent of all others. *)

(** Whatever the history of requests and advances, all outputs (initial points and
    all batches taken from any iterator, in any interleaving) are those of the
    cache-free machine. *)
Theorem C02_history_independent : forall ops : list op,
  (forall dims m k, In (Request dims m k) ops -> 1 <= dims /\ 1 <= m) ->
  run cinit [] ops = arun [] ops.
Proof.
  intros ops H. apply run_refines.
  - apply Forall_forall. intros [dims m k| |] Ho; simpl; auto. apply (H dims m k Ho).
  - apply cinv_init.
  - apply handles_init.
Qed.

(** [b] lists the integer vectors of norm at most [r], once each. *)
Definition is_ball (dims r : nat) (b : list (list Z)) : Prop :=
  NoDup b /\ forall v, In v b <-> length v = dims /\ (zsq v <= Z.of_nat r * Z.of_nat r)%Z.

Lemma layers_ball : forall dims r, 1 <= dims -> is_ball dims r (concat (layers dims (S r))).
Proof.
  intros dims r Hd. induction r as [|r [IH1 IH2]].
  - unfold layers. simpl. rewrite app_nil_r. destruct (layer_spec dims 0 Hd) as (_ & Hn & Hin).
    split; auto. intros v. rewrite Hin. unfold in_shell. simpl. tauto.
  - rewrite layers_S, concat_app. simpl. rewrite app_nil_r.
    destruct (layer_spec dims (S r) Hd) as (_ & Hn & Hin). split.
    + apply NoDup_app_intro; auto. intros v H1 H2. apply IH2 in H1 as [_ H1].
      apply Hin in H2 as (_ & _ & [H2|H2]); [discriminate|]. nia.
    + intros v. rewrite in_app_iff, IH2, Hin. unfold in_shell. split.
      * intros [[H1 H2]|(H1 & H2 & _)]; split; auto. nia.
      * intros [H1 H2]. destruct (Z_le_gt_dec (zsq v) (Z.of_nat r * Z.of_nat r)); auto.
        right. split; auto. split; auto. right. nia.
Qed.

Lemma ball_length : forall dims r b, 1 <= dims -> is_ball dims r b -> length b = tot dims r.
Proof.
  intros dims r b Hd [H1 H2]. destruct (layers_ball dims r Hd) as [H3 H4]. unfold tot.
  apply Nat.le_antisymm; apply NoDup_incl_length; auto; intros v Hv.
  - apply H4, H2; auto.
  - apply H2, H4; auto.
Qed.

(** What a (fresh) request returns: the ball of radius [i + 1], where [i] is the least
    radius whose ball has more than [k / m] points, and an iterator for the batches
    [i + 2], [i + 3], ... *)
Theorem C02_fresh_request : forall dims m k, 1 <= dims -> 1 <= m ->
  exists pts i, fresh_request dims m k = Done (pts, i + 2) /\
    is_ball dims (i + 1) pts /\
    (forall b, is_ball dims i b -> k < length b * m) /\
    (forall j b, j < i -> is_ball dims j b -> length b * m <= k).
Proof.
  intros dims m k Hd Hm. destruct (stop_exists dims m k Hd Hm) as (i & Hs1 & Hs2).
  exists (concat (layers dims (i + 2))), i. split; [apply (fresh_request_eq dims m k i); auto; split; auto|].
  replace (i + 2) with (S (i + 1)) by lia. split; [apply layers_ball; auto|].
  split.
  - intros b Hb. rewrite (ball_length dims i b); auto.
  - intros j b Hj Hb. rewrite (ball_length dims j b); auto.
Qed.

(** A history with a cache miss, a hit, a different dimension and interleaved
    iterator use. *)
Definition example_history : list op :=
  [Request 2 1 3; Next 0; Request 1 2 5; Next 0; Request 2 1 4; Next 2; Generator 2; Next 3;
   Request 2 2 3; Next 4; Next 1].
Example C02_example :
  (forall dims m k, In (Request dims m k) example_history -> 1 <= dims /\ 1 <= m) /\
  exists outs, run cinit [] example_history = Done outs /\ length outs = 11.
Proof.
  split.
  - simpl. intros dims m k H.
    repeat (destruct H as [H|H]; [try discriminate H; injection H as <- <- <-; lia|]). destruct H.
  - eexists. split; [vm_compute; reflexivity|reflexivity].
Qed.
Example C02_example_request : fresh_request 1 2 5 = Done ([[0]; [-1]; [1]; [-2]; [2]]%Z, 3).
Proof. reflexivity. Qed.

Print Assumptions C01_batch_is_shell.
Print Assumptions C01_every_vector_in_one_batch.
Print Assumptions C02_history_independent.
Print Assumptions C02_fresh_request.
