(** Proofs about reflections and the whole integer lattice generator. *)
From Coq Require Import List ZArith Arith Bool Lia Permutation Sorted.
From Verif Require Import Base Spec Outcome LatticeModel LatticeProofs.
Import ListNotations.
Open Scope outcome_scope.

(** * Enumeration of combinations *)
Fixpoint combs (dims r lo : nat) : list (list nat) :=
  match r with
  | O => [[]]
  | S r' => flat_map (fun a => map (cons a) (combs dims r' (S a))) (seq lo (dims - r' - lo))
  end.

Lemma combs_In : forall dims r lo x,
  In x (combs dims r lo) <->
  length x = r /\ StronglySorted lt x /\ Forall (fun a => lo <= a < dims) x.
Proof.
  induction r as [|r IH]; intros lo x; simpl.
  - split.
    + intros [<-|[]]. repeat split; constructor.
    + intros (H & _). destruct x; [auto|discriminate].
  - rewrite in_flat_map. split.
    + intros (a & Ha & Hx). apply in_seq in Ha. apply in_map_iff in Hx as (t & <- & Ht).
      apply IH in Ht as (H1 & H2 & H3). repeat split; simpl; auto.
      * constructor; auto. eapply Forall_impl; [|exact H3]. simpl; intros; lia.
      * constructor; [lia|]. eapply Forall_impl; [|exact H3]. simpl; intros; lia.
    + intros (H1 & H2 & H3). destruct x as [|a t]; [discriminate|]. simpl in H1. injection H1 as H1.
      inversion H2 as [|? ? S1 F1]; inversion H3 as [|? ? B1 B2]; subst.
      exists a. split.
      * apply in_seq.
        assert (length t <= dims - S a).
        { clear -S1 F1 B2. 
          assert (Hb : Forall (fun x => S a <= x < dims) t).
          { rewrite Forall_forall in *. intros x Hx. specialize (F1 x Hx). specialize (B2 x Hx). lia. }
          clear F1 B2. revert Hb. generalize (S a) as s. induction S1; intros s Hb; simpl; [lia|].
          inversion Hb; subst.
          assert (length l <= dims - S a0); [|lia].
          apply IHS1. rewrite Forall_forall in *. intros x Hx.
          specialize (H x Hx). specialize (H3 x Hx). lia. }
        lia.
      * apply in_map, IH. repeat split; auto.
        rewrite Forall_forall in *. intros x Hx. specialize (F1 x Hx). specialize (B2 x Hx). lia.
Qed.

Lemma combs_NoDup : forall dims r lo, NoDup (combs dims r lo).
Proof.
  induction r as [|r IH]; intros lo; simpl.
  - constructor; [intros []|constructor].
  - generalize (dims - r - lo) as c. intros c. revert lo.
    induction c as [|c IHc]; intros lo; simpl; [constructor|].
    apply NoDup_app_intro; auto.
    + apply FinFun.Injective_map_NoDup; auto. intros x y E; congruence.
    + intros x Hx Hx2. apply in_map_iff in Hx as (t & <- & _).
      apply in_flat_map in Hx2 as (a & Ha & Hx2). apply in_map_iff in Hx2 as (t2 & E & _).
      apply in_seq in Ha. injection E as -> _. lia.
Qed.

Lemma combs_length_le : forall dims r lo, length (combs dims r lo) <= 2 ^ (dims - lo).
Proof.
  induction r as [|r IH]; intros lo; simpl.
  - apply Nat.neq_0_lt_0, Nat.pow_nonzero. lia.
  - assert (Hc : forall c lo, c <= dims - lo ->
       length (flat_map (fun a => map (cons a) (combs dims r (S a))) (seq lo c)) <= 2 ^ (dims - lo)).
    { clear lo. induction c as [|c IHc]; intros lo Hc; simpl; [lia|].
      rewrite app_length, map_length. specialize (IH (S lo)). specialize (IHc (S lo)).
      replace (dims - lo) with (S (dims - S lo)) by lia. simpl. lia. }
    apply Hc. lia.
Qed.

(** Successor of a combination, without the position bookkeeping. *)
Fixpoint nxt (dims : nat) (axes : list nat) : option (list nat) :=
  match axes with
  | [] => None
  | a :: t =>
      match nxt dims t with
      | Some t' => Some (a :: t')
      | None => if a =? dims - S (length t) then None else Some (S a :: seq (S (S a)) (length t))
      end
  end.

Lemma next_axes_nxt : forall dims n axes i, n = i + length axes -> n <= dims ->
  next_axes dims n i axes = nxt dims axes.
Proof.
  induction axes as [|a t IH]; intros i Hn Hd; simpl; auto.
  simpl in Hn. rewrite IH by lia. destruct (nxt dims t); auto.
  replace (i + dims - n) with (dims - S (length t)) by lia. reflexivity.
Qed.

(** [linked l e]: each element's successor is the next one, the last one's is [e]. *)
Fixpoint linked (dims : nat) (l : list (list nat)) (e : option (list nat)) : Prop :=
  match l with
  | [] => True
  | x :: t => match t with
              | [] => nxt dims x = e
              | y :: _ => nxt dims x = Some y
              end /\ linked dims t e
  end.

Lemma linked_app : forall dims l1 l2 y e, linked dims l1 (Some y) -> linked dims (y :: l2) e ->
  linked dims (l1 ++ y :: l2) e.
Proof.
  induction l1 as [|x t IH]; intros l2 y e H1 H2; auto.
  destruct t as [|x2 t].
  - simpl in H1. simpl app. destruct H1 as [H1 _]. split; auto.
  - destruct H1 as [H1 H1']. simpl app. split; auto.
    apply (IH l2 y e) in H1'; auto.
Qed.

Lemma linked_cons : forall dims a l e, linked dims l None ->
  (forall t, In t l -> nxt dims t = None ->
     (if a =? dims - S (length t) then None else Some (S a :: seq (S (S a)) (length t))) = e) ->
  linked dims (map (cons a) l) e.
Proof.
  induction l as [|x t IH]; intros e H He; simpl; auto.
  destruct t as [|y t].
  - destruct H as [H _]. simpl. rewrite H. split; auto. apply He; simpl; auto.
  - destruct H as [H H']. simpl map. split.
    + simpl. rewrite H. reflexivity.
    + apply IH; auto. intros; apply He; auto. right; auto.
Qed.

Lemma combs_linked : forall dims r lo, lo + r <= dims ->
  linked dims (combs dims r lo) None /\ exists t, combs dims r lo = seq lo r :: t.
Proof.
  induction r as [|r IH]; intros lo Hlo.
  - simpl. split; [repeat split|]. exists []; auto.
  - simpl combs.
    assert (Hc : forall c lo, c = dims - r - lo -> 1 <= c -> lo + S r <= dims ->
      linked dims (flat_map (fun a => map (cons a) (combs dims r (S a))) (seq lo c)) None /\
      exists t, flat_map (fun a => map (cons a) (combs dims r (S a))) (seq lo c) = seq lo (S r) :: t).
    { clear lo Hlo. induction c as [|c IHc]; intros lo Ec H1 Hlo; [lia|].
      cbn [seq flat_map]. destruct (IH (S lo)) as (L1 & (t1 & E1)); [lia|].
      destruct c as [|c].
      - cbn [seq flat_map]. rewrite app_nil_r. split.
        + apply linked_cons; auto. intros t Ht _. apply combs_In in Ht as (-> & _).
          replace (dims - S r) with lo by lia. rewrite Nat.eqb_refl. reflexivity.
        + rewrite E1. simpl. eauto.
      - destruct (IHc (S lo)) as (L2 & (t2 & E2)); try lia.
        rewrite E2 in *. split.
        + apply linked_app; auto. apply linked_cons; auto.
          intros t Ht _. apply combs_In in Ht as (-> & _).
          destruct (Nat.eqb_spec lo (dims - S r)); [lia|]. reflexivity.
        + rewrite E1. simpl. eauto. }
    apply Hc; lia.
Qed.

Lemma reflect_loop_linked : forall dims n pos l x fuel, n <= dims ->
  Forall (fun a => length a = n) (x :: l) ->
  linked dims (x :: l) None -> length (x :: l) <= fuel ->
  reflect_loop fuel dims n pos x = Done (concat (map (reflect_axes pos) l)).
Proof.
  induction l as [|y l IH]; intros x fuel Hn HF HL Hf.
  - destruct fuel as [|fuel]; [simpl in Hf; lia|]. simpl. inversion HF; subst.
    rewrite next_axes_nxt by auto. destruct HL as [-> _]. reflexivity.
  - destruct fuel as [|fuel]; [simpl in Hf; lia|]. cbn [reflect_loop].
    inversion HF; subst. rewrite next_axes_nxt by auto. destruct HL as [E HL]. rewrite E.
    rewrite IH; auto. simpl in *. lia.
Qed.

(** All choices of axes. *)
Definition all_axes (dims : nat) : list (list nat) :=
  flat_map (fun n => combs dims n 0) (seq 0 (S dims)).

Lemma all_axes_In : forall dims x, In x (all_axes dims) <->
  StronglySorted lt x /\ Forall (fun a => a < dims) x.
Proof.
  intros dims x. unfold all_axes. rewrite in_flat_map. split.
  - intros (n & Hn & Hx). apply combs_In in Hx as (_ & H2 & H3). split; auto.
    eapply Forall_impl; [|exact H3]. simpl; intros; lia.
  - intros [H1 H2]. exists (length x). split.
    + apply in_seq. split; [lia|].
      assert (length x <= length (seq 0 dims)).
      { apply NoDup_incl_length.
        - clear H2. induction H1; constructor; auto.
          intro Hin. rewrite Forall_forall in H. apply H in Hin. lia.
        - intros a Ha. rewrite Forall_forall in H2. apply in_seq. specialize (H2 a Ha). lia. }
      rewrite seq_length in H. lia.
    + apply combs_In. repeat split; auto.
      eapply Forall_impl; [|exact H2]. simpl; intros; lia.
Qed.

Lemma all_axes_NoDup : forall dims, NoDup (all_axes dims).
Proof.
  intros dims. unfold all_axes.
  assert (H : forall c s, NoDup (flat_map (fun n => combs dims n 0) (seq s c))); [|apply H].
  induction c as [|c IH]; intros s; simpl; [constructor|].
  apply NoDup_app_intro; auto using combs_NoDup.
  intros x Hx Hx2. apply combs_In in Hx as [Hx _].
  apply in_flat_map in Hx2 as (n & Hn & Hx2). apply combs_In in Hx2 as [Hx2 _].
  apply in_seq in Hn. lia.
Qed.

Lemma negate_nil : forall p, negate_axes [] p = p.
Proof.
  intros p. unfold negate_axes. simpl. generalize 0 as s.
  induction p as [|a t IH]; intros s; simpl; auto. rewrite IH; auto.
Qed.

Lemma reflect_axes_nil : forall pos, reflect_axes pos [] = pos.
Proof.
  intros. unfold reflect_axes. replace (filter (off_axes []) pos) with pos.
  - rewrite (map_ext _ (fun p => p)); [apply map_id|]. apply negate_nil.
  - induction pos; simpl; auto. f_equal; auto.
Qed.

Lemma concat_map_flat_map : forall A B C (f : B -> list C) (g : A -> list B) l,
  concat (map (fun x => concat (map f (g x))) l) = concat (map f (flat_map g l)).
Proof.
  induction l as [|a t IH]; simpl; auto.
  rewrite map_app, concat_app, IH. reflexivity.
Qed.

Lemma reflect_eq : forall dims pos,
  reflect dims pos = Done (concat (map (reflect_axes pos) (all_axes dims))).
Proof.
  intros dims pos. unfold reflect.
  rewrite (omap_ok _ _ _ (fun n => concat (map (reflect_axes pos) (combs dims n 0)))).
  - cbn [obind]. f_equal. unfold all_axes. simpl seq. simpl flat_map.
    rewrite map_cons, concat_cons, reflect_axes_nil. f_equal.
    apply concat_map_flat_map.
  - intros n Hn. apply in_seq in Hn. unfold reflect_n.
    destruct (combs_linked dims n 0) as (HL & (t & Et)); [lia|].
    rewrite Et in HL.
    rewrite (reflect_loop_linked dims n pos t (seq 0 n)); auto; try lia.
    + cbn [obind]. rewrite Et. reflexivity.
    + rewrite <- Et. apply Forall_forall. intros a Ha. apply combs_In in Ha. tauto.
    + rewrite <- Et. pose proof (combs_length_le dims n 0). rewrite Nat.sub_0_r in H. auto.
Qed.

(** * Reflected points *)
Lemma negate_length : forall axes p, length (negate_axes axes p) = length p.
Proof. intros. unfold negate_axes. rewrite map_length, combine_length, seq_length. lia. Qed.

Lemma negate_nth : forall axes p i, i < length p ->
  nth i (negate_axes axes p) 0%Z =
  if existsb (Nat.eqb i) axes then (- nth i p 0)%Z else nth i p 0%Z.
Proof.
  intros axes p i Hi. unfold negate_axes.
  set (f := fun ix : nat * Z => if existsb (Nat.eqb (fst ix)) axes then (- snd ix)%Z else snd ix).
  rewrite (nth_indep _ 0%Z (f (0, 0%Z))) by (rewrite map_length, combine_length, seq_length; lia).
  rewrite map_nth, combine_nth by (rewrite seq_length; auto).
  rewrite seq_nth by auto. reflexivity.
Qed.

Definition absv (v : list Z) : list Z := map Z.abs v.
Definition axes_of (v : list Z) : list nat :=
  filter (fun i => (nth i v 0 <? 0)%Z) (seq 0 (length v)).

Lemma seq_sorted : forall n s, StronglySorted lt (seq s n).
Proof.
  induction n; intros s; simpl; constructor; auto.
  apply Forall_forall. intros x Hx. apply in_seq in Hx. lia.
Qed.

Lemma StronglySorted_filter : forall A (P : A -> A -> Prop) f l,
  StronglySorted P l -> StronglySorted P (filter f l).
Proof.
  intros A P f l H; induction H; simpl; [constructor|].
  destruct (f a); auto. constructor; auto.
  rewrite Forall_forall in *. intros x Hx. apply filter_In in Hx as [Hx _]. auto.
Qed.

Lemma lt_sorted_ext : forall l1 l2 : list nat, StronglySorted lt l1 -> StronglySorted lt l2 ->
  (forall x, In x l1 <-> In x l2) -> l1 = l2.
Proof.
  assert (N : forall l, StronglySorted lt l -> NoDup l).
  { intros l H; induction H; constructor; auto.
    rewrite Forall_forall in H0. intro Hin. apply H0 in Hin. lia. }
  intros l1 l2 H1 H2 H.
  apply StronglySorted_perm_eq with (le := le).
  - intros; lia.
  - eapply StronglySorted_impl; [|exact H1]. simpl; intros; lia.
  - eapply StronglySorted_impl; [|exact H2]. simpl; intros; lia.
  - apply NoDup_Permutation; auto.
Qed.

Lemma absv_nth : forall v i, nth i (absv v) 0%Z = Z.abs (nth i v 0%Z).
Proof. intros. unfold absv. change 0%Z with (Z.abs 0) at 1. apply map_nth. Qed.

Lemma nth_ext0 : forall (u v : list Z), length u = length v ->
  (forall i, i < length u -> nth i u 0%Z = nth i v 0%Z) -> u = v.
Proof. intros. apply nth_ext with (d := 0%Z) (d' := 0%Z); auto. Qed.

Lemma existsb_eqb_In : forall i axes, existsb (Nat.eqb i) axes = true <-> In i axes.
Proof.
  intros. rewrite existsb_exists. split.
  - intros (x & Hx & E). apply Nat.eqb_eq in E. subst; auto.
  - intros H. exists i. rewrite Nat.eqb_eq. auto.
Qed.

Lemma off_axes_spec : forall axes p, off_axes axes p = true <->
  forall a, In a axes -> nth a p 0%Z <> 0%Z.
Proof.
  intros. unfold off_axes. rewrite forallb_forall. split; intros H a Ha; specialize (H a Ha).
  - rewrite negb_true_iff, Z.eqb_neq in H. auto.
  - rewrite negb_true_iff, Z.eqb_neq. auto.
Qed.

Definition nonneg (p : list Z) := forall i, (0 <= nth i p 0)%Z.

Lemma abs_negate : forall axes p, nonneg p -> absv (negate_axes axes p) = p.
Proof.
  intros axes p Hp. apply nth_ext0.
  - unfold absv. rewrite map_length, negate_length. auto.
  - unfold absv at 1. rewrite map_length, negate_length. intros i Hi.
    rewrite absv_nth, negate_nth by auto. specialize (Hp i).
    destruct (existsb (Nat.eqb i) axes); lia.
Qed.

Lemma axes_of_negate : forall axes p, nonneg p -> StronglySorted lt axes ->
  Forall (fun a => a < length p) axes -> off_axes axes p = true ->
  axes_of (negate_axes axes p) = axes.
Proof.
  intros axes p Hp Hs Hb Hoff. apply lt_sorted_ext; auto.
  - apply StronglySorted_filter, seq_sorted.
  - intros x. unfold axes_of. rewrite filter_In, in_seq, negate_length.
    rewrite off_axes_spec in Hoff. rewrite Forall_forall in Hb. split.
    + intros [Hx Hlt]. rewrite negate_nth in Hlt by lia. apply Z.ltb_lt in Hlt.
      destruct (existsb (Nat.eqb x) axes) eqn:E; [apply existsb_eqb_In; auto|].
      specialize (Hp x). lia.
    + intros Hx. specialize (Hb x Hx). split; [lia|]. rewrite negate_nth by auto.
      apply existsb_eqb_In in Hx as E. rewrite E. specialize (Hoff x Hx). specialize (Hp x).
      apply Z.ltb_lt. lia.
Qed.

Lemma negate_axes_of_abs : forall v, negate_axes (axes_of v) (absv v) = v.
Proof.
  intros v. apply nth_ext0.
  - rewrite negate_length. unfold absv. apply map_length.
  - rewrite negate_length. unfold absv at 1. rewrite map_length. intros i Hi.
    rewrite negate_nth by (unfold absv; rewrite map_length; auto). rewrite absv_nth.
    destruct (existsb (Nat.eqb i) (axes_of v)) eqn:E.
    + apply existsb_eqb_In in E. unfold axes_of in E. apply filter_In in E as [_ E].
      apply Z.ltb_lt in E. lia.
    + destruct (Z.ltb_spec (nth i v 0%Z) 0) as [Hlt|]; [|lia].
      exfalso. assert (existsb (Nat.eqb i) (axes_of v) = true); [|congruence].
      apply existsb_eqb_In. unfold axes_of. apply filter_In. split; [apply in_seq; lia|].
      apply Z.ltb_lt; auto.
Qed.

Lemma NoDup_map_left_inv : forall A B (f : A -> B) (g : B -> A) l,
  NoDup l -> (forall a, In a l -> g (f a) = a) -> NoDup (map f l).
Proof.
  induction 1 as [|a l Hn Hd IH]; simpl; intros Hg; constructor; auto.
  intro Hin. apply in_map_iff in Hin as (b & E & Hb). apply Hn.
  rewrite <- (Hg a) by auto. rewrite <- E, Hg by auto. auto.
Qed.

Lemma reflect_correct : forall dims pos,
  NoDup pos -> Forall (fun p => length p = dims /\ nonneg p) pos ->
  exists layer, reflect dims pos = Done layer /\ NoDup layer /\
    forall v, In v layer <-> In (absv v) pos.
Proof.
  intros dims pos Hnd HF. rewrite Forall_forall in HF.
  rewrite reflect_eq. eexists; split; [reflexivity|]. split.
  - set (prs := flat_map (fun axes => map (pair axes) (filter (off_axes axes) pos)) (all_axes dims)).
    replace (concat (map (reflect_axes pos) (all_axes dims)))
      with (map (fun ap => negate_axes (fst ap) (snd ap)) prs).
    + apply NoDup_map_left_inv with (g := fun v => (axes_of v, absv v)).
      * unfold prs. generalize (all_axes_NoDup dims). generalize (all_axes dims) as l.
        induction l as [|x l IH]; intros Hl; simpl; [constructor|].
        inversion Hl; subst. apply NoDup_app_intro; auto.
        -- apply FinFun.Injective_map_NoDup; [intros a b E; congruence|].
           apply NoDup_filter; auto.
        -- intros [a p] Hp Hq. apply in_map_iff in Hp as (p' & E & _). injection E as <- <-.
           apply in_flat_map in Hq as (y & Hy & Hq). apply in_map_iff in Hq as (q & E & _).
           injection E as <- _. auto.
      * intros [a p] Hin. unfold prs in Hin. apply in_flat_map in Hin as (y & Hy & Hin).
        apply in_map_iff in Hin as (q & E & Hq). injection E as <- <-.
        apply filter_In in Hq as [Hq Hoff]. destruct (HF q Hq) as [Hl Hn].
        apply all_axes_In in Hy as [Hs Hb]. simpl. rewrite abs_negate by auto.
        rewrite axes_of_negate; auto. rewrite Hl. auto.
    + unfold prs. generalize (all_axes dims) as l. induction l as [|x l IH]; simpl; auto.
      rewrite map_app, IH. f_equal. unfold reflect_axes. rewrite map_map. reflexivity.
  - intros v. rewrite in_concat. split.
    + intros (l & Hl & Hv). apply in_map_iff in Hl as (axes & <- & Ha).
      unfold reflect_axes in Hv. apply in_map_iff in Hv as (p & <- & Hp).
      apply filter_In in Hp as [Hp _]. rewrite abs_negate by (apply HF; auto). auto.
    + intros Hv. exists (reflect_axes pos (axes_of v)). split.
      * apply in_map. apply all_axes_In. split.
        -- apply StronglySorted_filter, seq_sorted.
        -- apply Forall_forall. intros a Ha. unfold axes_of in Ha. apply filter_In in Ha as [Ha _].
           apply in_seq in Ha. destruct (HF _ Hv) as [Hl _]. unfold absv in Hl.
           rewrite map_length in Hl. lia.
      * unfold reflect_axes. rewrite <- (negate_axes_of_abs v) at 1. apply in_map.
        apply filter_In. split; auto. apply off_axes_spec. intros a Ha.
        unfold axes_of in Ha. apply filter_In in Ha as [_ Ha]. apply Z.ltb_lt in Ha.
        rewrite absv_nth. lia.
Qed.

(** * The generator *)
Lemma zsq_to_Z : forall v, zsq (to_Z v) = Z.of_nat (sumsq v).
Proof. induction v; simpl; auto. rewrite IHv. lia. Qed.

Lemma zsq_abs : forall v, zsq (absv v) = zsq v.
Proof. induction v; simpl; auto. rewrite IHv. nia. Qed.

Lemma abs_to_nat : forall v, absv v = to_Z (map Z.abs_nat v).
Proof.
  intros. unfold absv, to_Z. rewrite map_map. apply map_ext. intros. lia.
Qed.

Lemma nat_shell_in_shell : forall dims d v,
  nat_shell dims d (map Z.abs_nat v) <-> in_shell dims d v.
Proof.
  intros. unfold nat_shell, in_shell. rewrite map_length.
  assert (E : Z.of_nat (sumsq (map Z.abs_nat v)) = zsq v).
  { rewrite <- zsq_to_Z, <- abs_to_nat. apply zsq_abs. }
  split; intros (H1 & H2 & H3); (split; [auto|split]).
  - lia.
  - destruct H3; [left; auto|]. destruct d; [left; auto|right].
    replace (S d - 1) with d in H by lia. nia.
  - lia.
  - destruct H3; [left; auto|]. destruct d; [left; auto|right].
    replace (S d - 1) with d by lia. nia.
Qed.

Lemma to_Z_inj : forall u v, to_Z u = to_Z v -> u = v.
Proof.
  unfold to_Z. induction u as [|a u IH]; intros [|b v] E; try discriminate; auto.
  simpl in E. injection E as E1 E2. f_equal; [lia|auto].
Qed.

Lemma gen_next_correct : forall r d h, 
  (forall xy, length xy = r -> h xy = hbefore d xy) ->
  exists layer h', gen_next (S r) (d, h) = Done (layer, (S d, h')) /\
    (forall xy, length xy = r -> h' xy = hbefore (S d) xy) /\
    NoDup layer /\ forall v, In v layer <-> in_shell (S r) d v.
Proof.
  intros r d h Hh. destruct (passes_layer r d h Hh) as (h' & pos & HE & Hh' & Hnd & Hin).
  destruct (reflect_correct (S r) (map to_Z pos)) as (layer & HL & Hnd' & Hin').
  - apply FinFun.Injective_map_NoDup; auto. intros u v; apply to_Z_inj.
  - apply Forall_forall. intros p Hp. apply in_map_iff in Hp as (v & <- & Hv).
    apply Hin in Hv as [Hl _]. split; [unfold to_Z; rewrite map_length; auto|].
    intros i. unfold to_Z. rewrite <- (map_nth Z.of_nat v 0 i) || idtac.
    change 0%Z with (Z.of_nat 0) at 2. rewrite map_nth. lia.
  - exists layer, h'. unfold gen_next. rewrite HE. cbn [obind]. rewrite HL. cbn [obind].
    split; auto. split; auto. split; auto.
    intros v. rewrite Hin', <- nat_shell_in_shell, <- Hin, abs_to_nat. split.
    + intros H. apply in_map_iff in H as (u & E & Hu). apply to_Z_inj in E. congruence.
    + intros H. apply in_map; auto.
Qed.

Lemma gen_run_correct : forall r n d h,
  (forall xy, length xy = r -> h xy = hbefore d xy) ->
  exists layer, gen_run (S r) n (d, h) = Done layer /\
    NoDup layer /\ forall v, In v layer <-> in_shell (S r) (d + n) v.
Proof.
  induction n as [|n IH]; intros d h Hh;
    destruct (gen_next_correct r d h Hh) as (layer & h' & HE & Hh' & Hnd & Hin).
  - exists layer. cbn [gen_run]. rewrite HE. cbn [obind]. rewrite Nat.add_0_r. auto.
  - cbn [gen_run]. rewrite HE. cbn [obind].
    destruct (IH (S d) h' Hh') as (layer' & HE' & Hnd' & Hin').
    exists layer'. replace (d + S n) with (S d + n) by lia. auto.
Qed.

Theorem gen_item_correct : forall dims d, 1 <= dims ->
  exists layer, gen_item dims d = Done layer /\
    NoDup layer /\ forall v, In v layer <-> in_shell dims d v.
Proof.
  intros dims d Hd. unfold gen_item.
  destruct (Nat.eqb_spec dims 1) as [->|Hne].
  - assert (E : forall v : list Z, length v = 1 -> exists x, v = [x]).
    { intros [|x [|y t]] H; try discriminate. eauto. }
    destruct d as [|d].
    + exists [[0%Z]]. split; auto. split; [constructor; [intros []|constructor]|].
      intros v. unfold in_shell. split.
      * intros [<-|[]]. simpl. repeat split; auto; lia.
      * intros (H1 & H2 & _). destruct (E v H1) as (x & ->). left. simpl in H2. f_equal. nia.
    + exists [[(- Z.of_nat (S d))%Z]; [Z.of_nat (S d)]]. split; auto. split.
      * constructor; [|constructor; [intros []|constructor]].
        intros [H|[]]. injection H as H. lia.
      * intros v. unfold in_shell. split.
        -- intros [<-|[<-|[]]]; cbn [zsq fold_right length]; repeat split; auto; try nia;
             right; nia.
        -- intros (H1 & H2 & [H3|H3]); [discriminate|].
           destruct (E v H1) as (x & ->). cbn [zsq fold_right] in H2, H3.
           assert (x = - Z.of_nat (S d) \/ x = Z.of_nat (S d))%Z as [->| ->] by nia;
             [left|right; left]; auto.
  - destruct dims as [|r]; [lia|]. destruct (gen_run_correct r d 0 (fun _ => 0)) as (l & H); auto.
    exists l. unfold gen_init. simpl in H. auto.
Qed.
