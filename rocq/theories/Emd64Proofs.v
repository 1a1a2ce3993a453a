(** The 64-bit solver agrees with the one on unbounded integers when nothing leaves the range. *)
From Coq Require Import List ZArith Bool Lia.
From Verif Require Import Outcome EmdModel Emd64Model EmdArr.
Import ListNotations.
Open Scope outcome_scope.
Open Scope Z_scope.

Definition fits (z : Z) : Prop := - int64_half <= z < int64_half.

Ltac w64 := unfold fits, wrap, int64_half, int64_size in *.

Lemma wrap_fits : forall z, fits (wrap z).
Proof. intros z. w64. pose proof (Z.mod_pos_bound (z + 9223372036854775808) 18446744073709551616 ltac:(lia)). lia. Qed.

Lemma wrap_id : forall z, fits z -> wrap z = z.
Proof. intros z H. w64. rewrite Z.mod_small; lia. Qed.

(** Reduction commutes with sums. *)
Lemma wrap_shift : forall z k, wrap (z + k * int64_size) = wrap z.
Proof. intros z k. w64. replace (z + k * 18446744073709551616 + 9223372036854775808) with (z + 9223372036854775808 + k * 18446744073709551616) by lia. now rewrite Z_mod_plus_full. Qed.

Lemma wrap_form : forall z, exists k, wrap z = z + k * int64_size.
Proof.
  intros z. exists (- ((z + int64_half) / int64_size)). w64.
  pose proof (Z.div_mod (z + 9223372036854775808) 18446744073709551616 ltac:(lia)). lia.
Qed.

Lemma wrap_eq : forall a b k, a = b + k * int64_size -> wrap a = wrap b.
Proof. intros a b k ->. apply wrap_shift. Qed.

Lemma wrap_add : forall a b, wrap (wrap a + wrap b) = wrap (a + b).
Proof. intros a b. destruct (wrap_form a) as [i ->], (wrap_form b) as [j ->]. apply (wrap_eq _ _ (i + j)). lia. Qed.
Lemma wrap_sub : forall a b, wrap (wrap a - wrap b) = wrap (a - b).
Proof. intros a b. destruct (wrap_form a) as [i ->], (wrap_form b) as [j ->]. apply (wrap_eq _ _ (i - j)). lia. Qed.
Lemma wrap_add_l : forall a b, wrap (wrap a + b) = wrap (a + b).
Proof. intros a b. destruct (wrap_form a) as [i ->]. apply (wrap_eq _ _ i). lia. Qed.
Lemma wrap_add_r : forall a b, wrap (a + wrap b) = wrap (a + b).
Proof. intros a b. destruct (wrap_form b) as [i ->]. apply (wrap_eq _ _ i). lia. Qed.
Lemma wrap_sub_l : forall a b, wrap (wrap a - b) = wrap (a - b).
Proof. intros a b. destruct (wrap_form a) as [i ->]. apply (wrap_eq _ _ i). lia. Qed.
Lemma wrap_sub_r : forall a b, wrap (a - wrap b) = wrap (a - b).
Proof. intros a b. destruct (wrap_form b) as [i ->]. apply (wrap_eq _ _ (- i)). lia. Qed.
Lemma wrap_opp : forall a, wrap (- wrap a) = wrap (- a).
Proof. intros a. destruct (wrap_form a) as [i ->]. apply (wrap_eq _ _ (- i)). lia. Qed.
Lemma wrap_wrap : forall a, wrap (wrap a) = wrap a.
Proof. intros a. apply wrap_id, wrap_fits. Qed.

Lemma map_wrap_id : forall l, Forall fits l -> map wrap l = l.
Proof. induction l as [|a l IH]; intros H; [reflexivity|]. inversion H; subst. cbn [map]. rewrite wrap_id, IH; auto. Qed.

(** * Arrays *)
Definition om {A B} (f : A -> B) (o : outcome A) : outcome B :=
  match o with Done a => Done (f a) | Raise e => Raise e | OutOfBounds => OutOfBounds | OutOfFuel => OutOfFuel end.

Lemma getZ_map : forall l i, getZ (map wrap l) i = om wrap (getZ l i).
Proof.
  intros l i. unfold getZ. rewrite map_length. destruct (_ <? 0); [reflexivity|].
  rewrite nth_error_map. destruct (nth_error l _); reflexivity.
Qed.

Lemma upd_map : forall (l : list Z) k v, upd (map wrap l) k (wrap v) = map wrap (upd l k v).
Proof. induction l as [|a l IH]; intros [|k] v; cbn [upd map]; auto. now rewrite IH. Qed.

Lemma setZ_map : forall l i v, setZ (map wrap l) i (wrap v) = om (map wrap) (setZ l i v).
Proof.
  intros l i v. unfold setZ. rewrite map_length. destruct (_ || _)%bool; [reflexivity|].
  rewrite upd_map. reflexivity.
Qed.

Definition wts (ts : tree_st) : tree_st :=
  {| parent := parent ts; size := map wrap (size ts); next_node := next_node ts; last_node := last_node ts;
     prev_node := prev_node ts; edge := edge ts |}.

Ltac step :=
  match goal with
  | |- obind ?x _ = om _ (obind ?x _) => destruct x; cbn [obind om]; try reflexivity
  end.

Lemma climb_map : forall fuel par sz la s delta old new change,
  (forall a, change (wrap a) = wrap (a + delta)) ->
  climb64 fuel par (map wrap sz) la s change old new =
  om (fun r => (map wrap (fst r), snd r)) (climb fuel par sz la s delta old new).
Proof.
  induction fuel as [|fuel IH]; intros par sz la s delta old new change H; cbn [climb64 climb];
    destruct (s =? -2); try reflexivity.
  rewrite getZ_map. destruct (getZ sz s) as [a| | |]; cbn [obind om]; try reflexivity.
  rewrite H, setZ_map. destruct (setZ sz s (a + delta)) as [sz'| | |]; cbn [obind om]; try reflexivity.
  step. destruct (if a0 =? old then setZ la s new else Done la); cbn [obind om]; try reflexivity. step. now apply IH.
Qed.

Lemma remove_edge_map : forall fuel ts s t, remove_edge64 fuel (wts ts) s t = om wts (remove_edge fuel ts s t).
Proof.
  intros fuel ts s t. unfold remove_edge64, remove_edge, wts at 1 2 3 4 5 6 7 8 9 10. cbn [parent size next_node last_node prev_node edge].
  rewrite getZ_map. destruct (getZ (size ts) t) as [st| | |]; cbn [obind om]; try reflexivity.
  repeat step.
  rewrite (climb_map fuel _ (size ts) (last_node ts) s (- st)) by (intros b; rewrite wrap_sub; f_equal; lia).
  destruct (climb _ _ _ _ _ _ _ _) as [[sz la]| | |]; reflexivity.
Qed.

Lemma reroot_step_map : forall ts p q, reroot_step64 (wts ts) p q = om wts (reroot_step ts p q).
Proof.
  intros ts p q. unfold reroot_step64, reroot_step, wts. cbn [parent size next_node last_node prev_node edge].
  rewrite getZ_map. destruct (getZ (size ts) p) as [sp| | |]; cbn [obind om]; try reflexivity.
  repeat step.
  rewrite getZ_map. destruct (getZ (size ts) q) as [sq| | |]; cbn [obind om]; try reflexivity.
  rewrite wrap_sub, setZ_map. destruct (setZ (size ts) p _) as [sz1| | |]; cbn [obind om]; try reflexivity.
  rewrite setZ_map. destruct (setZ sz1 q sp) as [sz2| | |]; cbn [obind om]; try reflexivity.
  repeat (step || match goal with |- context [match ?x with (_, _) => _ end] => is_var x; destruct x end).
Qed.

Lemma reroot_loop_map : forall anc ts, reroot_loop64 (wts ts) anc = om wts (reroot_loop ts anc).
Proof.
  induction anc as [|p anc IH]; intros ts; [reflexivity|]. destruct anc as [|q anc]; [reflexivity|].
  cbn [reroot_loop64 reroot_loop]. rewrite reroot_step_map. destruct (reroot_step ts p q) as [ts'| | |]; cbn [obind om]; try reflexivity.
  apply IH.
Qed.

Lemma make_root_map : forall fuel ts q, make_root64 fuel (wts ts) q = om wts (make_root fuel ts q).
Proof.
  intros fuel ts q. unfold make_root64, make_root. cbn [parent wts]. step. apply reroot_loop_map.
Qed.

Lemma add_edge_map : forall fuel ts i p q, add_edge64 fuel (wts ts) i p q = om wts (add_edge fuel ts i p q).
Proof.
  intros fuel ts i p q. unfold add_edge64, add_edge, wts. cbn [parent size next_node last_node prev_node edge].
  step. step. rewrite getZ_map. destruct (getZ (size ts) q) as [sq| | |]; cbn [obind om]; try reflexivity.
  repeat step.
  rewrite (climb_map fuel _ (size ts) (last_node ts) p sq) by (intros b; apply wrap_add).
  destruct (climb _ _ _ _ _ _ _ _) as [[sz la]| | |]; reflexivity.
Qed.

Lemma shift_map : forall fuel pots nx q l d d', wrap d' = wrap d ->
  shift_subtree64 fuel (map wrap pots) nx q l d' = om (map wrap) (shift_subtree fuel pots nx q l d).
Proof.
  induction fuel as [|fuel IH]; intros pots nx q l d d' H; cbn [shift_subtree64 shift_subtree]; destruct (q =? l); try reflexivity.
  step. rewrite getZ_map. destruct (getZ pots a) as [b| | |]; cbn [obind om]; try reflexivity.
  rewrite <- (wrap_add_r _ d'), H, wrap_add, setZ_map. destruct (setZ pots a _) as [pots'| | |]; cbn [obind om]; try reflexivity.
  now apply IH.
Qed.

Lemma update_map : forall N fuel pots ts i p q,
  update_potentials64 N fuel (map wrap pots) (wts ts) i p q = om (map wrap) (update_potentials N fuel pots ts i p q).
Proof.
  intros N fuel pots ts i p q. unfold update_potentials64, update_potentials. cbn [last_node next_node wts].
  step. rewrite getZ_map. destruct (getZ pots p) as [pp| | |]; cbn [obind om]; try reflexivity.
  step. rewrite getZ_map. destruct (getZ pots q) as [pq| | |]; cbn [obind om]; try reflexivity.
  set (d := if q =? a then pp - a0 - pq else pp + a0 - pq).
  assert (E : (if q =? a then wrap (wrap (wrap pp - a0) - wrap pq) else wrap (wrap (wrap pp + a0) - wrap pq)) = wrap d).
  { unfold d. destruct (q =? a); rewrite wrap_sub.
    - replace (wrap pp - a0 - pq) with (wrap pp - (a0 + pq)) by lia. rewrite wrap_sub_l. f_equal. lia.
    - replace (wrap pp + a0 - pq) with (wrap pp - (pq - a0)) by lia. rewrite wrap_sub_l. f_equal. lia. }
  rewrite E, wrap_add, setZ_map. destruct (setZ pots q (pq + d)) as [pots'| | |]; cbn [obind om]; try reflexivity.
  step. apply shift_map. apply wrap_wrap.
Qed.

Lemma augment_map : forall N cycle fl r r', wrap r' = wrap r ->
  augment64 N (map wrap fl) r' cycle = om (map wrap) (augment N fl r cycle).
Proof.
  induction cycle as [|[i p] cycle IH]; intros fl r r' H; [reflexivity|]. cbn [augment64 augment].
  step. rewrite getZ_map. destruct (getZ fl i) as [f| | |]; cbn [obind om]; try reflexivity.
  replace (if a =? p then wrap (wrap f + r') else wrap (wrap f - r')) with (wrap (if a =? p then f + r else f - r)).
  2: { destruct (a =? p); [rewrite <- (wrap_add_r _ r'), H, wrap_add|rewrite <- (wrap_sub_r _ r'), H, wrap_sub]; reflexivity. }
  rewrite setZ_map. destruct (setZ fl i _) as [fl'| | |]; cbn [obind om]; try reflexivity. now apply IH.
Qed.
