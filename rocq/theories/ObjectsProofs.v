(** Lemmas about the converters of library objects. *)
From Coq Require Import List ZArith Reals Arith Bool Ascii String Lia Lra.
From Verif Require Import Num Base Outcome LatticeProofs2 NNModel SpecGeom CalcModel CalcProofs CompareModel TextModel SpecText TextProofs
  SitesModel SpecSites SitesProofs BlocksModel SpecBlocks BlocksProofs ObjectsModel SpecObjects.
Import ListNotations.
Open Scope string_scope.
Open Scope R_scope.
Open Scope list_scope.
Notation length := List.length.

(** ** Choosing atoms *)
Lemma filtered_filter : forall A (P : A -> Prop) (p : A -> bool) l l', filtered P l l' -> (forall a, In a l -> (p a = true <-> P a)) -> filter p l = l'.
Proof.
  intros A P p l l' F. induction F as [|a l l' H F IH|a l l' H F IH]; intros E; auto; cbn [filter].
  - rewrite (proj2 (E a (or_introl eq_refl)) H). f_equal. apply IH. intros; apply E; right; auto.
  - destruct (p a) eqn:Q; [exfalso; apply H, (E a (or_introl eq_refl)); auto|]. apply IH. intros; apply E; right; auto.
Qed.
Lemma filter_true : forall A (l : list A), filter (fun _ => negb false) l = l.
Proof. intros A l. induction l as [|a l IH]; auto. cbn [filter negb]. f_equal. auto. Qed.
Lemma filter_filter : forall A (p q : A -> bool) l, filter p (filter q l) = filter (fun a => (q a && p a)%bool) l.
Proof. intros A p q l. induction l as [|a l IH]; auto. cbn. destruct (q a); cbn; rewrite IH; auto. Qed.
Lemma filter_ext_in' : forall A (p q : A -> bool) l, (forall a, In a l -> p a = q a) -> filter p l = filter q l.
Proof. intros A p q l E. induction l as [|a l IH]; auto. cbn. rewrite (E a (or_introl eq_refl)), IH; auto. intros; apply E; right; auto. Qed.

Lemma occupancy_of_value : forall v x, occupancy_of v x -> occupancy_value (T := R) v = Fin x.
Proof. intros v x [E|[-> ->]]; [apply ase_occupancy_value; auto|reflexivity]. Qed.
Lemma occupancy_of_unique : forall v x y, occupancy_of v x -> occupancy_of v y -> x = y.
Proof. intros v x y X Y. apply occupancy_of_value in X, Y. rewrite X in Y. injection Y. auto. Qed.

Definition looks_disordered (a : catom) : bool := has_disorder (ca_label a) (ca_occupancy a).
Lemma disordered_ok : forall a, plain_atom a -> looks_disordered a = true <-> is_disordered a.
Proof.
  intros a [_ [x Hx]]. unfold looks_disordered, has_disorder, is_disordered. rewrite (occupancy_of_value _ _ Hx). cbn [below_one nltb NumR].
  rewrite orb_true_iff, ends_question, Rltb_true. split.
  - intros [L|L]; eauto.
  - intros [(y & Hy & L)|L]; auto. rewrite (occupancy_of_unique _ _ _ Hx Hy). auto.
Qed.
Lemma hydrogen_ok : forall a, plain_atom a -> in_text (ca_symbol a) (text "HD") = true <-> is_hydrogen a.
Proof.
  intros a [E _]. unfold is_hydrogen. split.
  - destruct E as [E|E]; [auto|]. intros Q. cbn in E. repeat (destruct E as [E|E]; [rewrite <- E in Q |- *; first [left; reflexivity | discriminate Q]|]). destruct E.
  - intros [->| ->]; reflexivity.
Qed.

(** ** The heaviest component *)
Lemma ofold_sum : forall l w ms, Forall2 mass l ms -> ofold (add_weight (T := R)) l w = Done (w + rsum ms).
Proof.
  intros l w ms F. revert w. induction F as [|a m l ms (o & Ho & H) F IH]; intros w; cbn [ofold rsum fold_right].
  - f_equal. ring.
  - unfold add_weight at 1. rewrite (occupancy_of_value _ _ Ho). destruct H as [(x & -> & ->)|[-> ->]]; cbn [float_value obind nadd nmul NumR].
    + rewrite IH. f_equal. unfold rsum. ring.
    + change (match py_float (T := R) [] with Some x => Done x | None => Raise ValueError end) with (Raise (A := fval (T := R)) ValueError). cbn [obind].
      rewrite IH. f_equal. unfold rsum. ring.
Qed.
Lemma component_weights : forall comps ms, Forall2 total_mass comps ms -> omap (component_weight (T := R)) comps = Done ms.
Proof.
  intros comps ms F. rewrite <- (map_id ms). apply (omap_Forall2 _ _ _ total_mass _ (fun m => m) _ _ F).
  intros l m (mm & Fm & ->). unfold component_weight. rewrite (ofold_sum _ _ mm Fm). cbn [n0 NumR]. f_equal. ring.
Qed.
Lemma argmax_ok : forall (l : list R) pre best m, (best < length pre)%nat -> nth best pre 0 = m ->
  (forall j, (j < length pre)%nat -> nth j pre 0 <= m) -> (forall j, (j < best)%nat -> nth j pre 0 < m) ->
  let i := argmax_from (length pre) best m l in
  (i < length (pre ++ l))%nat /\ (forall j, (j < length (pre ++ l))%nat -> nth j (pre ++ l) 0 <= nth i (pre ++ l) 0) /\
  (forall j, (j < i)%nat -> nth j (pre ++ l) 0 < nth i (pre ++ l) 0).
Proof.
  induction l as [|x l IH]; intros pre best m Hb Hm Hle Hlt i.
  - subst i. cbn [argmax_from]. rewrite app_nil_r, Hm. auto.
  - subst i. cbn [argmax_from]. replace (pre ++ x :: l) with ((pre ++ [x]) ++ l) by (rewrite <- app_assoc; auto).
    replace (S (length pre)) with (length (pre ++ [x])) by (rewrite app_length; cbn; lia).
    cbn [nltb NumR]. destruct (Rltb m x) eqn:E.
    + apply Rltb_true in E. apply IH.
      * rewrite app_length. cbn. lia.
      * rewrite app_nth2 by lia. rewrite Nat.sub_diag. auto.
      * intros j Hj. rewrite app_length in Hj. cbn in Hj. destruct (lt_dec j (length pre)).
        -- rewrite app_nth1 by auto. specialize (Hle j l0). lra.
        -- replace j with (length pre) by lia. rewrite app_nth2, Nat.sub_diag by lia. cbn. lra.
      * intros j Hj. rewrite app_nth1 by auto. specialize (Hle j Hj). lra.
    + assert (E' : x <= m) by (apply Rnot_lt_le; intros L; apply Rltb_true in L; congruence). apply IH.
      * rewrite app_length. lia.
      * rewrite app_nth1 by auto. auto.
      * intros j Hj. rewrite app_length in Hj. cbn in Hj. destruct (lt_dec j (length pre)).
        -- rewrite app_nth1 by auto. auto.
        -- replace j with (length pre) by lia. rewrite app_nth2, Nat.sub_diag by lia. auto.
      * intros j Hj. rewrite app_nth1 by lia. auto.
Qed.
Lemma heaviest_found : forall comps, comps <> [] -> Forall (fun c => exists m, total_mass c m) comps ->
  exists c, heaviest_component (T := R) comps = Done c /\ heaviest comps c.
Proof.
  intros comps HN F.
  assert (M : exists ms, Forall2 total_mass comps ms).
  { clear HN. induction F as [|c comps [m Hm] F [ms IH]]; [exists []|exists (m :: ms)]; constructor; auto. }
  destruct M as [ms M]. pose proof (F2_length _ _ _ _ _ M) as L. unfold heaviest_component. rewrite (component_weights _ _ M). cbn [obind].
  destruct ms as [|m ms]; [destruct comps; [congruence|discriminate]|]. cbn [np_argmax obind].
  destruct (argmax_ok ms [m] 0 m) as (B1 & B2 & B3); cbn; auto.
  { intros [|j] Hj; [lra|lia]. }
  { intros j Hj. lia. }
  cbn [app length] in B1, B2, B3. set (i := argmax_from 1 0 m ms) in *.
  destruct (nth_error comps i) as [c|] eqn:E.
  - exists c. split; [unfold get_at; rewrite E; auto|]. exists (m :: ms), i. auto.
  - apply nth_error_None in E. cbn in L. lia.
Qed.

(** ** The molecule *)
Lemma molecule_ok : forall c h d heavy mol, Forall plain_atom (cc_atoms c) ->
  (d = Skip -> cc_has_disorder c = false /\ Forall (fun a => ~ is_disordered a) (cc_atoms c)) ->
  filtered (stays h d) (cc_atoms c) mol ->
  (heavy = true -> Forall (fun c => exists m, total_mass c m) (cc_components c mol)) ->
  exists molecule w, ccdc_molecule (T := R) c h d heavy = Done (molecule, w) /\ molecule_used c heavy mol molecule /\
    (In MissingSites w <-> Exists (fun a => asked h d a /\ ca_coords a = None) (cc_atoms c)) /\ (w = [] \/ w = [MissingSites]).
Proof.
  intros c h d heavy mol HP HS HF HM. unfold ccdc_molecule. rewrite Forall_forall in HP.
  set (placed := fun a : catom => match ca_coords a with Some _ => true | None => false end).
  set (ask := fun a : catom => (negb (match d with OrderedSites => looks_disordered a | _ => false end) &&
      negb (h && in_text (ca_symbol a) (text "HD")))%bool).
  assert (ASK : forall a, In a (cc_atoms c) -> (ask a = true <-> asked h d a)).
  { intros a Ha. unfold ask, asked. rewrite andb_true_iff, !negb_true_iff, <- !not_true_iff_false.
    rewrite andb_true_iff, (hydrogen_ok a (HP a Ha)).
    assert (Q : (match d with OrderedSites => looks_disordered a | _ => false end) = true <-> d = OrderedSites /\ is_disordered a).
    { rewrite <- (disordered_ok a (HP a Ha)). destruct d; intuition discriminate. }
    rewrite Q. tauto. }
  match goal with |- exists _ _, obind ?x _ = _ /\ _ =>
    assert (E1 : x = Done (filter (fun a => negb (match d with OrderedSites => looks_disordered a | _ => false end)) (cc_atoms c))) end.
  { destruct d; auto.
    - destruct (HS eq_refl) as [Q1 Q2]. rewrite Q1. cbn [orb]. rewrite Forall_forall in Q2.
      match goal with |- (if ?b then _ else _) = _ => assert (E : b = false) end.
      { apply not_true_iff_false. intros X. apply existsb_exists in X as (a & Ha & X). apply (Q2 a Ha), disordered_ok; auto. }
      rewrite E. f_equal. symmetry. apply filter_true.
    - f_equal. symmetry. apply filter_true. }
  rewrite E1. cbn [obind]. clear E1.
  match goal with |- context [if h then filter ?f ?l else ?l] => assert (E2 : (if h then filter f l else l) = filter ask (cc_atoms c)) end.
  { unfold ask. destruct h; cbn [andb].
    - rewrite filter_filter. auto.
    - apply filter_ext_in'. intros a _. rewrite andb_true_r. auto. }
  rewrite E2. clear E2. fold placed.
  assert (E3 : filter placed (filter ask (cc_atoms c)) = mol).
  { rewrite filter_filter. apply (filtered_filter _ _ _ _ _ HF). intros a Ha. rewrite andb_true_iff, (ASK a Ha). unfold stays, placed.
    destruct (ca_coords a); intuition discriminate. }
  rewrite E3. set (w := if forallb placed (filter ask (cc_atoms c)) then [] else [MissingSites]).
  assert (W : (In MissingSites w <-> Exists (fun a => asked h d a /\ ca_coords a = None) (cc_atoms c)) /\ (w = [] \/ w = [MissingSites])).
  { unfold w. rewrite Exists_exists. destruct (forallb placed (filter ask (cc_atoms c))) eqn:E; (split; [|auto]).
    - split; [intros []|]. intros (a & Ha & Q1 & Q2). rewrite forallb_forall in E. specialize (E a). unfold placed in E. rewrite Q2 in E.
      apply ASK in Q1; auto. discriminate E. apply filter_In. auto.
    - split; [intros _|intros _; left; auto].
      assert (Q : existsb (fun a => negb (placed a)) (filter ask (cc_atoms c)) = true).
      { revert E. clear. induction (filter ask (cc_atoms c)) as [|a l IH]; [discriminate|]. cbn. destruct (placed a); auto. }
      apply existsb_exists in Q as (a & Ha & Q). apply filter_In in Ha as [Ha Hb]. exists a. split; auto. split; [apply ASK; auto|].
      unfold placed in Q. destruct (ca_coords a); auto; discriminate. }
  destruct (heavy && (1 <? length (cc_components c mol))%nat)%bool eqn:B.
  - apply andb_true_iff in B as [-> B]. apply Nat.ltb_lt in B.
    destruct (heaviest_found (cc_components c mol)) as (m & E & Hm); auto.
    { destruct (cc_components c mol); [simpl in B; lia|discriminate]. }
    rewrite E. cbn [obind]. exists m, w. split; auto. split; auto. left. auto.
  - cbn [obind]. exists mol, w. split; auto. split; auto. right. split; auto.
    apply andb_false_iff in B as [->|B]; auto. apply Nat.ltb_ge in B. auto.
Qed.

(** ** Centres of molecules *)
Lemma centre_ok : forall comp p, geometric_centre comp p -> molecular_centre (T := R) comp = Done p.
Proof.
  intros comp p (cs & F & HN & HL & HJ). unfold molecular_centre.
  assert (E : omap (fun a => match ca_coords a with Some c => Done c | None => Raise TypeError end) comp = Done cs).
  { rewrite <- (map_id cs). refine (omap_Forall2 _ _ _ _ _ _ _ _ F _). intros a c [-> _]. auto. }
  rewrite E. cbn [obind]. pose proof (F2_length _ _ _ _ _ F) as L.
  assert (L3 : Forall (fun c => length c = 3%nat) cs).
  { clear -F. induction F as [|a c l cs [_ H] F IH]; constructor; auto. }
  destruct cs as [|c0 cs]; [destruct comp; [congruence|discriminate]|]. f_equal.
  assert (SH : forall l n, Forall (fun c : list R => length c = 3%nat) l -> n = 3%nat -> fold_left (fun m c => Nat.min m (length c)) l n = 3%nat).
  { induction l as [|c l IH]; intros n Fl ->; auto. inversion Fl as [|? ? H1 H2]; subst. cbn [fold_left]. apply IH; auto. rewrite H1. auto. }
  assert (RO : rows_of (A := R) n0 (c0 :: cs) = map (fun i => map (fun c => nth i c 0) (c0 :: cs)) (seq 0 3)).
  { unfold rows_of. assert (E1 : shortest (c0 :: cs) = 3%nat).
    { unfold shortest. inversion L3; subst. apply SH; auto. }
    rewrite E1. auto. }
  rewrite RO, map_map. assert (NZ : INR (length comp) <> 0).
  { apply not_0_INR. destruct comp; [congruence|discriminate]. }
  destruct p as [|x [|y [|z [|]]]]; try discriminate HL. cbn [seq map].
  assert (D : forall j, (j < 3)%nat -> ndiv (nsum (map (fun c => nth j c 0) (c0 :: cs))) (nofnat (length (c0 :: cs))) = nth j [x; y; z] 0).
  { intros j Hj. rewrite nsum_rsum, <- (HJ j Hj), <- L. cbn [ndiv NumR]. unfold nofnat. cbn [nofZ NumR].
    replace (IZR (Z.of_nat (length comp))) with (INR (length comp)) by apply INR_IZR_INZ. field. auto. }
  rewrite <- (D 0%nat ltac:(lia)) at 1. f_equal. f_equal; [|f_equal]; [exact (D 1%nat ltac:(lia))|exact (D 2%nat ltac:(lia))].
Qed.
