(** Property C89: parsing symmetry operations does not depend on what happened before. *)
From Coq Require Import String.
From Coq Require Import List Ascii Arith Bool Lia Reals Lra.
From Verif Require Import Num Outcome TextModel SymCacheModel.
Import ListNotations.
Local Open Scope nat_scope.

(** What a caller sees of a result: the contents of the two arrays, or the exception. *)
Definition seen {T} (m : memory T) (r : outcome (nat * nat)) : outcome (option (array T) * option (array T)) :=
  match r with
  | Done (a, b) => Done (nth_error (arrays m) a, nth_error (arrays m) b)
  | Raise e => Raise e
  | OutOfBounds => OutOfBounds
  | OutOfFuel => OutOfFuel
  end.

(** The caller uses _parse_sitesyms only, as all code of the package does. *)
Definition public {T} (a : action T) : Prop := match a with ParseOne _ => False | _ => True end.

Section History.
  Context {T : Type} (f : chars -> outcome (list (list T) * list T)).

  (** Entries of the cache are parsed right, and no caller holds them. *)
  Record sound (m : memory T) (held : list nat) : Prop := {
    so_cache : forall s a b, find_text s (cache m) = Some (a, b) ->
      exists rot trans, f s = Done (rot, trans) /\ nth_error (arrays m) a = Some (Matrix rot) /\ nth_error (arrays m) b = Some (Vector trans) /\ ~ In a held /\ ~ In b held;
    so_held : Forall (fun a => a < length (arrays m)) held
  }.

  Definition grown (m m' : memory T) : Prop := exists l, arrays m' = arrays m ++ l.

  Lemma grown_trans : forall m1 m2 m3, grown m1 m2 -> grown m2 m3 -> grown m1 m3.
  Proof. intros m1 m2 m3 [l E] [l' E']. exists (l ++ l'). rewrite E', E, app_assoc. auto. Qed.
  Lemma grown_nth : forall m m' a x, grown m m' -> nth_error (arrays m) a = Some x -> nth_error (arrays m') a = Some x.
  Proof. intros m m' a x [l E] H. rewrite E, nth_error_app1; auto. apply nth_error_Some. congruence. Qed.
  Lemma grown_len : forall m m', grown m m' -> length (arrays m) <= length (arrays m').
  Proof. intros m m' [l E]. rewrite E, app_length. lia. Qed.

  Lemma held_grown : forall m m' held, grown m m' -> Forall (fun a => a < length (arrays m)) held -> Forall (fun a => a < length (arrays m')) held.
  Proof. intros m m' held G. apply Forall_impl. intros a. pose proof (grown_len _ _ G). lia. Qed.

  Lemma memoized_sound : forall m held s, sound m held -> exists m' r, memoized f m s = (m', r) /\ sound m' held /\ grown m m' /\
    match f s with
    | Done (rot, trans) => exists a b, r = Done (a, b) /\ nth_error (arrays m') a = Some (Matrix rot) /\ nth_error (arrays m') b = Some (Vector trans)
    | Raise e => r = Raise e | OutOfBounds => r = OutOfBounds | OutOfFuel => r = OutOfFuel
    end.
  Proof.
    intros m held s [H1 H2]. unfold memoized. assert (G0 : grown m m) by (exists []; rewrite app_nil_r; auto).
    destruct (find_text s (cache m)) as [[a b]|] eqn:E.
    - exists m, (Done (a, b)). destruct (H1 _ _ _ E) as (rot & trans & F & A & B & _). split; [auto|]. split; [constructor; auto|]. split; [auto|]. rewrite F. eauto.
    - destruct (f s) as [[rot trans]| | |] eqn:F; try (eexists _, _; split; [reflexivity|]; split; [constructor; auto|]; split; auto; fail).
      eexists _, _. split; [reflexivity|]. set (m' := {| arrays := _; cache := _ |}). assert (G : grown m m') by (eexists; reflexivity).
      assert (N1 : nth_error (arrays m') (length (arrays m)) = Some (Matrix rot)) by (cbn [m' arrays]; rewrite nth_error_app2, Nat.sub_diag by lia; auto).
      assert (N2 : nth_error (arrays m') (S (length (arrays m))) = Some (Vector trans)) by (cbn [m' arrays]; rewrite nth_error_app2 by lia; replace (S (length (arrays m)) - length (arrays m)) with 1 by lia; auto).
      split; [|split; [exact G|eauto]]. constructor.
      + intros s' a b E'. cbn [m' cache find_text] in E'. destruct (same_text s' s) eqn:Q.
        * injection E' as <- <-. unfold same_text in Q. destruct (list_eq_dec ascii_dec s' s) as [->|]; [|discriminate]. exists rot, trans. rewrite Forall_forall in H2. split; [auto|]. split; [auto|]. split; [auto|]. split; intros I; apply H2 in I; lia.
        * destruct (H1 _ _ _ E') as (rot' & trans' & F' & A & B & C). exists rot', trans'. split; [auto|]. split; [eapply grown_nth; eauto|]. split; [eapply grown_nth; eauto|]. auto.
      + eapply held_grown; eauto.
  Qed.

  Lemma collect_sound : forall syms m held, sound m held -> exists m' r, collect f m syms = (m', r) /\ sound m' held /\ grown m m' /\
    match omap f syms with
    | Done l => exists x y, r = Done (x, y) /\ Forall2 (fun a v => nth_error (arrays m') a = Some (Matrix (fst v))) x l /\ Forall2 (fun b v => nth_error (arrays m') b = Some (Vector (snd v))) y l
    | Raise e => r = Raise e | OutOfBounds => r = OutOfBounds | OutOfFuel => r = OutOfFuel
    end.
  Proof.
    induction syms as [|s syms IH]; intros m held S; cbn [collect omap].
    - eexists _, _. split; [reflexivity|]. split; [auto|]. split; [exists []; rewrite app_nil_r; auto|]. exists [], []. auto.
    - destruct (memoized_sound m held s S) as (m1 & r1 & E1 & S1 & G1 & R1). rewrite E1.
      destruct (f s) as [[rot trans]| | |] eqn:F; cbn [obind]; try (subst r1; eexists _, _; split; [reflexivity|]; split; [auto|]; split; auto; fail).
      destruct R1 as (a & b & -> & A & B). destruct (IH m1 held S1) as (m2 & r2 & E2 & S2 & G2 & R2). rewrite E2. eexists _, _. split; [reflexivity|]. split; [auto|]. split; [eapply grown_trans; eauto|].
      destruct (omap f syms) as [l| | |]; cbn [obind]; try (subst r2; reflexivity).
      destruct R2 as (x & y & -> & X & Y). cbn [obind fst snd]. exists (a :: x), (b :: y). split; [auto|]. split; constructor; auto; cbn [fst snd]; eapply grown_nth; eauto.
  Qed.

  Lemma read_matrices : forall (m : memory T) x l, Forall2 (fun a (v : list (list T) * list T) => nth_error (arrays m) a = Some (Matrix (fst v))) x l -> map (as_matrix m) x = map fst l.
  Proof. intros m x l H. induction H as [|a v x l E H IH]; cbn; auto. unfold as_matrix at 1. rewrite E, IH. auto. Qed.
  Lemma read_vectors : forall (m : memory T) x l, Forall2 (fun a (v : list (list T) * list T) => nth_error (arrays m) a = Some (Vector (snd v))) x l -> map (as_vector m) x = map snd l.
  Proof. intros m x l H. induction H as [|a v x l E H IH]; cbn; auto. unfold as_vector at 1. rewrite E, IH. auto. Qed.

  Lemma sitesyms_sound : forall syms m held, sound m held -> exists m' r, sitesyms_in f m syms = (m', r) /\ sound m' (hand_out held r) /\ grown m m' /\
    (forall a b, r = Done (a, b) -> ~ In a held /\ ~ In b held /\ a <> b) /\
    seen m' r = obind (omap f syms) (fun l => Done (Some (Matrices (map fst l)), Some (Vectors (map snd l)))).
  Proof.
    intros syms m held S. unfold sitesyms_in. destruct (collect_sound syms m held S) as (m1 & r1 & E & S1 & G & R). rewrite E.
    destruct (omap f syms) as [l| | |]; cbn [obind]; try (subst r1; eexists _, _; split; [reflexivity|]; split; [auto|]; split; [auto|]; split; [discriminate|auto]; fail).
    destruct R as (x & y & -> & X & Y). rewrite (read_matrices _ _ _ X), (read_vectors _ _ _ Y). eexists _, _. split; [reflexivity|].
    set (m' := {| arrays := _; cache := _ |}). assert (G' : grown m1 m') by (eexists; reflexivity). destruct S1 as [H1 H2]. assert (H2' := H2). rewrite Forall_forall in H2'.
    split; [|split; [eapply grown_trans; eauto|split]].
    - constructor.
      + intros s a b Q. destruct (H1 s a b Q) as (rot & trans & F & A & B & C & D). exists rot, trans. split; [auto|]. split; [eapply grown_nth; eauto|]. split; [eapply grown_nth; eauto|].
        assert (a < length (arrays m1)) by (apply nth_error_Some; congruence). assert (b < length (arrays m1)) by (apply nth_error_Some; congruence). cbn [hand_out].
        split; intros I; apply in_app_or in I as [I|[I|[I|[]]]]; try tauto; lia.
      + cbn [hand_out]. apply Forall_app. split; [eapply held_grown; eauto|]. cbn [m' arrays]. rewrite app_length. cbn [length]. repeat constructor; lia.
    - intros a b Q. injection Q as <- <-. repeat split; try lia; intros I; apply H2' in I; lia.
    - cbn [seen m' arrays]. rewrite !nth_error_app2 by lia. rewrite Nat.sub_diag. replace (Datatypes.S (length (arrays m1)) - length (arrays m1)) with 1 by lia. reflexivity.
  Qed.

  Lemma upd_other : forall A (l : list A) i j x, i <> j -> nth_error (upd l i x) j = nth_error l j.
  Proof. induction l as [|y l IH]; intros [|i] [|j] x H; cbn; auto; try congruence. Qed.
  Lemma upd_length' : forall A (l : list A) i x, length (upd l i x) = length l.
  Proof. induction l as [|y l IH]; intros [|i] x; cbn; auto. Qed.

  Lemma after_sound : forall acts, Forall public acts -> sound (fst (after f acts)) (snd (after f acts)).
  Proof.
    intros acts. unfold after. assert (S0 : sound (@fresh_memory T) []) by (constructor; [discriminate|constructor]). revert S0. generalize (@fresh_memory T) as m, (@nil nat) as held.
    induction acts as [|a acts IH]; intros m held S P; [exact S|]. inversion P as [|? ? P1 P2]; subst. cbn [fold_left].
    assert (X : sound (fst (act f (m, held) a)) (snd (act f (m, held) a))).
    { destruct a as [syms|sym|i x]; [|destruct P1|].
      - cbn [act]. destruct (sitesyms_sound syms m held S) as (m' & r & -> & S' & _). exact S'.
      - cbn [act]. destruct (nth_error held i) as [a|] eqn:E; [|exact S]. apply nth_error_In in E. destruct S as [H1 H2]. constructor; cbn [fst snd arrays cache].
        + intros s a' b' Q. destruct (H1 s a' b' Q) as (rot & trans & F & A & B & C & D). exists rot, trans. rewrite !upd_other by (intros ->; tauto). auto.
        + eapply Forall_impl; [|exact H2]. intros z. rewrite upd_length'. auto. }
    destruct (act f (m, held) a) as [m' held']. apply IH; auto.
  Qed.
End History.

(** After any history of calls, failed ones included, and of writes into returned arrays, the result
    is that of parsing each text anew; it is in new arrays, and arrays returned before do not change. *)
Theorem C89_history : forall T (N : Num T) acts syms, Forall public acts -> let m := fst (after (parse_sitesym (T := T)) acts) in let held := snd (after (parse_sitesym (T := T)) acts) in
  exists m' r, sitesyms_in (parse_sitesym (T := T)) m syms = (m', r) /\
    seen m' r = obind (parse_sitesyms (T := T) syms) (fun l => Done (Some (Matrices (map fst l)), Some (Vectors (map snd l)))) /\
    (forall a b, r = Done (a, b) -> ~ In a held /\ ~ In b held /\ a <> b) /\
    forall a, In a held -> nth_error (arrays m') a = nth_error (arrays m) a.
Proof.
  intros T N acts syms P m held. pose proof (after_sound (parse_sitesym (T := T)) acts P) as S. fold m held in S.
  destruct (sitesyms_sound _ syms m held S) as (m' & r & E & _ & [l G] & D & Q). exists m', r. split; [exact E|]. split; [exact Q|]. split; [exact D|].
  intros a Ha. rewrite G, nth_error_app1; auto. destruct S as [_ H]. rewrite Forall_forall in H. auto.
Qed.

(** The function behind the cache hands out the cached arrays themselves: after writing into one,
    every later result is wrong. *)
Theorem C89_direct_refuted : exists acts : list (action R), exists syms m' r,
  sitesyms_in (parse_sitesym (T := R)) (fst (after (parse_sitesym (T := R)) acts)) syms = (m', r) /\
  seen m' r <> obind (parse_sitesyms (T := R) syms) (fun l => Done (Some (Matrices (map fst l)), Some (Vectors (map snd l)))).
Proof.
  exists [ParseOne (text "x,y,z"%string); Write 1 (Vector [1; 1; 1]%R)], [text "x,y,z"%string].
  assert (E : exists rot, parse_sitesym (T := R) (text "x,y,z"%string) = Done (rot, [0; 0; 0]%R)) by (eexists; cbn; reflexivity). destruct E as (rot & E).
  eexists _, _. split.
  - unfold after. cbn [fold_left act]. unfold memoized at 1. cbn [find_text fresh_memory cache]. rewrite E. cbn. reflexivity.
  - unfold parse_sitesyms. cbn [omap]. rewrite E. cbn. intros H. injection H as _ H. lra.
Qed.

(** A case: an operation, a text that is no operation, the result overwritten. *)
Example C89_case : let acts := [Parse [text "x,y,z"%string; text "-x,-y,z"%string]; Parse [text "x,y,z,x"%string]; Write 0 (Matrices []); Write 1 (Vectors [[7; 7; 7]%R])] in
  Forall public acts /\ snd (after (parse_sitesym (T := R)) acts) = [4; 5] /\
  map fst (cache (fst (after (parse_sitesym (T := R)) acts))) = [text "-x,-y,z"%string; text "x,y,z"%string] /\
  nth_error (arrays (fst (after (parse_sitesym (T := R)) acts))) 5 = Some (Vectors [[7; 7; 7]%R]).
Proof. cbv zeta. split; [repeat constructor|]. split; [vm_compute; reflexivity|]. split; [vm_compute; reflexivity|]. vm_compute. reflexivity. Qed.

Print Assumptions C89_history.
Print Assumptions C89_direct_refuted.
