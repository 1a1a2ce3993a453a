(** C43, C44, C49, C60 and C61: the readers. *)
From Coq Require Import List ZArith Arith Bool Ascii String Lia Sorted.
From Verif Require Import Num Base Outcome ReaderModel.
Import ListNotations.
Open Scope string_scope.
Open Scope list_scope.
Notation length := List.length.

Section Reading.
  Context {item crystal warning : Type} (name : crystal -> string).
  Context (convert : item -> list warning * outcome crystal).
  Notation step := (step item warning).
  Notation message := (message warning).
  Notation wstate := (wstate warning).
  Notation reader := (reader item crystal warning).

  (** Items which convert or raise ParseError. *)
  Definition tolerable (x : item) : Prop := exists ws, (exists c, convert x = (ws, Done c)) \/ convert x = (ws, Raise ParseError).
  (** The conversions of the items which convert, and the warnings about them. *)
  Definition conversions (items : list item) : list crystal :=
    flat_map (fun x => match snd (convert x) with Done c => [c] | _ => [] end) items.
  Definition named_warnings (items : list item) : list message :=
    flat_map (fun x => match convert x with (ws, Done c) => map (Named (name c)) ws | _ => [] end) items.

  (** Steps of an iterator; the items it gives and the warnings about files. *)
  Fixpoint calm (steps : list step) : Prop :=
    match steps with [] => True | Yields x :: t => tolerable x /\ calm t | Warns _ :: t => calm t | Throws _ :: _ => False end.
  Definition items_of (steps : list step) : list item := flat_map (fun s => match s with Yields x => [x] | _ => [] end) steps.
  Definition messages_of (steps : list step) : list message :=
    flat_map (fun s => match s with
                       | Yields x => match convert x with (ws, Done c) => map (Named (name c)) ws | _ => [] end
                       | Warns m => [m]
                       | Throws _ => []
                       end) steps.

  Lemma issue_app : forall a b (w : wstate), issue b (issue a w) = issue (a ++ b) w.
  Proof. intros a b [i s]. unfold issue. destruct i; cbn; auto. rewrite app_assoc. auto. Qed.
  Lemma issue_nil : forall w : wstate, issue [] w = w.
  Proof. intros [i s]. unfold issue. destruct i; cbn; auto. rewrite app_nil_r. auto. Qed.

  (** One call of next among calm steps. *)
  Lemma next_calm : forall before after w, calm before ->
    next_item name convert (before ++ after) w =
      match conversions (items_of before) with
      | [] => next_item name convert after (issue (messages_of before) w)
      | c :: _ => next_item name convert (before ++ after) w
      end.
  Proof.
    induction before as [|s before IH]; intros after w HC; [cbn; rewrite issue_nil; auto|]. destruct s as [x|m|e]; cbn in HC; [| |tauto].
    - destruct HC as [(ws & [(c & E)|E]) HC]; unfold conversions; cbn; rewrite E; cbn; auto.
    - change (conversions (items_of (Warns m :: before))) with (conversions (items_of before)).
      change (messages_of (Warns m :: before)) with ([m] ++ messages_of before). cbn [app next_item]. pose proof (IH after (issue [m] w) HC) as Q. destruct (conversions (items_of before)); auto.
      rewrite Q, issue_app. reflexivity.
  Qed.
  Lemma next_calm_got : forall before after w, calm before -> forall c cs, conversions (items_of before) = c :: cs ->
    exists b1 b2, before = b1 ++ b2 /\ conversions (items_of b1) = [c] /\ conversions (items_of b2) = cs /\ calm b2 /\
      next_item name convert (before ++ after) w = (Got c, b2 ++ after, issue (messages_of b1) w).
  Proof.
    induction before as [|s before IH]; intros after w HC c cs E; [discriminate|]. destruct s as [x|m|e]; cbn in HC; [| |tauto].
    - destruct HC as [(ws & [(c' & Ec)|Ec]) HC]; unfold conversions in E; cbn in E; rewrite Ec in E; cbn in E.
      + injection E as -> E. exists [Yields x], before. split; auto. unfold conversions. cbn. rewrite Ec. cbn. rewrite app_nil_r.
        split; auto.
      + destruct (IH after w HC c cs E) as (b1 & b2 & -> & C1 & C2 & CB & N). exists (Yields x :: b1), b2. split; auto.
        unfold conversions in *. cbn. rewrite Ec. cbn. auto.
    - destruct (IH after (issue [m] w) HC c cs E) as (b1 & b2 & -> & C1 & C2 & CB & N). exists (Warns m :: b1), b2. split; auto.
      split; auto. split; auto. split; auto. cbn. rewrite N, issue_app. auto.
  Qed.
  Lemma messages_app : forall a b, messages_of (a ++ b) = messages_of a ++ messages_of b.
  Proof. intros a b. unfold messages_of. apply flat_map_app. Qed.
  Lemma items_app : forall a b, items_of (a ++ b) = items_of a ++ items_of b.
  Proof. intros a b. unfold items_of. apply flat_map_app. Qed.
  Lemma conversions_app : forall a b, conversions (a ++ b) = conversions a ++ conversions b.
  Proof. intros a b. unfold conversions. apply flat_map_app. Qed.
  Lemma calm_app : forall a b, calm (a ++ b) <-> calm a /\ calm b.
  Proof. induction a as [|[x|m|e] a IH]; intros b; cbn; try rewrite IH; tauto. Qed.

  Lemma calm_items : forall items, Forall tolerable items -> calm (map Yields items).
  Proof. intros items HT. induction HT; cbn; auto. Qed.
  Lemma items_yields : forall items, items_of (map Yields items) = items.
  Proof. induction items as [|x l IH]; [reflexivity|exact (f_equal (cons x) IH)]. Qed.
  Lemma conversions_length : forall items, (length (conversions items) <= length items)%nat.
  Proof.
    induction items as [|x l IH]; auto. unfold conversions. cbn [flat_map length]. rewrite app_length. fold (conversions l).
    destruct (snd (convert x)); cbn [length]; lia.
  Qed.

  Definition with_steps (steps : list step) (show : bool) : reader := {| rd_steps := steps; rd_convert := convert; rd_show := show |}.
  (** the filter set by the first call of next *)
  Definition filtered (show : bool) (w : wstate) : wstate := if show then w else {| ignoring := true; shown := shown w |}.
  Lemma filtered_issue : forall show ms w, filtered show (issue ms (filtered show w)) = issue ms (filtered show w).
  Proof. intros [] ms [i s]; auto. Qed.

  (** What repeated calls of next give. *)
  Fixpoint nexts (n : nat) (r : reader) (w : wstate) : list (ended crystal) * reader * wstate :=
    match n with
    | 0%nat => ([], r, w)
    | S n => let '(e, r, w) := next name r w in let '(l, r, w) := nexts n r w in (e :: l, r, w)
    end.
  Lemma nexts_calm : forall n before after show w, calm before -> length (conversions (items_of before)) = n ->
    exists b1 b2, before = b1 ++ b2 /\ conversions (items_of b2) = [] /\ calm b2 /\
      nexts n (with_steps (before ++ after) show) w =
        (map Got (conversions (items_of before)), with_steps (b2 ++ after) show,
         if (n =? 0)%nat then w else issue (messages_of b1) (filtered show w)) /\ (n = 0%nat -> b1 = []).
  Proof.
    induction n as [|n IH]; intros before after show w HC HL.
    - exists [], before. destruct (conversions (items_of before)) eqn:E; [|discriminate]. auto 10.
    - destruct (conversions (items_of before)) as [|c cs] eqn:E; [discriminate|].
      destruct (next_calm_got before after (filtered show w) HC c cs E) as (b1 & b2 & -> & C1 & C2 & CB & N).
      injection HL as HL. destruct (IH b2 after show (issue (messages_of b1) (filtered show w)) CB) as (b3 & b4 & -> & C4 & CB4 & N2 & Z).
      { rewrite C2. auto. }
      exists (b1 ++ b3), b4. split; [apply app_assoc|]. split; auto. split; auto. split; [|discriminate].
      cbn [nexts]. unfold next at 1. cbn [rd_show rd_convert rd_steps with_steps]. fold (filtered show w).
      rewrite N. fold (with_steps ((b3 ++ b4) ++ after) show). rewrite N2. rewrite C2. cbn [map Nat.eqb].
      f_equal. destruct n as [|n]; cbn [Nat.eqb].
      + rewrite (Z eq_refl), app_nil_r. auto.
      + rewrite filtered_issue, issue_app, messages_app. auto.
  Qed.

  (** ** C43 *)

  (** The crystals come in order; nothing else stops the reader before an item which raises
      another exception, and the next call goes on after it. *)
  Theorem C43_exception_at_item : forall items x after e show w,
    Forall tolerable items -> snd (convert x) = Raise e -> e <> ParseError -> e <> StopIteration ->
    exists w', nexts (S (length (conversions items))) (with_steps (map Yields items ++ Yields x :: after) show) w =
      (map Got (conversions items) ++ [Failed (Raise e)], with_steps after show, w').
  Proof.
    intros items x after e show w HT HX H1 H2.
    assert (HC : calm (map Yields items)) by (apply calm_items; auto).
    assert (HI : items_of (map Yields items) = items) by apply items_yields.
    destruct (nexts_calm (length (conversions items)) (map Yields items) (Yields x :: after) show w HC) as (b1 & b2 & E & C2 & CB & N & _); [rewrite HI; auto|].
    set (n := length (conversions items)) in *.
    assert (G : forall n r w, nexts (S n) r w = let '(l, r, w) := nexts n r w in let '(e, r, w) := next name r w in (l ++ [e], r, w)).
    { clear. induction n as [|n IH]; intros r w.
      - cbn [nexts]. destruct (next name r w) as [[a b] c]. auto.
      - change (nexts (S (S n)) r w) with (let '(e, r, w) := next name r w in let '(l, r, w) := nexts (S n) r w in (e :: l, r, w)).
        cbn [nexts] in *. destruct (next name r w) as [[a b] c]. rewrite IH. destruct (nexts n b c) as [[l r'] w'].
        destruct (next name r' w') as [[a' b'] c']. auto. }
    rewrite G, N. set (w1 := if (n =? 0)%nat then w else issue (messages_of b1) (filtered show w)).
    unfold next. cbn [rd_show rd_convert rd_steps with_steps]. fold (filtered show w1).
    rewrite (next_calm b2 (Yields x :: after) _ CB), C2. cbn [next_item]. destruct (convert x) as [ws r] eqn:EX. cbn [snd] in HX. subst r.
    rewrite HI. eexists. destruct e; try congruence; reflexivity.
  Qed.
  (** Without such an item list(reader) gives all conversions, whatever the iterator warns
      about, and read() the only one or all. *)
  Lemma to_list_calm : forall steps show w fuel, calm steps -> (length (conversions (items_of steps)) < fuel)%nat ->
    to_list name fuel (with_steps steps show) w = (Done (conversions (items_of steps)), issue (messages_of steps) (filtered show w)).
  Proof.
    intros steps show w fuel. remember (conversions (items_of steps)) as cs eqn:E. symmetry in E. revert steps w fuel E.
    induction cs as [|c cs IH]; intros steps w fuel E HC HF; (destruct fuel as [|fuel]; [lia|]); cbn [to_list]; unfold next;
      cbn [rd_show rd_convert rd_steps with_steps]; fold (filtered show w).
    - rewrite <- (app_nil_r steps) at 1. rewrite next_calm, E by auto. reflexivity.
    - destruct (next_calm_got steps [] (filtered show w) HC c cs E) as (b1 & b2 & -> & C1 & C2 & CB & N).
      rewrite app_nil_r in N. rewrite N, app_nil_r. fold (with_steps b2 show). rewrite IH by (auto; simpl in HF; lia).
      cbn. rewrite filtered_issue, issue_app, messages_app. auto.
  Qed.
  Theorem C43_all_items : forall items show w fuel, Forall tolerable items -> (length items < fuel)%nat ->
    fst (to_list name fuel (with_steps (map Yields items) show) w) = Done (conversions items) /\
    fst (read name fuel (with_steps (map Yields items) show) w) =
      Done (match conversions items with [c] => One c | cs => Several cs end).
  Proof.
    intros items show w fuel HT HF.
    assert (HC : calm (map Yields items)) by (apply calm_items; auto).
    assert (HI : items_of (map Yields items) = items) by apply items_yields.
    pose proof (conversions_length items) as HL.
    unfold read. rewrite to_list_calm by (auto; rewrite HI; lia). rewrite HI. cbn.
    split; auto. destruct (conversions items) as [|c [|c' cs]]; auto.
  Qed.

  (** ** C44 *)

  (** Exactly the warnings about crystals which were read are shown, *)
  Theorem C44_shown : forall items w fuel, Forall tolerable items -> (length items < fuel)%nat -> ignoring w = false ->
    shown (snd (to_list name fuel (with_steps (map Yields items) true) w)) = shown w ++ named_warnings items.
  Proof.
    intros items w fuel HT HF HW.
    assert (HC : calm (map Yields items)) by (apply calm_items; auto).
    assert (HI : items_of (map Yields items) = items) by apply items_yields.
    pose proof (conversions_length items) as HL.
    rewrite to_list_calm by (auto; rewrite HI; lia). unfold issue. cbn [snd filtered]. rewrite HW. cbn [shown]. f_equal.
    clear. induction items as [|x l IH]; auto. exact (f_equal (app _) IH).
  Qed.
  (** none with show_warnings=False. *)
  Theorem C44_hidden : forall items w fuel, Forall tolerable items -> (length items < fuel)%nat ->
    shown (snd (to_list name fuel (with_steps (map Yields items) false) w)) = shown w.
  Proof.
    intros items w fuel HT HF.
    assert (HC : calm (map Yields items)) by (apply calm_items; auto).
    assert (HI : items_of (map Yields items) = items) by apply items_yields.
    pose proof (conversions_length items) as HL.
    rewrite to_list_calm by (auto; rewrite HI; lia). reflexivity.
  Qed.

  (** ** Directories *)

  (** The files which are parsed: those with a fitting extension. *)
  Definition chosen_file (extensions : list string) (en : entry) : Prop := en_is_file en = true /\ In (en_suffix en) extensions.

  (** The items a file gives: all of them if it parses; otherwise those before the error,
      unless the file is parsed as a whole first. *)
  Definition file_items (p : parser item) (f : string) : list item :=
    match snd (ps_parse p f) with None => fst (ps_parse p f) | Some _ => if ps_eager p then [] else fst (ps_parse p f) end.
  Lemma parsed_items : forall p f, fst (parsed p f) = file_items p f.
  Proof. intros p f. unfold parsed, file_items. destruct (ps_parse p f) as [l [e|]]; auto. Qed.
  Lemma parsed_error : forall p f, snd (parsed (item := item) p f) = snd (ps_parse p f).
  Proof. intros p f. unfold parsed. destruct (ps_parse p f) as [l [e|]]; auto. Qed.

  (** A file which cannot be parsed gives a warning and no longer stops anything. *)
  Theorem C43_directory : forall (p : parser item) extensions entries show w fuel,
    let files := filter (fun en => (en_is_file en && existsb (String.eqb (en_suffix en)) extensions)%bool) entries in
    let items := flat_map (fun en => file_items p (en_path en)) files in
    Forall tolerable items -> (length items < fuel)%nat ->
    (forall en, In en files <-> In en entries /\ chosen_file extensions en) /\
    make_reader p extensions convert show (ADir entries) = Done (with_steps (dir_steps p extensions entries) show) /\
    fst (to_list name fuel (with_steps (dir_steps p extensions entries) show) w) = Done (conversions items) /\
    (show = true -> ignoring w = false ->
     forall en, In en files -> snd (ps_parse p (en_path en)) <> None ->
       In (BadFile (en_path en)) (shown (snd (to_list name fuel (with_steps (dir_steps p extensions entries) show) w)))).
  Proof.
    intros p extensions entries show w fuel files items HT HF.
    assert (SI : items_of (dir_steps p extensions entries) = items).
    { unfold items, files, dir_steps. clear. induction entries as [|en l IH]; auto. cbn [flat_map filter]. rewrite items_app, IH.
      destruct (en_is_file en); cbn [negb andb]; auto. destruct (existsb (String.eqb (en_suffix en)) extensions); cbn [negb]; auto.
      cbn [flat_map]. f_equal. rewrite <- parsed_items. destruct (parsed p (en_path en)) as [its e]. cbn [fst]. rewrite items_app.
      replace (items_of (match e with Some _ => [Warns (BadFile (en_path en))] | None => [] end)) with (@nil item) by (destruct e; auto).
      rewrite app_nil_r. apply items_yields. }
    assert (SC : calm (dir_steps p extensions entries)).
    { assert (Q : forall s : step, In s (dir_steps p extensions entries) -> match s with Throws _ => False | _ => True end).
      { intros s Hs. unfold dir_steps in Hs. apply in_flat_map in Hs as (en & _ & Hs).
        destruct (negb (en_is_file en)); [destruct Hs|]. destruct (negb _); [destruct Hs|]. destruct (parsed p (en_path en)) as [its e].
        apply in_app_or in Hs as [Hs|Hs].
        - apply in_map_iff in Hs as (x & <- & _). auto.
        - destruct e; [|destruct Hs]. destruct Hs as [<-|[]]; auto. }
      revert Q. rewrite <- SI in HT. revert HT. generalize (dir_steps (warning := warning) p extensions entries). induction l as [|[x|m|e] l IH]; intros HT Q; cbn; auto.
      - cbn in HT. inversion HT; subst. split; auto. apply IH; auto. intros s Hs. apply Q. right. auto.
      - apply IH; auto. intros s Hs. apply Q. right. auto.
      - apply (Q (Throws e)). left. auto. }
    pose proof (conversions_length items) as HL.
    split; [|split; [reflexivity|split]].
    - intros en. unfold files. rewrite filter_In, andb_true_iff, existsb_exists. unfold chosen_file.
      split; intros [H1 [H2 H3]]; (split; [auto|split; [auto|]]).
      + destruct H3 as (s & Hs & E). apply String.eqb_eq in E. subst s. auto.
      + exists (en_suffix en). split; auto. apply String.eqb_refl.
    - rewrite to_list_calm by (auto; rewrite SI; lia). rewrite SI. auto.
    - intros -> HW en Hen He. rewrite to_list_calm by (auto; rewrite SI; lia). unfold issue. cbn [snd filtered]. rewrite HW. cbn [shown].
      apply in_or_app. right. unfold messages_of. apply in_flat_map. exists (Warns (BadFile (en_path en))). split; [|left; auto].
      unfold dir_steps. apply in_flat_map. exists en. unfold files in Hen. apply filter_In in Hen as [H1 H2]. apply andb_true_iff in H2 as [H2 H3].
      split; auto. rewrite H2, H3. cbn [negb]. rewrite <- parsed_error in He. destruct (parsed p (en_path en)) as [its e]. cbn [snd] in He. apply in_or_app. right.
      destruct e; [left; auto|congruence].
  Qed.
End Reading.

(** A crystal skipped because of a ParseError is not mentioned: the reader of this one item
    shows nothing, with show_warnings=True and no filter. *)
Theorem C44_skipped_refuted : exists (convert : string -> list string * outcome string) (x : string) (w : wstate string),
  snd (convert x) = Raise ParseError /\ ignoring w = false /\
  to_list (fun c => c) 2 (with_steps convert (map Yields [x]) true) w = (Done [], w) /\ shown w = [].
Proof.
  exists (fun _ => (["disordered"], Raise ParseError)), "ABC", {| ignoring := false; shown := [] |}. auto.
Qed.
Example C43_case : let convert := fun s => if String.eqb s "bad" then ([], Raise ParseError)
    else if String.eqb s "worse" then ([], Raise ValueError) else (["overlapping"], Done s) in
  Forall (tolerable convert) ["a"; "bad"; "b"] /\ conversions convert ["a"; "bad"; "b"] = ["a"; "b"] /\
  named_warnings (fun c => c) convert ["a"; "bad"; "b"] = [Named "a" "overlapping"; Named "b" "overlapping"] /\
  snd (convert "worse") = Raise ValueError.
Proof.
  cbv zeta. split; [|auto]. constructor; [|constructor; [|constructor; [|constructor]]].
  - exists ["overlapping"]. left. exists "a". auto.
  - exists []. right. auto.
  - exists ["overlapping"]. left. exists "b". auto.
Qed.

(** ** C60: show_warnings=False *)

(** A reader with show_warnings=False silences readers with show_warnings=True, from its first
    step on and for good. *)
Theorem C60_filter_refuted : exists (quiet loud : reader string string string) (w : wstate string),
  rd_show quiet = false /\ rd_show loud = true /\ ignoring w = false /\
  (let '(_, _, w') := next (fun c => c) loud w in shown w' <> shown w) /\
  (let '(_, _, w1) := next (fun c => c) quiet w in let '(_, _, w2) := next (fun c => c) loud w1 in shown w2 = shown w).
Proof.
  exists (with_steps (fun s => (["overlapping"], Done s)) [Yields "a"] false),
    (with_steps (fun s => (["overlapping"], Done s)) [Yields "b"] true), {| ignoring := false; shown := [] |}.
  repeat (split; [reflexivity|]). split; [discriminate|reflexivity].
Qed.
(** It never un-silences: with show_warnings=True the filter stays as it was. *)
Theorem C60_filter_partial : forall item crystal warning (name : crystal -> string) (r : reader item crystal warning) w res r' w',
  next name r w = (res, r', w') -> ignoring w' = (ignoring w || negb (rd_show r))%bool /\ rd_show r' = rd_show r.
Proof.
  intros item crystal warning name r w res r' w' E. unfold next in E.
  set (w0 := if rd_show r then w else {| ignoring := true; shown := shown w |}) in E.
  destruct (next_item name (rd_convert r) (rd_steps r) w0) as [[e st] w1] eqn:N. injection E as <- <- <-. split; auto.
  assert (I : ignoring w1 = ignoring w0).
  { assert (Q : forall ms (u : wstate warning), ignoring (issue ms u) = ignoring u) by (intros ms [[] s]; reflexivity).
    clearbody w0. revert w0 e st w1 N. induction (rd_steps r) as [|[x|m|x] l IH]; intros w0 e st w1 N; cbn [next_item] in N.
    - injection N as <- <- <-. auto.
    - destruct (rd_convert r x) as [ws [c|[]| |]]; try (injection N as <- <- <-; auto); eauto.
    - rewrite (IH _ _ _ _ N). apply Q.
    - destruct x; injection N as <- <- <-; auto. }
  rewrite I. unfold w0. destruct (rd_show r); cbn; [rewrite orb_false_r|rewrite orb_true_r]; auto.
Qed.

(** ** C49 *)

(** The positions of the first occurrences, in order, give the refcodes which are read. *)
Theorem C49_unique_refcodes : forall all, exists positions,
  unique_refcodes all = map (fun i => nth i all "") positions /\ StronglySorted lt positions /\
  (forall i, In i positions <-> (i < length all)%nat /\ forall j, (j < i)%nat -> nth j all "" <> nth i all "") /\
  NoDup (unique_refcodes all) /\ (forall s, In s (unique_refcodes all) <-> In s all).
Proof.
  intros all.
  set (f := fun '(refcodes, seen) refcode => if existsb (String.eqb refcode) seen then (refcodes, seen)
           else (refcodes ++ [refcode], refcode :: seen)).
  assert (X : exists positions seen,
    fold_left f all ([], []) = (map (fun i => nth i all "") positions, seen) /\ StronglySorted lt positions /\
    (forall i, In i positions <-> (i < length all)%nat /\ forall j, (j < i)%nat -> nth j all "" <> nth i all "") /\
    NoDup (map (fun i => nth i all "") positions) /\ (forall s, In s (map (fun i => nth i all "") positions) <-> In s all) /\
    (forall s, In s seen <-> In s all)).
  { induction all as [|s all IH] using rev_ind.
    - exists [], []. split; auto. split; [constructor|]. split; [|split; [constructor|split; tauto]]. cbn. intros i. split; [tauto|lia].
    - destruct IH as (ps & seen & E & HS & HP & HN & HI & HE). rewrite fold_left_app, E. cbn [fold_left f].
      assert (LT : forall i, In i ps -> (i < length all)%nat) by (intros i Hi; apply HP; auto).
      assert (EN : map (fun i => nth i (all ++ [s]) "") ps = map (fun i => nth i all "") ps).
      { apply map_ext_in. intros i Hi. apply app_nth1. auto. }
      assert (OLD : forall i, (i < length all)%nat -> (forall j, (j < i)%nat -> nth j (all ++ [s]) "" <> nth i (all ++ [s]) "") <->
         (forall j, (j < i)%nat -> nth j all "" <> nth i all "")).
      { intros i Hi. split; intros Q j Hj; specialize (Q j Hj); rewrite !app_nth1 in * by lia; auto. }
      assert (NEW : (forall j, (j < length all)%nat -> nth j (all ++ [s]) "" <> nth (length all) (all ++ [s]) "") <-> ~ In s all).
      { rewrite app_nth2 by lia. rewrite Nat.sub_diag. cbn [nth]. split.
        - intros Q I. apply (In_nth _ _ "") in I as (j & Hj & Ej). apply (Q j Hj). rewrite app_nth1 by auto. auto.
        - intros Q j Hj Ej. rewrite app_nth1 in Ej by auto. apply Q. rewrite <- Ej. apply nth_In. auto. }
      rewrite app_length. cbn [length].
      destruct (existsb (String.eqb s) seen) eqn:B.
      + assert (I : In s all).
        { apply existsb_exists in B as (s' & Hs & Q). apply String.eqb_eq in Q. subst s'. apply HE. auto. }
        exists ps, seen. rewrite EN. split; auto. split; auto. split; [|split; [auto|split]].
        * intros i. rewrite HP. split; intros [Hi Q].
          -- split; [lia|]. apply OLD; auto.
          -- assert (D : i <> length all) by (intros ->; apply (proj1 NEW Q); auto). assert (Hi' : (i < length all)%nat) by lia.
             split; auto. apply (proj1 (OLD i Hi')). auto.
        * intros t. rewrite HI, in_app_iff. split; auto. intros [Ht|[<-|[]]]; auto.
        * intros t. rewrite HE, in_app_iff. split; auto. intros [Ht|[<-|[]]]; auto.
      + assert (I : ~ In s all).
        { intros I. apply HE in I. assert (Q : existsb (String.eqb s) seen = true) by (apply existsb_exists; exists s; split; auto; apply String.eqb_refl). congruence. }
        exists (ps ++ [length all]), (s :: seen). rewrite map_app, EN. cbn [map]. rewrite app_nth2 by lia. rewrite Nat.sub_diag. cbn [nth].
        split; auto. split; [|split; [|split; [|split]]].
        * clear - HS LT. induction HS as [|i l HS IH HF]; cbn; [repeat constructor|]. constructor.
          -- apply IH. intros; apply LT; right; auto.
          -- apply Forall_app. split; auto. constructor; auto. apply LT. left. auto.
        * intros i. rewrite in_app_iff, HP. cbn [In]. split.
          -- intros [[Hi Q]|[<-|[]]]; (split; [lia|]); [apply OLD; auto|apply NEW; auto].
          -- intros [Hi Q]. destruct (Nat.eq_dec i (length all)) as [->|D]; auto. left. assert (Hi' : (i < length all)%nat) by lia. split; auto.
             apply (proj1 (OLD i Hi')). auto.
        * apply NoDup_rev in HN. rewrite <- (rev_involutive (_ ++ [s])). apply NoDup_rev. rewrite rev_app_distr. cbn. constructor; auto.
          rewrite <- in_rev. rewrite HI. auto.
        * intros t. rewrite !in_app_iff, HI. tauto.
        * intros t. cbn [In]. rewrite in_app_iff, HE. cbn. tauto. }
  destruct X as (ps & seen & E & HS & HP & HN & HI & _). exists ps. unfold unique_refcodes. fold f. rewrite E. cbn [fst]. auto 10.
Qed.
(** For families every hit of every family is read once. *)
Theorem C49_families : forall search l, exists refcodes,
  csd_refcodes search (Refcodes (map Some l)) true = Done (Some refcodes) /\ NoDup refcodes /\
  forall s, In s refcodes <-> exists family, In family l /\ In s (search family).
Proof.
  intros search l. exists (unique_refcodes (flat_map search l)).
  destruct (C49_unique_refcodes (flat_map search l)) as (ps & _ & _ & _ & HN & HI). split; [|split; auto].
  - unfold csd_refcodes. replace (all_strings (map Some l)) with (Some l); auto.
    clear. induction l as [|s l IH]; auto. cbn. rewrite <- IH. auto.
  - intros s. rewrite HI. apply in_flat_map.
Qed.
(** What CSDReader reads: for families the first of each refcode among all hits, in order;
    otherwise the given refcodes as they are; for 'CSD' in any case the whole database. *)
Theorem C49_reader : forall item crystal warning entries (item_of : string -> item) (get : string -> outcome item) search
    (c : bool -> string -> bool -> bool -> item -> list warning * outcome crystal) l h d heavy centres show,
  In d ["skip"; "ordered_sites"; "all_sites"] -> (forall s, get s = Done (item_of s)) ->
  let reader_of arg families := csd_reader (Some (entries, get, search, c)) arg families h d heavy centres show in
  let reading items := {| rd_steps := map Yields items; rd_convert := c h d centres heavy; rd_show := show |} in
  (exists positions, StronglySorted lt positions /\
     (forall i, In i positions <-> (i < length (flat_map search l))%nat /\
        forall j, (j < i)%nat -> nth j (flat_map search l) "" <> nth i (flat_map search l) "") /\
     reader_of (Refcodes (map Some l)) true = Done (reading (map (fun i => item_of (nth i (flat_map search l) "")) positions))) /\
  reader_of (Refcodes (map Some l)) false = Done (reading (map item_of l)) /\
  (forall families, reader_of AllCSD families = Done (reading entries)) /\
  (forall families s, In s ["CSD"; "csd"; "Csd"; "cSd"; "csD"; "CSd"; "CsD"; "cSD"] -> reader_of (OneRefcode s) families = Done (reading entries)).
Proof.
  intros item crystal warning entries item_of get search c l h d heavy centres show HD HG reader_of reading.
  assert (D : disorder_ok d = true).
  { unfold disorder_ok. apply existsb_exists. exists d. split; auto. apply String.eqb_refl. }
  assert (A : all_strings (map Some l) = Some l) by (clear; induction l as [|s l IH]; auto; cbn; rewrite IH; auto).
  assert (G : forall k, map (fun s => match get s with Done x => Yields x | Raise e => Throws e | _ => Throws RuntimeError end) k =
     map (Yields (warning := warning)) (map item_of k)).
  { intros k. rewrite map_map. apply map_ext. intros s. rewrite HG. auto. }
  unfold reader_of, csd_reader. rewrite D. cbn [negb]. split; [|split; [|split]].
  - destruct (C49_unique_refcodes (flat_map search l)) as (ps & E & HS & HP & _). exists ps. split; auto. split; auto.
    unfold csd_refcodes. rewrite A. cbn [obind]. rewrite G, E, (map_map (fun i => nth i _ "") item_of). reflexivity.
  - unfold csd_refcodes. rewrite A. cbn [obind]. rewrite G. auto.
  - intros families. reflexivity.
  - intros families s Hs. cbn [In] in Hs. repeat (destruct Hs as [<-|Hs]; [reflexivity|]). destruct Hs.
Qed.
Example C49_case : unique_refcodes ["B"; "A"; "B"; "C"; "A"] = ["B"; "A"; "C"].
Proof. reflexivity. Qed.

(** ** C61: arguments *)

(** CifReader accepts exactly these arguments (for files which parse). *)
Theorem C61_accepted : forall item crystal warning (be : backends item crystal warning) f name h d heavy centres show,
  (forall p e, f = AFile p -> snd (parsed (fst (be_gemmi be)) p) <> Some e /\ snd (parsed (fst (be_ase be name)) p) <> Some e /\
     snd (parsed (fst (be_pymatgen be)) p) <> Some e /\
     forall ex ps c, be_ccdc be = Some (ex, ps, c) -> snd (parsed ps p) <> Some e) ->
  (exists r, cif_reader be f name h d heavy centres show = Done r) <->
  In d ["skip"; "ordered_sites"; "all_sites"] /\ f <> NoPath /\
  ((In name ["gemmi"; "ase"; "pycodcif"; "pymatgen"] /\ heavy = false /\ centres = false) \/
   (name = "ccdc" /\ be_ccdc be <> None)).
Proof.
  intros item crystal warning be f name h d heavy centres show HP.
  assert (D : disorder_ok d = true <-> In d ["skip"; "ordered_sites"; "all_sites"]).
  { unfold disorder_ok. rewrite existsb_exists. split.
    - intros (x & Hx & E). apply String.eqb_eq in E. subst. auto.
    - intros Hd. exists d. split; auto. apply String.eqb_refl. }
  assert (MK : forall p ext conv, (forall g e, f = AFile g -> snd (parsed p g) <> Some e) ->
    (exists r, make_reader (item := item) (crystal := crystal) (warning := warning) p ext conv show f = Done r) <-> f <> NoPath).
  { intros p ext conv HG. destruct f as [g|es|]; cbn [make_reader].
    - split; [discriminate|]. intros _. unfold file_steps. destruct (parsed p g) as [its [e|]] eqn:E.
      + exfalso. apply (HG g e eq_refl). rewrite E. auto.
      + cbn. eauto.
    - split; [discriminate|]. eauto.
    - split; [intros [r E]; discriminate|congruence]. }
  assert (DN : disorder_ok d = false <-> ~ In d ["skip"; "ordered_sites"; "all_sites"]).
  { rewrite <- D. destruct (disorder_ok d); split; congruence. }
  unfold cif_reader. destruct (disorder_ok d) eqn:ED; cbn [negb].
  2: { split; [intros [r E]; discriminate|]. intros [Q _]. exfalso. apply (proj1 DN eq_refl). exact Q. }
  apply proj1 in D. specialize (D eq_refl).
  destruct (String.eqb_spec name "ccdc") as [->|NC]; cbn [negb andb].
  - cbn [String.eqb Ascii.eqb Bool.eqb orb]. destruct (be_ccdc be) as [[[ex p] c]|] eqn:EC.
    + rewrite MK by (intros g e Hg; apply (HP g e Hg) with (1 := eq_refl)). split; [|tauto]. intros Q. split; auto. split; auto.
      right. split; [auto|discriminate].
    + split; [intros [r E]; discriminate|]. intros (_ & _ & [[Q _]|[_ Q]]); [|congruence]. cbn in Q. intuition discriminate.
  - destruct heavy, centres; cbn [orb]; try (split; [intros [r E]; discriminate|]; intros (_ & _ & [(_ & Q1 & Q2)|[Q _]]); congruence).
    destruct (String.eqb_spec name "gemmi") as [->|N1].
    { rewrite MK by (intros g e Hg; apply (HP g e Hg)). split; [|tauto]. intros Q. split; auto. split; auto. left. cbn. auto. }
    destruct (String.eqb_spec name "ase") as [->|N2]; cbn [orb].
    { rewrite MK by (intros g e Hg; apply (HP g e Hg)). split; [|tauto]. intros Q. split; auto. split; auto. left. cbn. auto. }
    destruct (String.eqb_spec name "pycodcif") as [->|N3].
    { rewrite MK by (intros g e Hg; apply (HP g e Hg)). split; [|tauto]. intros Q. split; auto. split; auto. left. cbn. auto. }
    destruct (String.eqb_spec name "pymatgen") as [->|N4].
    { rewrite MK by (intros g e Hg; apply (HP g e Hg)). split; [|tauto]. intros Q. split; auto. split; auto. left. cbn. auto 6. }
    split; [intros [r E]; discriminate|]. intros (_ & _ & [(Q & _)|[Q _]]); [|congruence]. cbn in Q. intuition congruence.
Qed.

(** The reader converts the items of the file with the chosen backend and the given options. *)
Theorem C61_options : forall item crystal warning (be : backends item crystal warning) f name h d heavy centres show r,
  cif_reader be f name h d heavy centres show = Done r ->
  rd_show r = show /\ exists p,
  (forall file, f = AFile file -> snd (ps_parse p file) = None -> rd_steps r = map Yields (fst (ps_parse p file))) /\
  ((name = "gemmi" /\ p = fst (be_gemmi be) /\ rd_convert r = snd (be_gemmi be) h d) \/
   ((name = "ase" \/ name = "pycodcif") /\ p = fst (be_ase be name) /\ rd_convert r = snd (be_ase be name) h d) \/
   (name = "pymatgen" /\ p = fst (be_pymatgen be) /\ rd_convert r = snd (be_pymatgen be) h d) \/
   (name = "ccdc" /\ exists ext c, be_ccdc be = Some (ext, p, c) /\ rd_convert r = c h d centres heavy)).
Proof.
  intros item crystal warning be f name h d heavy centres show r E.
  assert (MK : forall p ext conv, make_reader p ext conv show f = Done r -> rd_show r = show /\ rd_convert r = conv /\
     (forall file, f = AFile file -> snd (ps_parse p file) = None -> rd_steps r = map Yields (fst (ps_parse p file)))).
  { intros p ext conv Q. destruct f as [g|es|]; cbn [make_reader] in Q; [| |discriminate].
    - unfold file_steps, parsed in Q. destruct (ps_parse p g) as [items [e|]] eqn:EP.
      + split; [|split].
        * destruct (ps_eager p); [discriminate|]. injection Q as <-. auto.
        * destruct (ps_eager p); [discriminate|]. injection Q as <-. auto.
        * intros file HF HN. injection HF as ->. rewrite EP in HN. discriminate.
      + injection Q as <-. split; auto. split; auto. intros file HF _. injection HF as ->. rewrite EP. auto.
    - injection Q as <-. split; auto. split; auto. discriminate. }
  unfold cif_reader in E. destruct (negb (disorder_ok d)); [discriminate|]. destruct (negb _ && _)%bool; [discriminate|].
  destruct (String.eqb_spec name "gemmi") as [->|N1]; [destruct (MK _ _ _ E) as (M1 & M2 & M3); split; eauto 10|].
  destruct (String.eqb_spec name "ase") as [->|N2]; cbn [orb] in E; [destruct (MK _ _ _ E) as (M1 & M2 & M3); split; eauto 10|].
  destruct (String.eqb_spec name "pycodcif") as [->|N3]; [destruct (MK _ _ _ E) as (M1 & M2 & M3); split; eauto 10|].
  destruct (String.eqb_spec name "pymatgen") as [->|N4]; [destruct (MK _ _ _ E) as (M1 & M2 & M3); split; eauto 10|].
  destruct (String.eqb_spec name "ccdc") as [->|N5]; [|discriminate]. destruct (be_ccdc be) as [[[ext p] c]|] eqn:EC; [|discriminate].
  destruct (MK _ _ _ E) as (M1 & M2 & M3). split; auto. exists p. split; auto. do 3 right. split; auto. exists ext, c. auto.
Qed.
Example C61_case : let be := {| be_gemmi := ({| ps_parse := fun f => ([f], None); ps_eager := true |}, fun _ _ x => ([], Done x));
    be_ase := fun _ => ({| ps_parse := fun f => ([f], None); ps_eager := false |}, fun _ _ x => ([], Done x));
    be_pymatgen := ({| ps_parse := fun f => ([f], None); ps_eager := true |}, fun _ _ x => ([], Done x)); be_ccdc := None |}
    : backends string string string in
  (exists r, cif_reader be (AFile "a.cif") "gemmi" false "skip" false false true = Done r) /\
  cif_reader be (AFile "a.cif") "gemmi" false "skip" true false true = Raise NotImplementedError /\
  cif_reader be (AFile "a.cif") "ccdc" false "skip" true false true = Raise ImportError.
Proof. cbv zeta. split; [eexists; reflexivity|]. split; reflexivity. Qed.


(** CSDReader accepts exactly these arguments. *)
Theorem C61_csd_accepted : forall item crystal warning (database : option (list item * (string -> outcome item) * (string -> list string)
    * (bool -> string -> bool -> bool -> item -> list warning * outcome crystal))) arg families h d heavy centres show,
  (exists r, csd_reader database arg families h d heavy centres show = Done r) <->
  In d ["skip"; "ordered_sites"; "all_sites"] /\ database <> None /\ arg <> OtherArg /\ (forall l, arg = Refcodes l -> ~ In None l).
Proof.
  intros item crystal warning database arg families h d heavy centres show.
  assert (D : disorder_ok d = true <-> In d ["skip"; "ordered_sites"; "all_sites"]).
  { unfold disorder_ok. rewrite existsb_exists. split.
    - intros (x & Hx & E). apply String.eqb_eq in E. subst. auto.
    - intros Hd. exists d. split; auto. apply String.eqb_refl. }
  assert (A : forall l, (exists l', all_strings l = Some l') <-> ~ In None l).
  { induction l as [|[s|] l IH]; cbn; [split; [tauto|eauto]| |split; [intros [l' E]; discriminate|tauto]].
    split.
    - intros [l' E] [Q|Q]; [discriminate|]. destruct (all_strings l) as [k|] eqn:EA; [|discriminate]. apply (proj1 IH); eauto.
    - intros Q. destruct (proj2 IH) as [k Hk]; [tauto|]. rewrite Hk. cbn. eauto. }
  unfold csd_reader. destruct (disorder_ok d) eqn:ED; cbn [negb].
  2: { split; [intros [r E]; discriminate|]. intros [Q _]. apply D in Q. congruence. }
  destruct database as [[[[entries get] search] c]|]; [|split; [intros [r E]; discriminate|tauto]].
  assert (S : (exists o, csd_refcodes search arg families = Done o) <-> arg <> OtherArg /\ (forall l, arg = Refcodes l -> ~ In None l)).
  { unfold csd_refcodes. destruct arg as [|s|l|]; cbn [obind].
    - split; [split; discriminate|eauto].
    - split; [split; discriminate|]. intros _. destruct (String.eqb (lower s) "csd"); cbn [obind]; [eauto|destruct families; eauto].
    - destruct (all_strings l) as [k|] eqn:EA; cbn [obind].
      + split; [|intros _; destruct families; eauto]. intros _. split; [discriminate|]. intros l' Q. injection Q as <-. apply A. eauto.
      + split; [intros [o Q]; discriminate|]. intros [_ Q]. destruct (proj2 (A l) (Q l eq_refl)) as [k Q']. congruence.
    - split; [intros [o Q]; discriminate|tauto]. }
  destruct (csd_refcodes search arg families) as [o|e| |] eqn:EC; cbn [obind].
  - split; [|eauto]. intros _. split; [tauto|]. split; [discriminate|]. apply S. eauto.
  - split; [intros [r Q]; discriminate|]. intros (_ & _ & Q). apply S in Q as [o Q]. discriminate.
  - split; [intros [r Q]; discriminate|]. intros (_ & _ & Q). apply S in Q as [o Q]. discriminate.
  - split; [intros [r Q]; discriminate|]. intros (_ & _ & Q). apply S in Q as [o Q]. discriminate.
Qed.

(** A single file which is parsed item by item and fails after some items: these are read
    and the exception reaches the user. *)
Theorem C43_file_error : forall item crystal warning (name : crystal -> string) (convert : item -> list warning * outcome crystal)
    (p : parser item) ext f e show w r,
  snd (ps_parse p f) = Some e -> e <> StopIteration ->
  (ps_eager p = true -> make_reader p ext convert show (AFile f) = Raise e) /\
  (ps_eager p = false -> Forall (tolerable convert) (fst (ps_parse p f)) ->
   make_reader p ext convert show (AFile f) = Done r ->
   exists w' r', nexts name (S (length (conversions convert (fst (ps_parse p f))))) r w =
     (map Got (conversions convert (fst (ps_parse p f))) ++ [Failed (Raise e)], r', w')).
Proof.
  intros item crystal warning name convert p ext f e show w r HE HS. cbn [make_reader]. unfold file_steps, parsed.
  destruct (ps_parse p f) as [items o]. cbn [snd fst] in *. subst o. split; intros ->; cbn [obind]; auto. intros HT E. injection E as <-.
  assert (HC : calm convert (map (Yields (warning := warning)) items)) by (apply calm_items; auto).
  assert (HI : items_of (map (Yields (warning := warning)) items) = items) by apply items_yields.
  destruct (nexts_calm name convert (length (conversions convert items)) (map Yields items) [Throws e] show w HC) as (b1 & b2 & E & C2 & CB & N & _); [rewrite HI; auto|].
  set (n := length (conversions convert items)) in *.
  assert (G : forall n (r : reader item crystal warning) (w : wstate warning), nexts name (S n) r w = let '(l, r, w) := nexts name n r w in let '(e, r, w) := next name r w in (l ++ [e], r, w)).
  { clear. induction n as [|n IH]; intros r w.
    - cbn [nexts]. destruct (next name r w) as [[a b] c]. auto.
    - change (nexts name (S (S n)) r w) with (let '(e, r, w) := next name r w in let '(l, r, w) := nexts name (S n) r w in (e :: l, r, w)).
      cbn [nexts] in *. destruct (next name r w) as [[a b] c]. rewrite IH. destruct (nexts name n b c) as [[l r'] w'].
      destruct (next name r' w') as [[a' b'] c']. auto. }
  rewrite G. fold (with_steps convert (map Yields items ++ [Throws e]) show). rewrite N.
  set (w1 := if (n =? 0)%nat then w else issue (messages_of name convert b1) (filtered show w)).
  unfold next. cbn [rd_show rd_convert rd_steps with_steps]. fold (filtered show w1).
  rewrite (next_calm name convert b2 [Throws e] _ CB), C2. cbn [next_item]. rewrite HI. destruct e; try congruence; eauto.
Qed.


Print Assumptions C43_exception_at_item.
Print Assumptions C43_all_items.
Print Assumptions C43_directory.
Print Assumptions C44_shown.
Print Assumptions C44_hidden.
Print Assumptions C44_skipped_refuted.
Print Assumptions C49_unique_refcodes.
Print Assumptions C49_families.
Print Assumptions C49_reader.
Print Assumptions C60_filter_refuted.
Print Assumptions C60_filter_partial.
Print Assumptions C61_accepted.
Print Assumptions C61_options.
Print Assumptions C61_csd_accepted.
Print Assumptions C43_file_error.
