(** C77 and C78: symmetry operations of blocks which list none, from the space group. *)
From Coq Require Import List ZArith Reals Arith Bool Ascii String Lia Lra.
From Verif Require Import Num Base Outcome TextModel SpecText TextProofs Props_Text
  SitesModel SpecSites BlocksModel SpecBlocks BlocksProofs Props_Blocks.
Import ListNotations.
Open Scope string_scope.
Open Scope R_scope.
Open Scope list_scope.
Notation length := List.length.

(** No operations are listed. *)
Definition no_operations {A} (get : list ascii -> A) (absent : A -> Prop) : Prop :=
  Forall (fun t => absent (get t)) operation_tags.

Lemma first_nonempty_none : forall f tags, Forall (fun t => f t = []) tags -> first_nonempty f tags = None.
Proof. intros f tags F. induction F as [|t ts H F IH]; auto. cbn [first_nonempty]. rewrite H. auto. Qed.
Lemma first_some_none : forall A B (f : A -> option B) l, Forall (fun a => f a = None) l -> first_some f l = None.
Proof. intros A B f l F. induction F as [|t ts H F IH]; auto. cbn [first_some]. rewrite H. auto. Qed.
Lemma first_some_at : forall A B (f : A -> option B) l a l' b, Forall (fun a => f a = None) l -> f a = Some b ->
  first_some f (l ++ a :: l') = Some b.
Proof. intros A B f l a l' b F H. induction F as [|t ts H1 F IH]; cbn [app first_some]; [rewrite H|rewrite H1]; auto. Qed.
Lemma first_some_app : forall A B (f : A -> option B) l l',
  first_some f (l ++ l') = match first_some f l with Some b => Some b | None => first_some f l' end.
Proof. intros A B f l l'. induction l as [|a l IH]; auto. cbn [app first_some]. destruct (f a); auto. Qed.
Lemma first_some_concat : forall A B C (f : B -> option C) (g : A -> list B) l,
  first_some (fun t => first_some f (g t)) l = first_some f (List.concat (map g l)).
Proof.
  intros A B C f g l. induction l as [|a l IH]; auto. cbn [map List.concat first_some]. rewrite first_some_app, IH. auto.
Qed.

(** gemmi: the first name it knows, of those under the first tag and then those under the second;
    otherwise the number; otherwise the group 1, with a warning. *)
Theorem C77_gemmi : forall lib b, no_operations (gb_column b) (fun l => l = []) ->
  let names := List.concat (map (gb_column b) group_name_tags) in
  let unknown s := gl_group_by_name lib s = None in
  (forall ops, first_with (fun s => gl_group_by_name lib s = Some ops) unknown names ->
     gemmi_symmetry lib b = Done (ops, [])) /\
  (Forall unknown names ->
     (forall s n ops, first_given (gb_find_value b) (fun v => v = None) group_number_tags (Some s) ->
        gl_as_int lib s = Done n -> gl_group_by_number lib n = Done ops -> gemmi_symmetry lib b = Done (ops, [])) /\
     (forall ops, Forall (fun t => gb_find_value b t = None) group_number_tags -> gl_group_by_number lib 1 = Done ops ->
        gemmi_symmetry lib b = Done (ops, [NoSymmetry]))).
Proof.
  intros lib b HO names unknown. unfold gemmi_symmetry.
  change symop_tags with operation_tags. rewrite (first_nonempty_none _ _ HO).
  rewrite first_some_concat. change (List.concat (map (gb_column b) spacegroup_name_tags)) with names. split.
  - intros ops (before & s & after & E & F & G). rewrite E, (first_some_at _ _ _ _ _ _ ops) by auto. auto.
  - intros F. rewrite (first_some_none _ _ _ _ F). change spacegroup_number_tags with group_number_tags. split.
    + intros s n ops (before & t & after & E & F' & G) H1 H2.
      rewrite E, (first_some_at _ _ _ _ _ _ s) by auto. cbn [obind]. rewrite H1. cbn [obind]. rewrite H2. auto.
    + intros ops F' H1. rewrite (first_some_none _ _ _ _ F'). cbn [obind]. rewrite H1. auto.
Qed.

Lemma get_any_none : forall (get : list ascii -> cifval (T := R)) tags, Forall (fun t => get t = Nothing) tags -> get_any get tags = Nothing.
Proof. intros f tags F. induction F as [|t ts H F IH]; auto. cbn [get_any]. rewrite H. auto. Qed.
Lemma get_any_given : forall (get : list ascii -> cifval (T := R)) tags v, first_given get (fun v => v = Nothing) tags v -> v <> Nothing -> get_any get tags = v.
Proof.
  intros get tags v (before & t & after & E & F & G) H. subst tags. induction F as [|u us H1 F IH]; cbn [app get_any].
  - rewrite G. destruct v; auto. congruence.
  - rewrite H1. auto.
Qed.

(** ase: the first name, known or not; without names the first number; otherwise the group 1, with a warning. *)
Theorem C77_ase : forall spg b, no_operations (ab_get b) (fun v => v = Nothing) ->
  (forall v ops, first_given (ab_get b) (fun v => v = Nothing) small_name_tags v -> v <> Nothing -> spg v = Done ops ->
     ase_symmetry spg b = Done (ops, [])) /\
  (forall v e, first_given (ab_get b) (fun v => v = Nothing) small_name_tags v -> v <> Nothing -> spg v = Raise e ->
     ase_symmetry spg b = Raise e) /\
  (Forall (fun t => ab_get b t = Nothing) small_name_tags ->
     (forall v ops, first_given (ab_get b) (fun v => v = Nothing) small_number_tags v -> v <> Nothing -> spg v = Done ops ->
        ase_symmetry spg b = Done (ops, [])) /\
     (forall ops, Forall (fun t => ab_get b t = Nothing) small_number_tags -> spg (Number (Fin 1)) = Done ops ->
        ase_symmetry spg b = Done (ops, [NoSymmetry]))).
Proof.
  intros spg b HO. unfold ase_symmetry. change symop_tags with operation_tags. rewrite (get_any_none _ _ HO).
  change (lower_tags spacegroup_name_tags) with small_name_tags.
  change (lower_tags spacegroup_number_tags) with small_number_tags. split; [|split].
  - intros v ops G N E. rewrite (get_any_given _ _ v G N). destruct v; try congruence; rewrite E; auto.
  - intros v e G N E. rewrite (get_any_given _ _ v G N). destruct v; try congruence; rewrite E; auto.
  - intros F. rewrite (get_any_none _ _ F). split.
    + intros v ops G N E. rewrite (get_any_given _ _ v G N). destruct v; try congruence; rewrite E; auto.
    + intros ops F' E. rewrite (get_any_none _ _ F').
      match goal with |- context [spg ?x] => change x with (Number (Fin 1) : cifval (T := R)) end. rewrite E. auto.
Qed.

Lemma squeeze_iff : forall s s', squeezed s s' -> filter (fun c => negb (is_space c || is_char 95 c)) s = s'.
Proof.
  intros s s' Q. induction Q as [|c s s' H Q IH|c s s' H1 H2 Q IH]; auto; cbn [filter].
  - replace (is_space c || is_char 95 c)%bool with true; auto.
    symmetry. apply orb_true_iff. destruct H as [H| ->]; [left|right; reflexivity].
    unfold is_space, between, code. cbn [blanks In] in H. intuition (match goal with X : _ = nat_of_ascii c |- _ => rewrite <- X end; reflexivity).
  - replace (is_space c || is_char 95 c)%bool with false; [cbn [negb]; rewrite IH; auto|].
    symmetry. apply orb_false_iff. split.
    + unfold is_space, between, code. apply not_true_is_false. intros B. apply H1. cbn [blanks In].
      rewrite orb_true_iff, !andb_true_iff, !Nat.leb_le in B. lia.
    + unfold is_char, code. apply Nat.eqb_neq. intros E. apply H2.
      rewrite <- (ascii_nat_embedding c), E. reflexivity.
Qed.
Lemma blank_falsy : forall v, blank v -> falsy v = true.
Proof. intros v [->| ->]; reflexivity. Qed.
Lemma first_truthy_none : forall (get : list ascii -> cifval (T := R)) tags, Forall (fun t => blank (get t)) tags -> first_truthy get tags = Nothing.
Proof. intros f tags F. induction F as [|t ts H F IH]; auto. cbn [first_truthy]. rewrite blank_falsy; auto. Qed.

Definition skipped_name lib (v : cifval (T := R)) : Prop := blank v \/ name_with (pymatgen_unknown lib) v.
Lemma named_skip : forall lib get l l', Forall (fun t => skipped_name lib (get t)) l ->
  named_group lib get (l ++ l') = named_group lib get l'.
Proof.
  intros lib get l l' F. induction F as [|t ts [H|(s & E & N & s' & Q & H)] F IH]; auto; cbn [app named_group].
  - rewrite blank_falsy; auto.
  - rewrite E. destruct s as [|c s]; [congruence|]. cbn [falsy]. rewrite (squeeze_iff _ _ Q).
    destruct H as [->|(spg & -> & -> & ->)]; auto.
Qed.
Lemma named_at : forall lib get t l ops, name_with (fun s => pymatgen_names lib s ops) (get t) ->
  named_group lib get (t :: l) = Done ops.
Proof.
  intros lib get t l ops (s & E & N & s' & spg & Q & H1 & H2). cbn [named_group]. rewrite E.
  destruct s as [|c s]; [congruence|]. cbn [falsy]. rewrite (squeeze_iff _ _ Q), H1.
  destruct H2 as [->|(-> & texts & -> & F)]; auto. cbn [option_map]. unfold parse_sitesyms.
  pose proof (operations_parsed texts ops F) as P. unfold chars in *. rewrite P. auto.
Qed.
Lemma whole_float : forall lib v n, pymatgen_whole lib v n -> falsy v = false /\ str2float v = Done (Fin (IZR n)) /\ pl_int lib (IZR n) = n.
Proof.
  intros lib v n (s & -> & D & P). pose proof (missing_float s (IZR n) D) as F. split; [|split; auto].
  destruct s; [|reflexivity]. cbn in F. discriminate.
Qed.
Definition skipped_number lib (v : cifval (T := R)) : Prop :=
  blank v \/ exists n, pymatgen_whole lib v n /\ pl_group_by_number lib n = None.
Lemma numbered_skip : forall lib get l l', Forall (fun t => skipped_number lib (get t)) l ->
  numbered_group lib get (l ++ l') = numbered_group lib get l'.
Proof.
  intros lib get l l' F. induction F as [|t ts [H|(n & W & H)] F IH]; auto; cbn [app numbered_group].
  - rewrite blank_falsy; auto.
  - destruct (whole_float _ _ _ W) as (-> & -> & ->). rewrite H. auto.
Qed.
Lemma parse_xyz : parse_sitesyms (T := R) [text "x,y,z"] = Done [do_nothing].
Proof. reflexivity. Qed.

(** pymatgen: the first name in its tables, blanks and underscores in the name do not matter;
    otherwise the first number which stands for a group; otherwise x,y,z, with a warning. *)
Theorem C77_pymatgen : forall lib b, no_operations (pb_get b) blank ->
  (forall ops, ops <> [] ->
     first_with (fun t => name_with (fun s => pymatgen_names lib s ops) (pb_get b t))
                (fun t => skipped_name lib (pb_get b t)) group_name_tags ->
     pymatgen_symmetry lib b = Done (ops, [])) /\
  (Forall (fun t => skipped_name lib (pb_get b t)) group_name_tags ->
     (forall ops n, ops <> [] -> pl_group_by_number lib n = Some ops ->
        first_with (fun t => pymatgen_whole lib (pb_get b t) n) (fun t => skipped_number lib (pb_get b t)) group_number_tags ->
        pymatgen_symmetry lib b = Done (ops, [])) /\
     (Forall (fun t => skipped_number lib (pb_get b t)) group_number_tags ->
        pymatgen_symmetry lib b = Done ([do_nothing], [NoSymmetry]))).
Proof.
  intros lib b HO. unfold pymatgen_symmetry. change symop_tags with operation_tags. rewrite (first_truthy_none _ _ HO).
  change spacegroup_name_tags with group_name_tags. change spacegroup_number_tags with group_number_tags. split.
  - intros ops N (before & t & after & E & F & G). rewrite E, named_skip, (named_at _ _ _ _ ops) by auto.
    cbn [obind]. destruct ops; [congruence|]. auto.
  - intros F. replace (named_group lib (pb_get b) group_name_tags) with (Done (@nil (op (T := R)))).
    2:{ rewrite <- (app_nil_r group_name_tags), named_skip by auto. auto. }
    cbn [obind]. split.
    + intros ops n N P (before & t & after & E & F' & G). rewrite E, numbered_skip by auto. cbn [numbered_group].
      destruct (whole_float _ _ _ G) as (-> & -> & ->). rewrite P. cbn [obind]. destruct ops; [congruence|]. auto.
    + intros F'. replace (numbered_group lib (pb_get b) group_number_tags) with (Done (@nil (op (T := R)))).
      2:{ rewrite <- (app_nil_r group_number_tags), numbered_skip by auto. auto. }
      cbn [obind]. rewrite parse_xyz. auto.
Qed.

(** A block without operations as the three libraries present it: [n1] and [n2] are the names under the
    newer and the older tag, [m1] and [m2] the numbers. ase turns numerals into numbers. *)
Definition gemmi_values (o : option (list ascii)) : list (list ascii) := match o with Some s => [s] | None => [] end.
Definition as_text (o : option (list ascii)) : cifval (T := R) := match o with Some s => Str s | None => Nothing end.
Definition ase_value (o : option (list ascii)) (v : cifval (T := R)) : Prop :=
  match o with
  | None => v = Nothing
  | Some s => (exists x, plainly s x /\ v = Number (Fin x)) \/ ((~ exists x, plainly s x) /\ v = Str s)
  end.
Record presents (n1 n2 m1 m2 : option (list ascii)) (gb : gemmi_block) (ab : ase_block (T := R)) (pb : pymatgen_block (T := R)) : Prop := {
  pr_gemmi : no_operations (gb_column gb) (fun l => l = []);
  pr_gemmi_names : map (gb_column gb) group_name_tags = map gemmi_values [n1; n2];
  pr_gemmi_numbers : map (gb_find_value gb) group_number_tags = [m1; m2];
  pr_ase : no_operations (ab_get ab) (fun v => v = Nothing);
  pr_ase_names : map (ab_get ab) small_name_tags = map as_text [n1; n2];
  pr_ase_numbers : Forall2 ase_value [m1; m2] (map (ab_get ab) small_number_tags);
  pr_pymatgen : no_operations (pb_get pb) blank;
  pr_pymatgen_names : map (pb_get pb) group_name_tags = map as_text [n1; n2];
  pr_pymatgen_numbers : map (pb_get pb) group_number_tags = map as_text [m1; m2]
}.
(** The tables of the libraries agree on a name, or on a number written as [s]. *)
Record same_group_name (glib : gemmi_lib (T := R)) (spg : cifval (T := R) -> outcome (list operation))
  (plib : pymatgen_lib (T := R)) (s : list ascii) (ops : list operation) : Prop := {
  sn_gemmi : gl_group_by_name glib s = Some ops;
  sn_ase : spg (Str s) = Done ops;
  sn_pymatgen : s <> [] /\ pymatgen_names plib s ops
}.
Record same_group_number (glib : gemmi_lib (T := R)) (spg : cifval (T := R) -> outcome (list operation))
  (plib : pymatgen_lib (T := R)) (s : list ascii) (n : Z) (ops : list operation) : Prop := {
  su_number : plainly s (IZR n);
  su_gemmi : gl_as_int glib s = Done n /\ gl_group_by_number glib n = Done ops;
  su_ase : spg (Number (Fin (IZR n))) = Done ops;
  su_pymatgen : pl_int plib (IZR n) = n /\ pl_group_by_number plib n = Some ops
}.

Lemma plainly_one : forall s x y, plainly s x -> plainly s y -> x = y.
Proof.
  intros s x y Hx Hy. apply plainly_denotes, denotes_float in Hx, Hy. rewrite Hx in Hy. injection Hy as ->. auto.
Qed.

Definition all_give (glib : gemmi_lib (T := R)) gb spg ab plib pb (r : list operation * list warning) : Prop :=
  gemmi_symmetry glib gb = Done r /\ ase_symmetry spg ab = Done r /\ pymatgen_symmetry plib pb = Done r.

(** All three give the same operations from the name under the newer tag; from the one under the older tag
    if there is no other; likewise from numbers if there is no name; and if there is nothing. *)
Theorem C77_same_operations : forall n1 n2 m1 m2 gb ab pb glib spg plib, presents n1 n2 m1 m2 gb ab pb ->
  (forall s ops, ops <> [] -> n1 = Some s \/ n1 = None /\ n2 = Some s -> same_group_name glib spg plib s ops ->
     all_give glib gb spg ab plib pb (ops, [])) /\
  (n1 = None -> n2 = None -> forall s n ops, ops <> [] -> m1 = Some s \/ m1 = None /\ m2 = Some s ->
     same_group_number glib spg plib s n ops -> all_give glib gb spg ab plib pb (ops, [])) /\
  (n1 = None -> n2 = None -> m1 = None -> m2 = None ->
     gl_group_by_number glib 1 = Done [do_nothing] -> spg (Number (Fin 1)) = Done [do_nothing] ->
     all_give glib gb spg ab plib pb ([do_nothing], [NoSymmetry])).
Proof.
  intros n1 n2 m1 m2 gb ab pb glib spg plib P. destruct P as [G GN GU A AN AU P PN PU].
  destruct (C77_gemmi glib gb G) as [G1 G2]. destruct (C77_ase spg ab A) as [A1 [_ A2]]. destruct (C77_pymatgen plib pb P) as [P1 P2].
  rewrite GN in G1, G2.
  remember group_name_tags as gn eqn:Egn. destruct gn as [|t1 [|t2 [|? ?]]]; try discriminate Egn. clear Egn.
  remember group_number_tags as gu eqn:Egu. destruct gu as [|u1 [|u2 [|? ?]]]; try discriminate Egu. clear Egu.
  remember small_name_tags as sn eqn:Esn. destruct sn as [|v1 [|v2 [|? ?]]]; try discriminate Esn. clear Esn.
  remember small_number_tags as su eqn:Esu. destruct su as [|w1 [|w2 [|? ?]]]; try discriminate Esu. clear Esu.
  cbn [map] in *. injection GN as GN1 GN2. injection GU as GU1 GU2. injection AN as AN1 AN2. injection PN as PN1 PN2. injection PU as PU1 PU2.
  inversion AU as [|? ? ? ? AU1 AU']; subst. inversion AU' as [|? ? ? ? AU2 _]; subst. clear AU AU'.
  split; [|split].
  - intros s ops N S [E1 E2 [E3 E4]]. destruct n1 as [s1|], n2 as [s2|]; cbn in *.
    + assert (s1 = s) by (destruct S as [S|[S _]]; congruence). subst s1. split; [|split].
      * apply G1. exists [], s, [s2]. auto.
      * apply (A1 (Str s)); auto; [|discriminate]. exists [], v1, [v2]. auto.
      * apply P1; auto. exists [], t1, [t2]. split; [|split]; auto. exists s. auto.
    + assert (s1 = s) by (destruct S as [S|[S _]]; congruence). subst s1. split; [|split].
      * apply G1. exists [], s, []. auto.
      * apply (A1 (Str s)); auto; [|discriminate]. exists [], v1, [v2]. auto.
      * apply P1; auto. exists [], t1, [t2]. split; [|split]; auto. exists s. auto.
    + assert (s2 = s) by (destruct S as [S|[_ S]]; congruence). subst s2. split; [|split].
      * apply G1. exists [], s, []. auto.
      * apply (A1 (Str s)); auto; [|discriminate]. exists [v1], v2, []. auto.
      * apply P1; auto. exists [t1], t2, []. split; [|split]; auto.
        { constructor; [|constructor]. left. left. auto. }
        { exists s. auto. }
    + destruct S as [S|[_ S]]; discriminate.
  - intros -> -> s n ops N S [E1 [E2 E3] E4 [E5 E6]]. cbn in *.
    destruct (G2 (Forall_nil _)) as [G3 _]. 
    destruct A2 as [A3 _]; [apply Forall_cons; [auto|apply Forall_cons; [auto|constructor]]|].
    destruct P2 as [P3 _]; [apply Forall_cons; [left; left; auto|apply Forall_cons; [left; left; auto|constructor]]|].
    assert (AV : forall v, ase_value (Some s) v -> v = Number (Fin (IZR n))).
    { intros v [(x & Hx & ->)|[X _]]; [rewrite (plainly_one s x (IZR n)) by auto; auto|]. exfalso. eauto. }
    assert (PV : forall t, pb_get pb t = Str s -> pymatgen_whole plib (pb_get pb t) n).
    { intros t ->. exists s. split; auto. split; auto. apply plainly_or_zero. auto. }
    destruct S as [S|[S1 S2]].
    + rewrite S in *. split; [|split].
      * apply (G3 s n); auto. exists [], u1, [u2]. auto.
      * apply (A3 (Number (Fin (IZR n)))); auto; [|discriminate]. exists [], w1, [w2]. auto.
      * apply (P3 ops n); auto. exists [], u1, [u2]. auto.
    + rewrite S1, S2 in *. split; [|split].
      * apply (G3 s n); auto. exists [u1], u2, []. auto.
      * apply (A3 (Number (Fin (IZR n)))); auto; [|discriminate]. exists [w1], w2, []. auto.
      * apply (P3 ops n); auto. exists [u1], u2, []. split; [|split]; auto. constructor; [|constructor]. left. left. auto.
  - intros -> -> M1 M2 E1 E2. rewrite M1, M2 in *. cbn in *.
    destruct (G2 (Forall_nil _)) as [_ G3].
    destruct A2 as [_ A3]; [apply Forall_cons; [auto|apply Forall_cons; [auto|constructor]]|].
    destruct P2 as [_ P3]; [apply Forall_cons; [left; left; auto|apply Forall_cons; [left; left; auto|constructor]]|].
    split; [|split].
    + apply G3; auto.
    + apply A3; auto.
    + apply P3. apply Forall_cons; [left; left; auto|apply Forall_cons; [left; left; auto|constructor]].
Qed.

(** *** Concrete tables and blocks *)
Definition inversion_group : list operation := [do_nothing; ([[-1; 0; 0]; [0; -1; 0]; [0; 0; -1]], [0; 0; 0])].
Definition two_glib : gemmi_lib (T := R) := {|
  gl_as_string s := s;
  gl_as_int s := if text_eqb s (text "2") then Done 2%Z else if text_eqb s (text "1") then Done 1%Z else Raise ValueError;
  gl_group_by_name s := if text_eqb s (text "P -1") then Some inversion_group else None;
  gl_group_by_number n := if (n =? 2)%Z then Done inversion_group else if (n =? 1)%Z then Done [do_nothing] else Raise ValueError |}.
Definition two_spg (v : cifval (T := R)) : outcome (list operation) :=
  match v with
  | Str s => if text_eqb s (text "P -1") then Done inversion_group else Raise ValueError
  | Number (Fin x) => if Req_EM_T x 2 then Done inversion_group else if Req_EM_T x 1 then Done [do_nothing] else Raise ValueError
  | _ => Raise ValueError
  end.
Definition two_plib : pymatgen_lib (T := R) := {|
  pl_space_groups s := if text_eqb s (text "P-1") then Some (text "P-1") else None;
  pl_group s := if text_eqb s (text "P-1") then Some inversion_group else None;
  pl_cod _ := None;
  pl_group_by_number n := if (n =? 2)%Z then Some inversion_group else if (n =? 1)%Z then Some [do_nothing] else None;
  pl_int := Int_part |}.

Definition at_tag {A} (d : A) (l : list (string * A)) (t : list ascii) : A :=
  match dict_get t (map (fun ka => (text (fst ka), snd ka)) l) with Some v => v | None => d end.
(** a text as ase reads it: 2 is a number *)
Definition as_ase (o : option (list ascii)) : cifval (T := R) :=
  match o with
  | Some s => if text_eqb s (text "2") then Number (Fin 2) else Str s
  | None => Nothing
  end.
Definition group_gemmi (n1 n2 m1 m2 : option (list ascii)) : gemmi_block := {|
  gb_find_value := at_tag None [("_space_group_IT_number", m1); ("_symmetry_Int_Tables_number", m2)];
  gb_fract := None; gb_cartn := None;
  gb_column := at_tag [] [("_space_group_name_H-M_alt", gemmi_values n1); ("_symmetry_space_group_name_H-M", gemmi_values n2)] |}.
Definition group_ase (n1 n2 m1 m2 : option (list ascii)) : ase_block (T := R) := {|
  ab_get := at_tag Nothing [("_space_group_name_h-m_alt", as_text n1); ("_symmetry_space_group_name_h-m", as_text n2);
    ("_space_group_it_number", as_ase m1); ("_symmetry_int_tables_number", as_ase m2)] |}.
Definition group_pymatgen (n1 n2 m1 m2 : option (list ascii)) : pymatgen_block (T := R) := {|
  pb_get := at_tag Nothing [("_space_group_name_H-M_alt", as_text n1); ("_symmetry_space_group_name_H-M", as_text n2);
    ("_space_group_IT_number", as_text m1); ("_symmetry_Int_Tables_number", as_text m2)] |}.

Lemma two_plainly : plainly (text "2") 2.
Proof. spell [2%nat] (@None (list nat)). Qed.
Lemma question_plainly : ~ exists x, plainly (text "?") x.
Proof.
  intros (x & Hx). apply plainly_denotes in Hx as Hd. apply denotes_float in Hd.
  destruct Hx as (sg & n & E & Hn & _). destruct (numeral_chars n Hn) as [C _].
  destruct sg as [[]|]; try discriminate E. cbn [write_sign app] in E. rewrite <- E in C. inversion C as [|? ? C1 _].
  unfold numeral_char in C1. cbn in C1. lia.
Qed.
Lemma group_presents : forall n1 n2 m1 m2, ase_value m1 (as_ase m1) -> ase_value m2 (as_ase m2) ->
  presents n1 n2 m1 m2 (group_gemmi n1 n2 m1 m2) (group_ase n1 n2 m1 m2) (group_pymatgen n1 n2 m1 m2).
Proof.
  intros n1 n2 m1 m2 H1 H2. split; try reflexivity.
  - repeat (constructor; [reflexivity|]). constructor.
  - repeat (constructor; [reflexivity|]). constructor.
  - constructor; [exact H1|]. constructor; [exact H2|constructor].
  - repeat (apply Forall_cons; [left; reflexivity|]). constructor.
Qed.
Lemma int_part_whole : forall n, Int_part (IZR n) = n.
Proof.
  intros n. unfold Int_part. rewrite <- (up_tech (IZR n) n); [lia|lra|apply IZR_lt; lia].
Qed.
Lemma two_name : same_group_name two_glib two_spg two_plib (text "P -1") inversion_group.
Proof.
  split; try reflexivity. split; [discriminate|]. exists (text "P-1"), (text "P-1"). split; [|split; [reflexivity|left; reflexivity]].
  assert (K : forall c s s', existsb (Nat.eqb (nat_of_ascii c)) blanks = false -> c <> "_"%char -> squeezed s s' -> squeezed (c :: s) (c :: s')).
  { intros c s s' E N Q. apply squeezed_keep; auto. intros I. apply not_true_iff_false in E. apply E, existsb_exists.
    exists (nat_of_ascii c). rewrite Nat.eqb_refl. auto. }
  apply K; [reflexivity|discriminate|]. apply squeezed_drop; [left; cbn; auto 20|].
  apply K; [reflexivity|discriminate|]. apply K; [reflexivity|discriminate|]. constructor.
Qed.
Lemma two_number : same_group_number two_glib two_spg two_plib (text "2") 2 inversion_group.
Proof.
  split; auto.
  - apply two_plainly.
  - cbn. destruct (Req_EM_T 2 2); [auto|lra].
  - split; [apply int_part_whole|reflexivity].
Qed.

(** The name under either tag, the number under either tag, nothing at all. *)
Example C77_case :
  all_give two_glib (group_gemmi (Some (text "P -1")) None None None) two_spg (group_ase (Some (text "P -1")) None None None)
    two_plib (group_pymatgen (Some (text "P -1")) None None None) (inversion_group, []) /\
  all_give two_glib (group_gemmi None (Some (text "P -1")) None None) two_spg (group_ase None (Some (text "P -1")) None None)
    two_plib (group_pymatgen None (Some (text "P -1")) None None) (inversion_group, []) /\
  all_give two_glib (group_gemmi None None (Some (text "2")) None) two_spg (group_ase None None (Some (text "2")) None)
    two_plib (group_pymatgen None None (Some (text "2")) None) (inversion_group, []) /\
  all_give two_glib (group_gemmi None None None (Some (text "2"))) two_spg (group_ase None None None (Some (text "2")))
    two_plib (group_pymatgen None None None (Some (text "2"))) (inversion_group, []) /\
  all_give two_glib (group_gemmi None None None None) two_spg (group_ase None None None None)
    two_plib (group_pymatgen None None None None) ([do_nothing], [NoSymmetry]).
Proof.
  assert (T : ase_value (Some (text "2")) (as_ase (Some (text "2")))) by (left; exists 2; split; [apply two_plainly|reflexivity]).
  assert (O : ase_value None (as_ase None)) by reflexivity.
  assert (N : inversion_group <> []) by discriminate.
  split; [|split; [|split; [|split]]].
  - destruct (C77_same_operations _ _ _ _ _ _ _ two_glib two_spg two_plib (group_presents (Some (text "P -1")) None _ _ O O)) as (H & _).
    apply (H (text "P -1")); auto. apply two_name.
  - destruct (C77_same_operations _ _ _ _ _ _ _ two_glib two_spg two_plib (group_presents None (Some (text "P -1")) _ _ O O)) as (H & _).
    apply (H (text "P -1")); auto. apply two_name.
  - destruct (C77_same_operations _ _ _ _ _ _ _ two_glib two_spg two_plib (group_presents None None _ _ T O)) as (_ & H & _).
    apply (H eq_refl eq_refl (text "2") 2%Z); auto. apply two_number.
  - destruct (C77_same_operations _ _ _ _ _ _ _ two_glib two_spg two_plib (group_presents None None _ _ O T)) as (_ & H & _).
    apply (H eq_refl eq_refl (text "2") 2%Z); auto. apply two_number.
  - destruct (C77_same_operations _ _ _ _ _ _ _ two_glib two_spg two_plib (group_presents None None _ _ O O)) as (_ & _ & H).
    apply H; auto. cbn. destruct (Req_EM_T 1 2); [lra|]. destruct (Req_EM_T 1 1); [auto|lra].
Qed.

(** That a number gives the operations if the name is in no table is false of ase: gemmi and pymatgen use
    the number, ase raises the error of its table of names. *)
Theorem C78_unknown_name_refuted : exists u s n ops gb ab pb glib spg plib,
  presents (Some u) None (Some s) None gb ab pb /\
  gl_group_by_name glib u = None /\ spg (Str u) = Raise ValueError /\ pymatgen_unknown plib u /\
  same_group_number glib spg plib s n ops /\ ops <> [] /\
  gemmi_symmetry glib gb = Done (ops, []) /\ pymatgen_symmetry plib pb = Done (ops, []) /\
  ase_symmetry spg ab = Raise ValueError.
Proof.
  exists (text "?"), (text "2"), 2%Z, inversion_group, (group_gemmi (Some (text "?")) None (Some (text "2")) None),
    (group_ase (Some (text "?")) None (Some (text "2")) None), (group_pymatgen (Some (text "?")) None (Some (text "2")) None),
    two_glib, two_spg, two_plib.
  assert (U : pymatgen_unknown two_plib (text "?")).
  { exists (text "?"). split; [|left; reflexivity]. apply squeezed_keep; [|discriminate|constructor]. cbn. lia. }
  split; [|split; [|split; [|split; [|split; [|split; [|split; [|split]]]]]]]; auto; try discriminate.
  - apply group_presents; [|reflexivity]. left. exists 2. split; [apply two_plainly|reflexivity].
  - apply two_number.
  - destruct (C77_pymatgen two_plib (group_pymatgen (Some (text "?")) None (Some (text "2")) None)) as [_ H].
    { repeat (apply Forall_cons; [left; reflexivity|]). constructor. }
    destruct H as [H _].
    { apply Forall_cons; [right; exists (text "?"); split; [reflexivity|split; [discriminate|exact U]]|].
      apply Forall_cons; [left; left; reflexivity|constructor]. }
    apply (H inversion_group 2%Z); [discriminate|reflexivity|].
    exists [], (text "_space_group_IT_number"), [text "_symmetry_Int_Tables_number"]. split; [reflexivity|]. split; [constructor|].
    exists (text "2"). split; [reflexivity|]. split; [apply plainly_or_zero, two_plainly|apply int_part_whole].
Qed.

(** That the number under the older tag counts if the one under the newer tag is marked as missing is false
    of gemmi and ase: they raise the errors for the mark, pymatgen uses the other number. *)
Theorem C78_missing_number_refuted : exists s n ops gb ab pb glib spg plib,
  presents None None (Some ["?"%char]) (Some s) gb ab pb /\ same_group_number glib spg plib s n ops /\ ops <> [] /\
  gl_as_int glib ["?"%char] = Raise ValueError /\ spg (Str ["?"%char]) = Raise ValueError /\
  gemmi_symmetry glib gb = Raise ValueError /\ ase_symmetry spg ab = Raise ValueError /\
  pymatgen_symmetry plib pb = Done (ops, []).
Proof.
  exists (text "2"), 2%Z, inversion_group, (group_gemmi None None (Some (text "?")) (Some (text "2"))),
    (group_ase None None (Some (text "?")) (Some (text "2"))), (group_pymatgen None None (Some (text "?")) (Some (text "2"))),
    two_glib, two_spg, two_plib.
  split; [|split; [|split; [|split; [|split; [|split; [|split]]]]]]; auto; try discriminate.
  - apply group_presents; [right; split; [apply question_plainly|reflexivity]|].
    left. exists 2. split; [apply two_plainly|reflexivity].
  - apply two_number.
  - destruct (C77_pymatgen two_plib (group_pymatgen None None (Some (text "?")) (Some (text "2")))) as [_ H].
    { repeat (apply Forall_cons; [left; reflexivity|]). constructor. }
    destruct H as [H _].
    { repeat (apply Forall_cons; [left; left; reflexivity|]). constructor. }
    apply (H inversion_group 2%Z); [discriminate|reflexivity|].
    exists [text "_space_group_IT_number"], (text "_symmetry_Int_Tables_number"), []. split; [reflexivity|]. split.
    + constructor; [|constructor]. right. exists 0%Z. split; [|reflexivity].
      exists (text "?"). split; [reflexivity|]. split; [apply question_zero|apply int_part_whole].
    + exists (text "2"). split; [reflexivity|]. split; [apply plainly_or_zero, two_plainly|apply int_part_whole].
Qed.

Print Assumptions C77_gemmi.
Print Assumptions C77_ase.
Print Assumptions C77_pymatgen.
Print Assumptions C77_same_operations.
Print Assumptions C78_unknown_name_refuted.
Print Assumptions C78_missing_number_refuted.
