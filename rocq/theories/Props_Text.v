(** C40, C41 and C50: symmetry operations, numbers with uncertainties, atomic symbols. *)
From Coq Require Import List ZArith Reals Arith Bool Ascii String Lia Lra.
From Verif Require Import Num Base Outcome CompareModel TextModel SpecText TextProofs.
Import ListNotations.
Open Scope string_scope.
Open Scope R_scope.
Open Scope list_scope.
Notation length := List.length.

(** ** C40 *)

(** Every spelling of three sums of terms is parsed to the matrix of their coefficients and
    their translations. *)
Theorem C40_symmetry_operation : forall s1 s2 s3 t1 t2 t3, spells s1 t1 -> spells s2 t2 -> spells s3 t3 ->
  exists rot trans, parse_sitesym (T := R) (s1 ++ ","%char :: s2 ++ ","%char :: s3) = Done (rot, trans) /\
    length rot = 3%nat /\ length trans = 3%nat /\
    forall i ts, nth_error [t1; t2; t3] i = Some ts ->
      length (nth i rot []) = 3%nat /\ nth i trans 0 = translation ts /\
      forall l, (l < 3)%nat -> nth l (nth i rot []) 0 = coefficient ts l.
Proof.
  intros s1 s2 s3 t1 t2 t3 H1 H2 H3. rewrite (sitesym_parsed s1 s2 s3 t1 t2 t3) by auto.
  eexists. eexists. split; [reflexivity|]. split; [reflexivity|]. split; [reflexivity|].
  intros i ts Hi. destruct i as [|[|[|i]]]; simpl in Hi; [| | |destruct i; discriminate]; injection Hi as <-; cbn [nth];
    (split; [reflexivity|]; split; [reflexivity|]; intros [|[|[|l]]] Hl; try lia; reflexivity).
Qed.

(** A list of operations is parsed one by one. *)
Theorem C40_symmetry_operations : forall l : list (list ascii * (list term * list term * list term)),
  (forall s t1 t2 t3, In (s, (t1, t2, t3)) l -> exists s1 s2 s3, s = s1 ++ ","%char :: s2 ++ ","%char :: s3 /\
     spells s1 t1 /\ spells s2 t2 /\ spells s3 t3) ->
  parse_sitesyms (T := R) (map fst l) =
  Done (map (fun st => let '(_, (t1, t2, t3)) := st in
                       (map (fun ts => map (coefficient ts) (seq 0 3)) [t1; t2; t3], map translation [t1; t2; t3])) l).
Proof.
  induction l as [|[s [[t1 t2] t3]] l IH]; intros Hl; [reflexivity|]. unfold parse_sitesyms in *. cbn [map fst omap].
  destruct (Hl s t1 t2 t3 (or_introl eq_refl)) as (s1 & s2 & s3 & -> & H1 & H2 & H3).
  rewrite (sitesym_parsed s1 s2 s3 t1 t2 t3) by auto. cbn [obind].
  rewrite IH by (intros; apply Hl; right; auto). reflexivity.
Qed.

(** " -X +  1/2" , "y", "Z-0.25". *)
Definition half := Shift false {| whole := [1%nat]; fraction := None |} (Some {| whole := [2%nat]; fraction := None |}).
Definition quarter := Shift true {| whole := [0%nat]; fraction := Some [2%nat; 5%nat] |} None.
Example C40_case : spells (text " -X +  1/2") [Letter true 0; half] /\ spells (text "y") [Letter false 1] /\
  spells (text " Z-0.25") [Letter false 2; quarter] /\
  coefficient [Letter true 0; half] 0 = -1 /\ translation [Letter true 0; half] = 1 / 2 /\
  translation [Letter false 2; quarter] = - (1 / 4).
Proof.
  assert (N : forall d f, (d < 10)%nat -> Forall (fun d => (d < 10)%nat) (match f with Some l => l | None => [] end) ->
    numeral_ok {| whole := [d]; fraction := f |}).
  { intros d f Hd Hf. split; [simpl; constructor; auto|discriminate]. }
  split; [|split; [|split; [|split; [|split]]]].
  - split; [split; [|split]|].
    + constructor; [simpl; lia|]. constructor; [|constructor]. simpl. split; [apply N; [lia|constructor]|].
      split; [apply N; [lia|constructor]|]. unfold numeral_value; simpl. lra.
    + constructor; [auto|constructor].
    + simpl. lia.
  + exact (written_all [Letter true 0; half]).
  - split; [split; [|split]|].
    + constructor; [simpl; lia|constructor].
    + constructor; [auto|constructor].
    + simpl. lia.
    + exact (written_plus (Letter false 1) [] eq_refl).
  - split; [split; [|split]|].
    + constructor; [simpl; lia|]. constructor; [|constructor]. simpl. apply N; [lia|]. repeat constructor; lia.
    + constructor; [auto|constructor].
    + simpl. lia.
    + exact (written_plus (Letter false 2) [quarter] eq_refl).
  - simpl. lra.
  - unfold half, translation, numeral_value; simpl. field.
  - unfold quarter, translation, numeral_value; simpl. field.
Qed.

(** A fourth component is an error, a missing one is not: its row is zero. *)
Example C40_two_components : parse_sitesym (T := R) (text "x,y") =
  Done ([[1; 0; 0]; [0; 1; 0]; [0; 0; 0]], [0; 0; 0]).
Proof. reflexivity. Qed.
Example C40_four_components : parse_sitesym (T := R) (text "x,y,z,x") = Raise IndexError.
Proof. reflexivity. Qed.

(** ** C41 *)

(** A bracket at the end of a line does not change the number before it. *)
Theorem C41_uncertainty : forall s b (v : fval (T := R)), py_float s = Some v ->
  ~ In "("%char s -> ~ In (ascii_of_nat 10) b ->
  str2float (Str (s ++ "("%char :: b ++ [")"%char])) = Done v /\ str2float (T := R) (Str s) = Done v.
Proof.
  intros s b v Hs Hp Hb.
  assert (F : Forall (fun c => is_char 40 c = false) s).
  { apply Forall_forall. intros c Hc. char. intros E. apply Hp.
    replace "("%char with c; auto. apply code_inj. rewrite E. reflexivity. }
  split; unfold str2float, str_to_float.
  - rewrite remove_brackets_none by auto. cbn [remove_brackets]. change (is_char 40 "(") with true. cbn [andb].
    assert (G : Forall (fun c => is_char 10 c = false) (b ++ [")"%char])).
    { apply Forall_app. split; [|repeat constructor]. apply Forall_forall. intros c Hc. char. intros E. apply Hb.
      replace (ascii_of_nat 10) with c; auto. apply code_inj. rewrite E. reflexivity. }
    destruct (b ++ [")"%char]) as [|d t] eqn:Eb; [destruct b; discriminate|].
    inversion G; subst. rewrite H1. cbn [negb]. rewrite remove_brackets_rest by auto. rewrite app_nil_r, Hs. auto.
  - rewrite <- (app_nil_r s), remove_brackets_none by auto. cbn [remove_brackets]. rewrite app_nil_r, Hs. auto.
Qed.

(** The number of a numeral, with or without an uncertainty. *)
Theorem C41_numeral : forall sg n b, numeral_ok n -> ~ In (ascii_of_nat 10) b ->
  let v := Fin (signed (negative_sign sg) (numeral_value n)) in
  str2float (Str (write_sign sg ++ write_numeral n)) = Done v /\
  str2float (Str ((write_sign sg ++ write_numeral n) ++ "("%char :: b ++ [")"%char])) = Done v.
Proof.
  intros sg n b Hn Hb v. pose proof (float_signed sg n Hn) as E.
  assert (Hp : ~ In "("%char (write_sign sg ++ write_numeral n)).
  { intros I. apply in_app_or in I as [I|I].
    - destruct sg as [[]|]; simpl in I; intuition discriminate.
    - destruct (numeral_chars n Hn) as [C _]. rewrite Forall_forall in C. apply C in I. unfold numeral_char in I.
      change (code "(") with 40%nat in I. lia. }
  destruct (C41_uncertainty _ b _ E Hp Hb). auto.
Qed.

(** -1.25(3) is -5/4. *)
Example C41_case : numeral_ok {| whole := [1%nat]; fraction := Some [2%nat; 5%nat] |} /\
  numeral_value {| whole := [1%nat]; fraction := Some [2%nat; 5%nat] |} = 5 / 4 /\
  (write_sign (Some true) ++ write_numeral {| whole := [1%nat]; fraction := Some [2%nat; 5%nat] |}) ++ "("%char :: ["3"%char] ++ [")"%char]
  = text "-1.25(3)".
Proof.
  split; [|split; [|reflexivity]].
  - split; [repeat constructor; simpl; lia|discriminate].
  - unfold numeral_value; simpl. field.
Qed.

(** ** C50 *)
Lemma letter_ok : forall c, is_letter c = true <-> letter c.
Proof. intros c. unfold letter. fold (code c). char. lia. Qed.

Lemma small_code : forall c, code (small c) = if between 65 90 c then (code c + 32)%nat else code c.
Proof.
  intros c. rewrite small_lower. unfold lower_char. destruct (between 65 90 c) eqn:E; auto. apply code_ascii. char. lia.
Qed.

Lemma upper_ok : forall c, letter c -> capital (upper_char c) /\ same_letter (upper_char c) c.
Proof.
  intros c Hc. unfold letter, capital, same_letter in *. fold (code c) in Hc. fold (code (upper_char c)).
  assert (E : code (upper_char c) = if between 97 122 c then (code c - 32)%nat else code c).
  { unfold upper_char. destruct (between 97 122 c) eqn:E; auto. apply code_ascii. pose proof (code_bound c). lia. }
  destruct (between 97 122 c) eqn:B.
  - split; [char; lia|]. apply code_inj. rewrite !small_code.
    replace (between 65 90 (upper_char c)) with true by (symmetry; char; lia).
    replace (between 65 90 c) with false by (symmetry; char; lia). char. lia.
  - unfold upper_char in *. rewrite B in *. split; [char; lia|auto].
Qed.

Lemma lower_ok : forall c, letter c -> lower_case (lower_char c) /\ same_letter (lower_char c) c.
Proof.
  intros c Hc. unfold letter, lower_case, same_letter in *. fold (code c) in Hc. fold (code (lower_char c)).
  pose proof (small_code c) as E. rewrite small_lower in E.
  destruct (between 65 90 c) eqn:B.
  - split; [char; lia|]. apply code_inj. rewrite !small_code, B.
    replace (between 65 90 (lower_char c)) with false by (symmetry; char; lia). auto.
  - unfold lower_char in *. rewrite B in *. split; [char; lia|auto].
Qed.

(** The symbols, one for every label: nothing for a label without letters, otherwise the first
    letter as a capital and, if it is a letter, the next character in lower case. *)
Theorem C50_symbols : forall labels, length (atomic_symbols_from_labels labels) = length labels /\
  forall i label, nth_error labels i = Some label ->
    (Forall (fun c => ~ letter c) label -> nth i (atomic_symbols_from_labels labels) [] = []) /\
    (forall a c t, label = a ++ c :: t -> Forall (fun c => ~ letter c) a -> letter c ->
       exists C, capital C /\ same_letter C c /\
         ((forall d u, t = d :: u -> letter d -> exists d', lower_case d' /\ same_letter d' d /\
             nth i (atomic_symbols_from_labels labels) [] = [C; d']) /\
          (match t with d :: _ => ~ letter d | [] => True end -> nth i (atomic_symbols_from_labels labels) [] = [C]))).
Proof.
  intros labels. unfold atomic_symbols_from_labels. split; [apply map_length|]. intros i label Hi.
  match goal with |- context [map ?g labels] => set (f := g) end.
  assert (E : nth i (map f labels) [] = find_symbol label).
  { change [] with (f []). rewrite map_nth. rewrite (nth_error_nth _ _ [] Hi). unfold f. destruct label as [|c t]; auto.
    destruct (text_eqb (c :: t) (text ".") || text_eqb (c :: t) (text "?"))%bool eqn:B; auto.
    apply orb_true_iff in B. destruct B as [B|B]; apply text_eqb_eq in B; rewrite B; reflexivity. }
  unfold chars in *. rewrite E. clear E f Hi. split.
  - intros F. induction label as [|c t IH]; auto. inversion F; subst. simpl.
    destruct (is_letter c) eqn:B; [apply letter_ok in B; tauto|auto].
  - intros a c t -> F Hc. destruct (upper_ok c Hc) as [U1 U2]. exists (upper_char c). split; [auto|split; [auto|]].
    assert (E : find_symbol (a ++ c :: t) = find_symbol (c :: t)).
    { induction a as [|b a IH]; auto. inversion F; subst. simpl. destruct (is_letter b) eqn:B; [apply letter_ok in B; tauto|auto]. }
    rewrite E. cbn [find_symbol]. replace (is_letter c) with true by (symmetry; apply letter_ok; auto). split.
    + intros d u -> Hd. destruct (lower_ok d Hd) as [L1 L2]. exists (lower_char d). split; [auto|split; [auto|]].
      replace (is_letter d) with true by (symmetry; apply letter_ok; auto). auto.
    + intros Ht. destruct t as [|d u]; auto. destruct (is_letter d) eqn:B; [apply letter_ok in B; tauto|auto].
Qed.

Example C50_case : map string_of_list_ascii (atomic_symbols_from_labels (map text ["C12"; "CL1"; "7na"; "?"; ""; "H(1)"])) =
  ["C"; "Cl"; "Na"; ""; ""; "H"].
Proof. reflexivity. Qed.

Print Assumptions C40_symmetry_operation.
Print Assumptions C40_symmetry_operations.
Print Assumptions C41_uncertainty.
Print Assumptions C41_numeral.
Print Assumptions C50_symbols.
