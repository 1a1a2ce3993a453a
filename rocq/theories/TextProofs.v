(** Lemmas about TextModel.v. *)
From Coq Require Import List ZArith Reals Arith Bool Ascii String Lia Lra.
From Verif Require Import Num Base Outcome CompareModel TextModel SpecText.
Import ListNotations.
Open Scope list_scope.
Open Scope R_scope.
Notation length := List.length.

(** ** Characters *)
Lemma code_ascii : forall n, (n < 256)%nat -> code (ascii_of_nat n) = n.
Proof. intros n Hn. unfold code. apply nat_ascii_embedding. auto. Qed.
Lemma code_bound : forall c, (code c < 256)%nat.
Proof. intros c. apply nat_ascii_bounded. Qed.
Lemma code_inj : forall a b, code a = code b -> a = b.
Proof. intros a b E. unfold code in E. rewrite <- (ascii_nat_embedding a), <- (ascii_nat_embedding b). congruence. Qed.

Lemma code_digit : forall d, (d < 10)%nat -> code (digit_char d) = (48 + d)%nat.
Proof. intros d Hd. unfold digit_char. apply code_ascii. lia. Qed.
Lemma code_letter : forall l, (l < 3)%nat -> code (letter_char l) = (120 + l)%nat.
Proof. intros d Hd. unfold letter_char. apply code_ascii. lia. Qed.

Ltac char := unfold is_char, is_digit, is_space, is_letter, between in *;
  repeat first [rewrite andb_true_iff in * | rewrite orb_true_iff in * | rewrite andb_false_iff in * | rewrite orb_false_iff in *
    | rewrite Nat.leb_le in * | rewrite Nat.leb_gt in * | rewrite Nat.eqb_eq in * | rewrite Nat.eqb_neq in *].

(** Characters of a numeral. *)
Definition numeral_char (c : ascii) : Prop := (48 <= code c <= 57)%nat \/ code c = 46%nat.

Lemma numeral_chars : forall n, numeral_ok n -> Forall numeral_char (write_numeral n) /\ write_numeral n <> [].
Proof.
  intros n [Hd Hne]. unfold write_numeral, frac_digits in *. apply Forall_app in Hd as [H1 H2].
  assert (E : forall l, Forall (fun d => (d < 10)%nat) l -> Forall numeral_char (map digit_char l)).
  { intros l F. rewrite Forall_map. eapply Forall_impl; [|exact F]. intros d Hdd; cbv beta in Hdd. left. rewrite code_digit by auto. lia. }
  split.
  - apply Forall_app. split; [auto|]. destruct (fraction n) as [f|]; [|constructor].
    constructor; [right; reflexivity|auto].
  - destruct (whole n); [|discriminate]. destruct (fraction n); [discriminate|]. simpl in Hne. tauto.
Qed.

Lemma lower_numeral : forall c, numeral_char c -> lower_char c = c.
Proof.
  intros c Hc. unfold lower_char. replace (between 65 90 c) with false; auto. symmetry. char.
  destruct Hc; lia.
Qed.

(** ** float *)
Lemma drop_while_all : forall f s, Forall (fun c => f c = false) s -> drop_while f s = s.
Proof. intros f [|c s] F; simpl; auto. inversion F; subst. rewrite H1. auto. Qed.

Lemma strip_id : forall s, Forall (fun c => is_space c = false) s -> strip s = s.
Proof.
  intros s F. unfold strip. rewrite (drop_while_all _ s) by auto. rewrite drop_while_all.
  - apply rev_involutive.
  - apply Forall_rev. auto.
Qed.

Lemma drop_underscores_id : forall s b, Forall (fun c => is_char 95 c = false) s -> drop_underscores b s = Some s.
Proof.
  induction s as [|c s IH]; intros b F; simpl; auto. inversion F; subst. rewrite H1, IH by auto. auto.
Qed.

Lemma map_id_on : forall (f : ascii -> ascii) s, Forall (fun c => f c = c) s -> map f s = s.
Proof. induction s as [|c s IH]; intros F; simpl; auto. inversion F; subst. f_equal; auto. Qed.

Lemma span_app : forall f a b, Forall (fun c => f c = true) a -> match b with c :: _ => f c = false | [] => True end ->
  span f (a ++ b) = (a, b).
Proof.
  induction a as [|c a IH]; intros b F Hb; simpl.
  - destruct b as [|c b]; simpl; auto. rewrite Hb. auto.
  - inversion F; subst. rewrite H1, IH by auto. auto.
Qed.

Lemma text_eqb_eq : forall a b, text_eqb a b = true <-> a = b.
Proof.
  induction a as [|c a IH]; intros [|d b]; simpl; split; intros E; try discriminate; auto.
  - apply andb_true_iff in E as [E1 E2]. apply Ascii.eqb_eq in E1. apply IH in E2. congruence.
  - injection E as -> ->. apply andb_true_iff. split; [apply Ascii.eqb_refl|apply IH; auto].
Qed.

Lemma number_of_value : forall ds a, Forall (fun d => (d < 10)%nat) ds ->
  IZR (fold_left (fun a c => 10 * a + digit_value c)%Z (map digit_char ds) a) = IZR a * 10 ^ length ds + digits_value ds.
Proof.
  induction ds as [|d ds IH]; intros a F; cbn [map fold_left List.length digits_value pow].
  - lra.
  - inversion F; subst. rewrite IH by auto. rewrite plus_IZR, mult_IZR.
    unfold digit_value. rewrite code_digit by auto. replace (48 + d - 48)%nat with d by lia. rewrite <- INR_IZR_INZ. ring.
Qed.

Lemma digits_value_app : forall a b, digits_value (a ++ b) = digits_value a * 10 ^ length b + digits_value b.
Proof.
  induction a as [|d a IH]; intros b; cbn [app digits_value]; [ring|]. rewrite IH, app_length, pow_add. ring.
Qed.

Lemma float_signed : forall sg n, numeral_ok n ->
  py_float (write_sign sg ++ write_numeral n) = Some (Fin (signed (negative_sign sg) (numeral_value n))).
Proof.
  intros sg n Hn. destruct (numeral_chars n Hn) as [Hc Hne]. unfold py_float.
  assert (Hs : Forall (fun c => numeral_char c \/ code c = 43%nat \/ code c = 45%nat) (write_sign sg ++ write_numeral n)).
  { apply Forall_app. split.
    - destruct sg as [[]|]; cbn [write_sign]; [| |constructor]; (apply Forall_cons; [right|constructor]); [right|left]; reflexivity.
    - eapply Forall_impl; [|exact Hc]. auto. }
  rewrite strip_id.
  2:{ eapply Forall_impl; [|exact Hs]. intros c Hcc. char. unfold numeral_char in Hcc. lia. }
  rewrite (map_id_on lower_char).
  2:{ eapply Forall_impl; [|exact Hs]. intros c Hcc. unfold lower_char. replace (between 65 90 c) with false; auto. symmetry. char. unfold numeral_char in Hcc. lia. }
  rewrite drop_underscores_id.
  2:{ eapply Forall_impl; [|exact Hs]. intros c Hcc. char. unfold numeral_char in Hcc. lia. }
  clear Hs.
  assert (Hsign : sign (write_sign sg ++ write_numeral n) = (negative_sign sg, write_numeral n)).
  { destruct sg as [[]|]; try reflexivity.
    destruct (write_numeral n) as [|c s]; [tauto|]. unfold sign. cbn [write_sign app]. inversion Hc; subst.
    replace (is_char 45 c) with false by (symmetry; char; destruct H1; lia).
    replace (is_char 43 c) with false by (symmetry; char; destruct H1; lia). auto. }
  rewrite Hsign.
  assert (Hw : forall w, match text w with c :: _ => (100 < code c)%nat | [] => False end -> text_eqb (write_numeral n) (text w) = false).
  { intros w Hw. destruct (text_eqb (write_numeral n) (text w)) eqn:E; auto. apply text_eqb_eq in E.
    destruct (text w) as [|c t]; [tauto|]. rewrite E in Hc. inversion Hc; subst. destruct H1; lia. }
  rewrite !Hw by (vm_compute; lia). cbn [orb].
  destruct Hn as [Hd Hne2]. unfold frac_digits in *. apply Forall_app in Hd as [H1 H2].
  assert (Hdig : forall l, Forall (fun d => (d < 10)%nat) l -> Forall (fun c => is_digit c = true) (map digit_char l)).
  { intros l F. rewrite Forall_map. eapply Forall_impl; [|exact F]. intros d Hdd; cbv beta in Hdd. unfold is_digit, between. rewrite code_digit by auto.
    apply andb_true_iff. rewrite !Nat.leb_le. lia. }
  assert (Neg : forall z, IZR (if negative_sign sg then - z else z) = signed (negative_sign sg) (IZR z)).
  { intros z. destruct (negative_sign sg); [apply opp_IZR|auto]. }
  assert (Neg1 : forall x y, y <> 0 -> signed (negative_sign sg) x / y = signed (negative_sign sg) (x / y)).
  { intros x y Hy. destruct (negative_sign sg); simpl; field; auto. }
  unfold write_numeral at 1. rewrite span_app; [|auto|destruct (fraction n); reflexivity || exact I].
  unfold numeral_value, frac_digits. destruct (fraction n) as [f|].
  - change (is_char 46 ".") with true. cbv iota.
    rewrite <- (app_nil_r (map digit_char f)), span_app by auto.
    rewrite <- map_app. destruct (map digit_char (whole n ++ f)) as [|c t] eqn:E.
    { apply map_eq_nil in E. tauto. }
    rewrite <- E. cbn [exponent]. do 2 f_equal. unfold decimal. rewrite map_length.
    pose proof (number_of_value (whole n ++ f) 0) as V. rewrite digits_value_app in V.
    change (fold_left _ (map digit_char (whole n ++ f)) 0%Z) with (number_of (map digit_char (whole n ++ f))) in V.
    rewrite Forall_app in V. specialize (V (conj H1 H2)).
    destruct (0 <=? 0 - Z.of_nat (length f))%Z eqn:L.
    + apply Z.leb_le in L. assert (length f = 0%nat) by lia. destruct f; [|discriminate].
      cbn [List.length Z.of_nat Z.sub Z.opp Z.add Z.pow nofZ NumR]. rewrite Z.mul_1_r, Neg, V. f_equal. cbn [List.length pow digits_value]. field.
    + cbn [ndiv nofZ NumR]. rewrite Neg, V. replace (IZR (10 ^ - (0 - Z.of_nat (length f)))) with (10 ^ length f).
      2:{ replace (- (0 - Z.of_nat (length f)))%Z with (Z.of_nat (length f)) by lia. rewrite <- pow_IZR. auto. }
      assert (P : 10 ^ length f <> 0) by (apply pow_nonzero; lra).
      rewrite Neg1 by auto. f_equal. field. auto.
  - rewrite app_nil_r. destruct (map digit_char (whole n)) as [|c t] eqn:E.
    { apply map_eq_nil in E. rewrite E in Hne2. simpl in Hne2. tauto. }
    rewrite <- E. cbn [exponent]. do 2 f_equal. unfold decimal. cbn [List.length Z.of_nat Z.sub Z.opp Z.add Z.leb Z.compare].
    cbn [nofZ NumR]. change (10 ^ 0)%Z with 1%Z. rewrite Z.mul_1_r, Neg.
    pose proof (number_of_value (whole n) 0 H1) as V. unfold number_of. rewrite V. f_equal.
    cbn [List.length pow digits_value]. field.
Qed.

Lemma float_numeral : forall n, numeral_ok n -> py_float (write_numeral n) = Some (Fin (numeral_value n)).
Proof. intros n Hn. exact (float_signed None n Hn). Qed.

(** ** Brackets *)
Lemma remove_brackets_none : forall s t, Forall (fun c => is_char 40 c = false) s ->
  remove_brackets false (s ++ t) = s ++ remove_brackets false t.
Proof.
  induction s as [|c s IH]; intros t F; simpl; auto. inversion F; subst. rewrite H1. cbn [andb]. f_equal. auto.
Qed.
Lemma remove_brackets_rest : forall t, Forall (fun c => is_char 10 c = false) t -> remove_brackets true t = [].
Proof. induction t as [|c t IH]; intros F; simpl; auto. inversion F; subst. rewrite H1. auto. Qed.

(** ** Symmetry operations *)
Notation parse_component := (@parse_component R NumR).
Notation step := (@step R NumR).

Lemma split_comma_app : forall a b, Forall (fun c => is_char 44 c = false) a ->
  split_comma (a ++ ","%char :: b) = a :: split_comma b.
Proof.
  induction a as [|c a IH]; intros b F; cbn [app split_comma]; auto. inversion F; subst. rewrite H1, IH by auto. auto.
Qed.
Lemma split_comma_one : forall a, Forall (fun c => is_char 44 c = false) a -> split_comma a = [a].
Proof.
  induction a as [|c a IH]; intros F; simpl; auto. inversion F; subst. rewrite H1, IH by auto. auto.
Qed.

Lemma small_lower : forall c, small c = lower_char c.
Proof. reflexivity. Qed.

Lemma step_blank : forall st c, blank c = true -> step st (lower_char c) = st.
Proof.
  intros st c Hb. unfold blank in Hb. apply orb_true_iff in Hb. rewrite !Nat.eqb_eq in Hb.
  destruct Hb as [E|E]; apply (f_equal ascii_of_nat) in E; rewrite ascii_nat_embedding in E; rewrite E; reflexivity.
Qed.

Lemma fold_blanks : forall s st,
  fold_left step (map lower_char s) st = fold_left step (map small (filter (fun c => negb (blank c)) s)) st.
Proof.
  induction s as [|c s IH]; intros st; auto. cbn [map fold_left filter].
  destruct (blank c) eqn:B; cbn [negb].
  - rewrite step_blank by auto. apply IH.
  - cbn [map fold_left]. apply IH.
Qed.

(** State after some terms. *)
Definition after (ts : list term) (pos : bool) (row : list R) : scan (T := R) :=
  match shifts ts with
  | Shift neg n d :: _ =>
      {| is_positive := pos; is_fraction := match d with Some _ => true | None => false end;
         sng_trans := Some (negb neg); fst_trans := write_numeral n;
         snd_trans := match d with Some d => write_numeral d | None => [] end; rot_row := row |}
  | _ => {| is_positive := pos; is_fraction := false; sng_trans := None; fst_trans := []; snd_trans := []; rot_row := row |}
  end.

Lemma step_digits : forall ds st, Forall numeral_char ds -> ds <> [] ->
  fold_left step ds st =
  {| is_positive := is_positive st; is_fraction := is_fraction st;
     sng_trans := match sng_trans st with None => Some (is_positive st) | s => s end;
     fst_trans := if is_fraction st then fst_trans st else fst_trans st ++ ds;
     snd_trans := if is_fraction st then snd_trans st ++ ds else snd_trans st;
     rot_row := rot_row st |}.
Proof.
  assert (S1 : forall c st, numeral_char c -> step st c =
    {| is_positive := is_positive st; is_fraction := is_fraction st;
       sng_trans := match sng_trans st with None => Some (is_positive st) | s => s end;
       fst_trans := if is_fraction st then fst_trans st else fst_trans st ++ [c];
       snd_trans := if is_fraction st then snd_trans st ++ [c] else snd_trans st;
       rot_row := rot_row st |}).
  { intros c st Hc. unfold TextModel.step.
    replace (is_char 43 c) with false by (symmetry; char; destruct Hc; lia).
    replace (is_char 45 c) with false by (symmetry; char; destruct Hc; lia).
    replace (is_char 47 c) with false by (symmetry; char; destruct Hc; lia).
    replace (between 120 122 c) with false by (symmetry; char; destruct Hc; lia).
    replace (is_digit c || is_char 46 c)%bool with true by (symmetry; char; destruct Hc; lia). auto. }
  induction ds as [|c ds IH]; intros st F Hne; [tauto|]. inversion F; subst. cbn [fold_left]. rewrite S1 by auto.
  destruct ds as [|d ds].
  - reflexivity.
  - rewrite IH by (auto; discriminate). cbn [is_positive is_fraction sng_trans fst_trans snd_trans rot_row].
    destruct (is_fraction st), (sng_trans st); rewrite <- ?app_assoc; reflexivity.
Qed.

Definition with_sign (pos : bool) (st : scan (T := R)) : scan :=
  {| is_positive := pos; is_fraction := is_fraction st; sng_trans := sng_trans st;
     fst_trans := fst_trans st; snd_trans := snd_trans st; rot_row := rot_row st |}.

Lemma after_sign : forall ts pos pos' row, with_sign pos (after ts pos' row) = after ts pos row.
Proof. intros. unfold after, with_sign. destruct (shifts ts) as [|[] ?]; reflexivity. Qed.

Lemma step_sign : forall st t, step st (if negative t then "-" else "+")%char = with_sign (negb (negative t)) st.
Proof. intros st t. destruct (negative t); reflexivity. Qed.

Definition row_after (t : term) (row : list R) : list R :=
  match t with Letter neg l => upd row l (signed neg 1) | _ => row end.

(** One more term, when there is room for it. *)
Lemma body_step : forall ts t row, term_ok t -> (length (shifts (ts ++ [t])) <= 1)%nat ->
  fold_left step (write_body t) (after ts (negb (negative t)) row) = after (ts ++ [t]) (negb (negative t)) (row_after t row).
Proof.
  intros ts t row Ht Hl. unfold shifts in Hl. rewrite filter_app in Hl. fold (shifts ts) in Hl.
  destruct t as [neg l|neg n d].
  - cbn [write_body fold_left negative row_after]. unfold TextModel.step. pose proof (code_letter l Ht) as E. simpl in Ht.
    replace (is_char 43 (letter_char l)) with false by (symmetry; unfold is_char; rewrite E; apply Nat.eqb_neq; lia).
    replace (is_char 45 (letter_char l)) with false by (symmetry; unfold is_char; rewrite E; apply Nat.eqb_neq; lia).
    replace (is_char 47 (letter_char l)) with false by (symmetry; unfold is_char; rewrite E; apply Nat.eqb_neq; lia).
    replace (between 120 122 (letter_char l)) with true
      by (symmetry; unfold between; rewrite E; apply andb_true_iff; rewrite !Nat.leb_le; lia).
    rewrite E. replace (120 + l - 120)%nat with l by lia.
    unfold after, shifts. rewrite filter_app. cbn [filter]. rewrite app_nil_r. fold (shifts ts).
    assert (V : (if negb neg then (1 : R) else neg_one) = signed neg 1).
    { destruct neg; cbn; unfold neg_one; cbn; lra. }
    destruct (shifts ts) as [|[] ?]; cbn [is_positive is_fraction sng_trans fst_trans snd_trans rot_row]; f_equal; f_equal; auto.
  - cbn [filter app] in Hl. destruct (shifts ts) as [|x xs] eqn:E; [|rewrite app_length in Hl; simpl in Hl; lia].
    unfold after. rewrite E. unfold shifts. rewrite filter_app. fold (shifts ts). rewrite E. cbn [filter app].
    cbn [negative row_after write_body]. destruct d as [d|]; simpl in Ht.
    + destruct Ht as (Hn & Hd & _). destruct (numeral_chars n Hn) as [Cn Nn]. destruct (numeral_chars d Hd) as [Cd Nd].
      rewrite fold_left_app. rewrite (step_digits (write_numeral n)) by auto. cbn [is_positive is_fraction sng_trans fst_trans snd_trans rot_row app].
      cbn [fold_left]. rewrite (step_digits (write_numeral d)) by auto. reflexivity.
    + destruct (numeral_chars n Ht) as [Cn Nn]. rewrite step_digits by auto. reflexivity.
Qed.

Lemma shifts_prefix : forall ts ts' : list term, (length (shifts (ts ++ ts')) <= 1)%nat -> (length (shifts ts) <= 1)%nat.
Proof. intros ts ts' L. unfold shifts in *. rewrite filter_app, app_length in L. lia. Qed.

Lemma terms_step : forall ts' ts pos row, Forall term_ok ts' -> (length (shifts (ts ++ ts')) <= 1)%nat ->
  exists pos', fold_left step (flat_map write_term ts') (after ts pos row) =
               after (ts ++ ts') pos' (fold_left (fun r t => row_after t r) ts' row).
Proof.
  induction ts' as [|t ts' IH]; intros ts pos row F L; cbn [flat_map fold_left].
  - exists pos. rewrite app_nil_r. auto.
  - inversion F; subst. unfold write_term at 1. cbn [app fold_left]. rewrite step_sign, after_sign.
    replace (ts ++ t :: ts') with ((ts ++ [t]) ++ ts') in * by (rewrite <- app_assoc; auto).
    rewrite fold_left_app, body_step by (auto; apply (shifts_prefix _ ts'); auto).
    apply IH; auto.
Qed.

Lemma written_step : forall ts s row, Forall term_ok ts -> (length (shifts ts) <= 1)%nat -> written ts s ->
  exists pos, fold_left step s (scan0 row) = after ts pos (fold_left (fun r t => row_after t r) ts row).
Proof.
  intros ts s row F L W. change (scan0 row) with (after [] true row). destruct W as [ts|t ts Hpos].
  - apply terms_step; auto.
  - inversion F; subst. rewrite fold_left_app.
    replace true with (negb (negative t)) by (rewrite Hpos; auto).
    rewrite body_step by (auto; apply (shifts_prefix _ ts); auto).
    destruct (terms_step ts [t] (negb (negative t)) (row_after t row) H2 L) as (pos & E). exists pos. exact E.
Qed.

(** Coefficients. *)
Lemma nth_upd : forall A (l : list A) i j v d, nth j (upd l i v) d = if ((j =? i) && (j <? length l))%nat%bool then v else nth j l d.
Proof.
  induction l as [|a l IH]; intros i j v d; simpl.
  - destruct j; simpl; rewrite ?andb_false_r; auto.
  - destruct i as [|i], j as [|j]; simpl; auto. rewrite IH. auto.
Qed.
Lemma upd_len : forall A (l : list A) i v, length (upd l i v) = length l.
Proof. induction l as [|a l IH]; intros [|i] v; simpl; auto. Qed.

Lemma coefficient_absent : forall ts l, ~ In l (letters ts) -> coefficient ts l = 0.
Proof.
  induction ts as [|t ts IH]; intros l Hl; simpl; auto. destruct t as [neg l'|neg n d]; simpl in *.
  - destruct (Nat.eqb_spec l l'); [subst; tauto|]. rewrite IH by tauto. lra.
  - apply IH. auto.
Qed.

Lemma rows_letters : forall ts row, length row = 3%nat -> Forall term_ok ts -> NoDup (letters ts) ->
  length (fold_left (fun r t => row_after t r) ts row) = 3%nat /\
  forall l, (l < 3)%nat ->
    nth l (fold_left (fun r t => row_after t r) ts row) 0 = if in_dec Nat.eq_dec l (letters ts) then coefficient ts l else nth l row 0.
Proof.
  induction ts as [|t ts IH]; intros row Hr F ND; cbn [fold_left].
  - split; auto.
  - inversion F; subst. destruct t as [neg l'|neg n d]; cbn [row_after].
    + cbn [letters flat_map app] in ND. inversion ND; subst.
      destruct (IH (upd row l' (signed neg 1))) as [L1 L2]; auto; [rewrite upd_len; auto|].
      split; [auto|]. intros l Hl. rewrite L2 by auto. cbn [letters flat_map app coefficient].
      fold (letters ts). rewrite nth_upd.
      destruct (in_dec Nat.eq_dec l (letters ts)) as [i|i].
      * destruct (Nat.eqb_spec l l') as [->|ne]; [unfold letters in i; tauto|].
        destruct (in_dec Nat.eq_dec l (l' :: letters ts)) as [i'|i']; [lra|exfalso; apply i'; right; auto].
      * destruct (Nat.eqb_spec l l') as [->|ne].
        -- simpl in H1. replace (l' <? length row)%nat with true by (symmetry; apply Nat.ltb_lt; lia). cbn [andb].
           destruct (in_dec Nat.eq_dec l' (l' :: letters ts)) as [i'|i']; [|exfalso; apply i'; left; auto].
           rewrite coefficient_absent by auto. lra.
        -- cbn [andb]. destruct (in_dec Nat.eq_dec l (l' :: letters ts)) as [[i'|i']|i']; auto; congruence || tauto.
    + destruct (IH row) as [L1 L2]; auto.
Qed.

Lemma translation_none : forall ts, shifts ts = [] -> translation ts = 0.
Proof.
  induction ts as [|t ts IH]; intros E; simpl in *; auto. destruct t as [neg l|neg n d]; simpl in *; [auto|discriminate].
Qed.
Lemma translation_one : forall ts neg n d, shifts ts = [Shift neg n d] ->
  translation ts = signed neg (match d with None => numeral_value n | Some d => numeral_value n / numeral_value d end) /\ In (Shift neg n d) ts.
Proof.
  induction ts as [|t ts IH]; intros neg n d E; simpl in *; [discriminate|].
  destruct t as [neg' l|neg' n' d']; simpl in *.
  - destruct (IH _ _ _ E) as [V I]. split; auto.
  - injection E as -> -> -> E. rewrite (translation_none ts E). split; [|auto]. destruct d as [d|]; lra.
Qed.

Lemma write_length_pos : forall n, numeral_ok n -> exists c t, write_numeral n = c :: t.
Proof. intros n Hn. destruct (numeral_chars n Hn) as [_ Hne]. destruct (write_numeral n); [tauto|eauto]. Qed.

Lemma translation_ok : forall ts pos row, Forall term_ok ts -> (length (shifts ts) <= 1)%nat ->
  translation_of (after ts pos row) = Done (translation ts).
Proof.
  intros ts pos row F L. unfold after. destruct (shifts ts) as [|t rest] eqn:E.
  - rewrite translation_none by auto. reflexivity.
  - assert (rest = []) by (destruct rest; [auto|simpl in L; lia]). subst.
    assert (Hs : match t with Shift _ _ _ => True | Letter _ _ => False end).
    { assert (I : In t (shifts ts)) by (rewrite E; left; auto). unfold shifts in I. apply filter_In in I as [_ I]. destruct t; [discriminate|auto]. }
    destruct t as [|neg n d]; [tauto|]. destruct (translation_one ts neg n d E) as [V I]. rewrite V.
    rewrite Forall_forall in F. specialize (F _ I). unfold translation_of, float_of.
    cbn [fst_trans snd_trans sng_trans is_fraction]. destruct d as [d|]; simpl in F.
    + destruct F as (Hn & Hd & Hz). destruct (write_length_pos n Hn) as (c & t & Ew). rewrite Ew. rewrite <- Ew.
      rewrite !float_numeral by auto. cbn [obind].
      assert (Hz' : (nleb (numeral_value d) n0 && nleb n0 (numeral_value d))%bool = false).
      { apply andb_false_iff. cbn. rewrite !Rleb_false. lra. }
      destruct neg; cbn [negb obind]; rewrite Hz'; f_equal; unfold neg_one; cbn; lra || (field; auto) || lra.
    + destruct (write_length_pos n F) as (c & t & Ew). rewrite Ew. rewrite <- Ew.
      rewrite !float_numeral by auto. cbn [obind].
      destruct neg; cbn [negb obind]; f_equal; unfold neg_one; cbn; lra.
Qed.

Lemma component_parsed : forall ind s ts, (ind < 3)%nat -> spells s ts ->
  parse_component ind (repeat 0 3) s = Done (map (coefficient ts) (seq 0 3), translation ts).
Proof.
  intros ind s ts Hind [(F & ND & L) W]. unfold TextModel.parse_component.
  replace (3 <=? ind)%nat with false by (symmetry; apply Nat.leb_gt; auto). cbn [andb].
  rewrite fold_blanks. destruct (written_step ts _ (repeat 0 3) F L W) as (pos & E).
  rewrite E, translation_ok by auto. cbn [obind].
  destruct (rows_letters ts (repeat 0 3) eq_refl F ND) as [L1 L2].
  replace (rot_row _) with (fold_left (fun r t => row_after t r) ts (repeat 0 3)).
  2:{ unfold after. destruct (shifts ts) as [|[] ?]; reflexivity. }
  do 2 f_equal. apply (nth_ext _ _ 0 0).
  - rewrite L1. auto.
  - intros l Hl. rewrite L1 in Hl. rewrite L2 by auto.
    rewrite (nth_indep (map (coefficient ts) (seq 0 3)) 0 (coefficient ts 0%nat)) by (simpl; lia). rewrite map_nth, seq_nth by auto. simpl (0 + l)%nat.
    destruct (in_dec Nat.eq_dec l (letters ts)) as [i|i]; auto. rewrite coefficient_absent by auto.
    destruct l as [|[|[|l]]]; auto; lia.
Qed.

Lemma no_comma : forall s ts, spells s ts -> Forall (fun c => is_char 44 c = false) s.
Proof.
  intros s ts [(F & _ & _) W].
  assert (B : forall t, term_ok t -> Forall (fun c => is_char 44 c = false) (write_body t)).
  { assert (N : forall n, numeral_ok n -> Forall (fun c => is_char 44 c = false) (write_numeral n)).
    { intros n Hn. destruct (numeral_chars n Hn) as [C _]. eapply Forall_impl; [|exact C]. intros c Hc. char. destruct Hc; lia. }
    intros [neg l|neg n [d|]] Ht; simpl in *.
    - constructor; [|constructor]. unfold is_char. rewrite code_letter by auto. apply Nat.eqb_neq. lia.
    - destruct Ht as (Hn & Hd & _). apply Forall_app. split; auto.
    - auto. }
  assert (C : Forall (fun c => is_char 44 c = false) (flat_map write_term ts)).
  { clear W. induction ts as [|t ts IH]; simpl; [constructor|]. inversion F; subst.
    constructor; [destruct (negative t); reflexivity|]. apply Forall_app. split; auto. }
  assert (D : Forall (fun c => is_char 44 c = false) (map small (filter (fun c => negb (blank c)) s))).
  { destruct W as [ts|t ts]; auto. inversion F; subst. apply Forall_app. split; auto.
    cbn [flat_map] in C. apply Forall_app in C as [_ C]. auto. }
  rewrite Forall_map in D. rewrite Forall_forall in D |- *. intros c Hc.
  destruct (blank c) eqn:Bc.
  - unfold blank in Bc. apply orb_true_iff in Bc. rewrite !Nat.eqb_eq in Bc. char. unfold code. lia.
  - specialize (D c). rewrite filter_In in D. rewrite Bc in D. specialize (D (conj Hc eq_refl)).
    char. intros E. apply D. rewrite small_lower. unfold lower_char, between. rewrite E. reflexivity || exact E.
Qed.

Lemma sitesym_parsed : forall s1 s2 s3 t1 t2 t3, spells s1 t1 -> spells s2 t2 -> spells s3 t3 ->
  parse_sitesym (T := R) (s1 ++ ","%char :: s2 ++ ","%char :: s3) =
  Done ([map (coefficient t1) (seq 0 3); map (coefficient t2) (seq 0 3); map (coefficient t3) (seq 0 3)],
        [translation t1; translation t2; translation t3]).
Proof.
  intros s1 s2 s3 t1 t2 t3 H1 H2 H3. unfold parse_sitesym.
  rewrite split_comma_app, split_comma_app, split_comma_one by (eapply no_comma; eauto).
  unfold enumerate. cbn [List.length seq combine ofold fst snd repeat nth].
  change (n0 :: n0 :: n0 :: nil) with (repeat (0 : R) 3).
  rewrite (component_parsed 0 s1 t1) by auto. cbn [obind upd nth ofold fst snd].
  rewrite (component_parsed 1 s2 t2) by auto. cbn [obind upd nth ofold fst snd].
  rewrite (component_parsed 2 s3 t3) by auto. reflexivity.
Qed.
