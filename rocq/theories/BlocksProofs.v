(** Lemmas about BlocksModel.v. *)
From Coq Require Import List ZArith Reals Arith Bool Ascii String Lia Lra Sorted.
From Verif Require Import Num Base Outcome NNModel CalcModel CompareModel TextModel SpecText TextProofs Props_Text
  SitesModel SpecSites SitesProofs SitesExpand BlocksModel SpecBlocks.
Import ListNotations.
Open Scope string_scope.
Open Scope R_scope.
Open Scope list_scope.
Notation length := List.length.

(** ** Texts *)
Lemma denotes_float : forall s x, denotes s x -> str_to_float (T := R) s = Done (Fin x).
Proof.
  intros s x (sg & n & Hn & -> & [->|(b & Hb & ->)]).
  - apply (C41_numeral sg n [] Hn). simpl. auto.
  - apply (C41_numeral sg n b Hn Hb).
Qed.

Lemma capital_unique : forall C c, capital C -> same_letter C c -> letter c -> C = upper_char c.
Proof.
  intros C c HC HS Hc. destruct (upper_ok c Hc) as [U1 U2]. apply code_inj. unfold capital, same_letter in *.
  fold (code C) in HC. fold (code (upper_char c)) in U1. assert (E : code (small C) = code (small (upper_char c))) by congruence.
  rewrite !small_code in E. replace (between 65 90 C) with true in E by (symmetry; char; lia).
  replace (between 65 90 (upper_char c)) with true in E by (symmetry; char; lia). lia.
Qed.
Lemma lower_unique : forall C c, lower_case C -> same_letter C c -> letter c -> C = lower_char c.
Proof.
  intros C c HC HS Hc. destruct (lower_ok c Hc) as [U1 U2]. apply code_inj. unfold lower_case, same_letter in *.
  fold (code C) in HC. fold (code (lower_char c)) in U1. assert (E : code (small C) = code (small (lower_char c))) by congruence.
  remember (lower_char c) as L. clear HeqL. rewrite !small_code in E.
  assert (X : between 65 90 C = false /\ between 65 90 L = false) by (clear E; split; unfold between; apply andb_false_iff; rewrite !Nat.leb_gt; lia).
  destruct X as [X1 X2]. rewrite X1, X2 in E. lia.
Qed.

Lemma symbol_found : forall s sym, symbol_in s sym -> find_symbol s = sym.
Proof.
  intros s sym [[F ->]|(a & c & t & C & -> & F & Hc & HC & HS & Ht)].
  - induction s as [|c t IH]; auto. inversion F; subst. simpl. destruct (is_letter c) eqn:B; [apply letter_ok in B; tauto|auto].
  - assert (E : find_symbol (a ++ c :: t) = find_symbol (c :: t)).
    { clear - F. induction a as [|b a IH]; auto. inversion F; subst. simpl. destruct (is_letter b) eqn:B; [apply letter_ok in B; tauto|auto]. }
    rewrite E. cbn [find_symbol]. replace (is_letter c) with true by (symmetry; apply letter_ok; auto).
    rewrite (capital_unique C c) in * by auto. destruct Ht as [(d & u & D & -> & Hd & HD & HSD & ->)|[Ht ->]].
    + rewrite (lower_unique D d) by auto. replace (is_letter d) with true by (symmetry; apply letter_ok; auto). auto.
    + destruct t as [|d u]; auto. destruct (is_letter d) eqn:B; [apply letter_ok in B; tauto|auto].
Qed.
Lemma symbol_label : forall s, nth 0 (atomic_symbols_from_labels [s]) [] = find_symbol s.
Proof.
  intros [|c t]; auto. unfold atomic_symbols_from_labels. cbn [map nth].
  destruct (text_eqb (c :: t) (text ".") || text_eqb (c :: t) (text "?"))%bool eqn:B; auto.
  apply orb_true_iff in B as [B|B]; apply text_eqb_eq in B; rewrite B; reflexivity.
Qed.
Lemma symbols_labels : forall l, atomic_symbols_from_labels l = map find_symbol l.
Proof.
  intros l. unfold atomic_symbols_from_labels. apply map_ext. intros a. exact (symbol_label a).
Qed.
Lemma table_elements : forall i k, nth_error elements i = Some k -> lookup (text k) atomic_numbers = Some (S i).
Proof.
  assert (X : forallb (fun ik => match lookup (text (snd ik)) atomic_numbers with Some m => (m =? S (fst ik))%nat | None => false end) (enumerate elements) = true)
    by (vm_compute; reflexivity).
  intros i k Hk. rewrite forallb_forall in X. assert (I : In (i, k) (enumerate elements)).
  { unfold enumerate. assert (Hi : (i < length elements)%nat) by (apply nth_error_Some; rewrite Hk; discriminate).
    replace (i, k) with (nth i (combine (seq 0 (length elements)) elements) (0%nat, "")).
    - apply nth_In. rewrite combine_length, seq_length. lia.
    - rewrite combine_nth by (rewrite seq_length; auto). rewrite seq_nth by auto. rewrite (nth_error_nth _ _ _ Hk). auto. }
  specialize (X _ I). cbn [fst snd] in X.
  destruct (lookup (text k) atomic_numbers) as [m|]; [|discriminate]. apply Nat.eqb_eq in X. congruence.
Qed.
Lemma lookup_In : forall s l n, lookup s l = Some n -> exists k, In (k, n) l /\ text k = s.
Proof.
  induction l as [|[k v] l IH]; intros n Hn; [discriminate|]. cbn [lookup] in Hn. destruct (text_eqb s (text k)) eqn:E.
  - apply text_eqb_eq in E. injection Hn as ->. exists k. split; [left|]; auto.
  - destruct (IH n Hn) as (k' & I & Q). exists k'. split; [right|]; auto.
Qed.
Lemma table_known : forall k n, In (k, n) atomic_numbers -> n = 0%nat \/ k = "D" \/ In k elements.
Proof.
  assert (X : forallb (fun kn => ((snd kn =? 0)%nat || String.eqb (fst kn) "D" || existsb (String.eqb (fst kn)) elements)%bool) atomic_numbers = true)
    by (vm_compute; reflexivity).
  intros k n Hk. rewrite forallb_forall in X. specialize (X _ Hk). cbn [fst snd] in X.
  apply orb_true_iff in X as [X|X]; [apply orb_true_iff in X as [X|X]|].
  - left. apply Nat.eqb_eq. auto.
  - right. left. apply String.eqb_eq. auto.
  - right. right. apply existsb_exists in X as (k' & I & E). apply String.eqb_eq in E. subst k'. auto.
Qed.
Lemma type_of_number : forall sym n, type_of sym n -> atomic_number sym = n.
Proof.
  intros sym n [(i & k & Hk & <- & ->)|[[-> ->]|(-> & HD & Hk)]]; unfold atomic_number.
  - change (list_ascii_of_string k) with (text k). rewrite (table_elements i k Hk). auto.
  - reflexivity.
  - destruct (lookup sym atomic_numbers) as [m|] eqn:E; auto. apply lookup_In in E as (k & I & <-).
    destruct (table_known k m I) as [->|[->|I']]; auto.
    + exfalso. apply HD. reflexivity.
    + exfalso. apply (Hk k I'). reflexivity.
Qed.
Lemma atom_type : forall label symbol coords occ a, is_atom label symbol coords occ a -> atomic_number (find_symbol symbol) = at_type a.
Proof.
  intros label symbol coords occ a [_ _ (sym & Hs & Ht) _]. rewrite (symbol_found _ _ Hs). apply type_of_number. auto.
Qed.
Lemma ends_question : forall s, ends_with_question s = true <-> exists t, s = t ++ ["?"%char].
Proof.
  intros s. unfold ends_with_question. destruct (rev s) as [|c t] eqn:E.
  - apply (f_equal (@rev ascii)) in E. rewrite rev_involutive in E. subst s. split; [discriminate|].
    intros [t E]. destruct t; discriminate.
  - apply (f_equal (@rev ascii)) in E. rewrite rev_involutive in E. cbn [rev] in E. subst s. split.
    + intros Q. exists (rev t). f_equal. f_equal. apply code_inj. apply Nat.eqb_eq in Q. exact Q.
    + intros [u Q]. apply app_inj_tail in Q as [_ ->]. reflexivity.
Qed.
Lemma atom_disorder : forall label symbol coords occ v a, is_atom label symbol coords occ a ->
  occupancy_value (T := R) v = Fin occ -> has_disorder label v = at_disordered a.
Proof.
  intros label symbol coords occ v a [_ _ _ HD] Hv. unfold has_disorder. rewrite Hv. cbn [below_one nltb NumR].
  apply eq_true_iff_eq. rewrite HD, orb_true_iff, ends_question. rewrite Rltb_true. tauto.
Qed.

(** ** Lists of sites *)
Lemma without_seq : forall A (d : A) remove l,
  without remove l = map (fun i => nth i l d) (filter (fun i => negb (existsb (Nat.eqb i) remove)) (seq 0 (length l))).
Proof.
  intros A d remove l. unfold without. rewrite (enumerate_seq _ l d).
  rewrite (filter_map_comm _ _ (fun i => (i, nth i l d))). rewrite map_map. reflexivity.
Qed.
Lemma filter_nth : forall A (d : A) p l, filter p l = map (fun i => nth i l d) (filter (fun i => p (nth i l d)) (seq 0 (length l))).
Proof.
  intros A d p l. induction l as [|a l IH]; auto. cbn [length seq filter nth].
  rewrite <- seq_shift, (filter_map_comm _ _ S). cbn [nth]. destruct (p a); cbn [map nth]; rewrite map_map; cbn [nth]; [f_equal|]; exact IH.
Qed.
Lemma without_filter : forall A B (f : A -> B) p remove l, 
  (forall i, (i < length l)%nat -> forall d, existsb (Nat.eqb i) remove = negb (p (nth i l d))) ->
  without remove (map f l) = map f (filter p l).
Proof.
  intros A B f p remove l Hp. destruct l as [|d l']; auto. set (l := d :: l') in *.
  rewrite (without_seq _ (f d)), (filter_nth _ d p l), map_length.
  transitivity (map (fun i => nth i (map f l) (f d)) (filter (fun i => p (nth i l d)) (seq 0 (length l)))).
  - f_equal. apply filter_ext_in. intros i Hi. apply in_seq in Hi. rewrite (Hp i ltac:(lia) d). apply negb_involutive.
  - rewrite map_map. apply map_ext_in. intros i _. apply map_nth.
Qed.

Lemma existsb_positions : forall A (d : A) (q : A -> bool) l i, (i < length l)%nat ->
  existsb (Nat.eqb i) (map fst (filter (fun ia => q (snd ia)) (enumerate l))) = q (nth i l d).
Proof.
  intros A d q l i Hi. rewrite (enumerate_seq _ l d), (filter_map_comm _ _ (fun i => (i, nth i l d))), map_map. cbn [fst snd].
  rewrite map_id. apply eq_true_iff_eq. rewrite existsb_exists. split.
  - intros (j & Hj & E). apply Nat.eqb_eq in E. subst j. apply filter_In in Hj. tauto.
  - intros E. exists i. split; [|apply Nat.eqb_refl]. apply filter_In. split; auto. apply in_seq. lia.
Qed.

(** Loops over disordered sites in the ase and pymatgen converters. *)
Definition flagged (h : bool) (a : atom) : bool := (h && (at_type a =? 1)%nat)%bool.

Lemma remove_all : forall h atoms disordered, sites_to_remove h AllSites (map at_type atoms) disordered =
  Done (if h then map fst (filter (fun it => (snd it =? 1)%nat) (enumerate (map at_type atoms))) else []).
Proof.
  intros h atoms disordered. unfold sites_to_remove. set (r := if h then _ else _). clearbody r.
  induction (enumerate disordered) as [|[i d] l IH]; auto. cbn [ofold].
  replace (if existsb (Nat.eqb i) r then Done r else if d then Done r else Done r) with (Done (A := list nat) r) by (destruct (existsb _ r), d; auto).
  exact IH.
Qed.

Lemma hydrogens_ok : forall (h : bool) (atoms : list atom) (i : nat) (d : atom), (i < length atoms)%nat ->
  existsb (Nat.eqb i) (if h then map fst (filter (fun it => (snd it =? 1)%nat) (enumerate (map at_type atoms))) else []) =
  flagged h (nth i atoms d).
Proof.
  intros [|] atoms i d Hi; auto. rewrite (existsb_positions nat (at_type d) (fun n => (n =? 1)%nat)) by (rewrite map_length; auto).
  rewrite map_nth. reflexivity.
Qed.

Lemma remove_loop_skip : forall l r,
  ofold (fun (remove : list nat) (id : nat * bool) =>
           let '(i, dis) := id in
           if existsb (Nat.eqb i) remove then Done remove
           else if dis then Raise ParseError else Done remove) l r =
  if existsb (fun id => (snd id && negb (existsb (Nat.eqb (fst id)) r))%bool) l then Raise ParseError else Done r.
Proof.
  induction l as [|[i d] l IH]; intros r; auto. cbn [ofold existsb fst snd].
  destruct (existsb (Nat.eqb i) r), d; cbn [obind andb negb orb]; auto.
Qed.
Lemma remove_loop_ordered : forall l r, exists r',
  ofold (fun (remove : list nat) (id : nat * bool) =>
           let '(i, dis) := id in
           if existsb (Nat.eqb i) remove then Done remove
           else if dis then Done (remove ++ [i]) else Done remove) l r = Done r' /\
  forall i, existsb (Nat.eqb i) r' = (existsb (Nat.eqb i) r || existsb (fun id => (snd id && Nat.eqb i (fst id))%bool) l)%bool.
Proof.
  induction l as [|[i d] l IH]; intros r.
  - exists r. split; auto. intros i. rewrite orb_false_r. auto.
  - cbn [ofold]. destruct (existsb (Nat.eqb i) r) eqn:E; [|destruct d]; cbn [obind].
    + destruct (IH r) as (r' & E1 & E2). exists r'. split; auto. intros j. rewrite E2. cbn [existsb fst snd].
      destruct (Nat.eqb_spec j i) as [->|N]; [rewrite E; auto|]. rewrite andb_false_r. auto.
    + destruct (IH (r ++ [i])) as (r' & E1 & E2). exists r'. split; auto. intros j. rewrite E2. cbn [existsb fst snd].
      rewrite existsb_app. cbn [existsb andb]. rewrite orb_false_r, orb_assoc. auto.
    + destruct (IH r) as (r' & E1 & E2). exists r'. split; auto.
Qed.

Lemma enumerate_existsb : forall A (d : A) (q : nat -> A -> bool) l,
  existsb (fun ia => q (fst ia) (snd ia)) (enumerate l) = true <-> exists i, (i < length l)%nat /\ q i (nth i l d) = true.
Proof.
  intros A d q l. rewrite (enumerate_seq _ l d), existsb_exists. split.
  - intros (x & Hx & E). apply in_map_iff in Hx as (i & <- & Hi). apply in_seq in Hi. exists i. split; [lia|auto].
  - intros (i & Hi & E). exists (i, nth i l d). split; auto. apply in_map_iff. exists i. split; auto. apply in_seq. lia.
Qed.

(** The sites removed by the ase and pymatgen converters. *)
Definition skipped (h : bool) (atoms : list atom) : bool := existsb (fun a => (at_disordered a && negb (flagged h a))%bool) atoms.

Lemma sites_removed : forall h d atoms disordered,
  (d <> AllSites -> disordered = map at_disordered atoms) ->
  (d = Skip /\ skipped h atoms = true /\ sites_to_remove h d (map at_type atoms) disordered = Raise ParseError) \/
  ((d = Skip -> skipped h atoms = false) /\
   exists remove, sites_to_remove h d (map at_type atoms) disordered = Done remove /\
     forall A (f : atom -> A), without remove (map f atoms) = map f (filter (wanted h d) atoms)).
Proof.
  intros h d atoms disordered HD. destruct d.
  - rewrite HD by discriminate. unfold sites_to_remove. rewrite remove_loop_skip.
    match goal with |- context [if ?b then Raise ParseError else _] => assert (E : b = skipped h atoms) end.
    { set (r := if h then _ else _) at 1. apply eq_true_iff_eq.
      rewrite (enumerate_existsb _ false (fun i d => (d && negb (existsb (Nat.eqb i) r))%bool)).
      unfold skipped. rewrite existsb_exists, map_length. split.
      - intros (i & Hi & E). destruct atoms as [|a0 atoms']; [simpl in Hi; lia|]. set (atoms := a0 :: atoms') in *.
        exists (nth i atoms a0). split; [apply nth_In; auto|]. rewrite <- E. unfold r.
        rewrite (hydrogens_ok h atoms i a0 Hi). rewrite (nth_map' _ _ _ _ _ a0) by auto. auto.
      - intros (a & Ha & E). apply (In_nth _ _ a) in Ha as (i & Hi & Ei). exists i. split; auto.
        rewrite (nth_map' _ _ _ _ _ a) by auto. unfold r. rewrite (hydrogens_ok h atoms i a Hi), Ei. auto. }
    rewrite E. destruct (skipped h atoms); [left; auto|right]. split; auto. eexists. split; [reflexivity|].
    intros A f. apply without_filter. intros i Hi a. rewrite (hydrogens_ok h atoms i a Hi). unfold wanted, flagged.
    rewrite andb_true_r, negb_involutive. auto.
  - rewrite HD by discriminate. unfold sites_to_remove.
    set (r := if h then _ else _). destruct (remove_loop_ordered (enumerate (map at_disordered atoms)) r) as (r' & E1 & E2).
    right. split; [discriminate|]. exists r'. split; auto. intros A f. apply without_filter. intros i Hi a. rewrite E2. unfold r.
    rewrite (hydrogens_ok h atoms i a Hi). unfold wanted, flagged. rewrite negb_andb, !negb_involutive. f_equal.
    apply eq_true_iff_eq. rewrite (enumerate_existsb _ false (fun j d => (d && Nat.eqb i j)%bool)), map_length. split.
    + intros (j & Hj & E). apply andb_true_iff in E as [E Ej]. apply Nat.eqb_eq in Ej. subst j.
      rewrite (nth_map' _ _ _ _ _ a) in E by auto. auto.
    + intros E. exists i. split; auto. rewrite (nth_map' _ _ _ _ _ a) by auto. rewrite E, Nat.eqb_refl. auto.
  - right. split; [discriminate|]. rewrite remove_all. eexists. split; [reflexivity|].
    intros A f. apply without_filter. intros i Hi a. rewrite (hydrogens_ok h atoms i a Hi). unfold wanted, flagged.
    rewrite andb_true_r, negb_involutive. auto.
Qed.

(** ** Columns *)
Lemma omap_Forall2 : forall A B C (P : A -> B -> Prop) (f : A -> outcome C) (g : B -> C) l data,
  Forall2 P l data -> (forall a b, P a b -> f a = Done (g b)) -> omap f l = Done (map g data).
Proof. intros A B C P f g l data F Hf. induction F as [|a b l l' Hab F IH]; auto. cbn [omap map]. rewrite (Hf a b Hab), IH. auto. Qed.

Lemma ase_number_float : forall v x, ase_number v x -> str2float_str (T := R) v = Done (Fin x).
Proof. intros v x [->|(s & -> & Hs)]; auto. apply denotes_float. auto. Qed.
Lemma pymatgen_number_float : forall v x, pymatgen_number v x -> str2float (T := R) v = Done (Fin x).
Proof. intros v x (s & -> & Hs). apply denotes_float. auto. Qed.
Lemma ase_occupancy_value : forall v x, ase_occupancy v x -> occupancy_value (T := R) v = Fin x.
Proof. intros v x [->|(sg & n & -> & Hn & ->)]; auto. unfold occupancy_value. rewrite (float_signed sg n Hn). auto. Qed.

Lemma rows_three : forall A (d : A) xs ys zs n, length xs = n -> length ys = n -> length zs = n ->
  rows_of d [xs; ys; zs] = map (fun i => [nth i xs d; nth i ys d; nth i zs d]) (seq 0 n).
Proof.
  intros A d xs ys zs n H1 H2 H3. unfold rows_of, shortest. cbn [fold_left map]. rewrite H1, H2, H3, !Nat.min_id. auto.
Qed.

Definition no_atom : atom := {| at_coords := []; at_type := 0; at_disordered := false |}.
Lemma map_seq_atoms : forall A (f : nat -> A) (g : atom -> A) atoms,
  (forall i, (i < length atoms)%nat -> f i = g (nth i atoms no_atom)) -> map f (seq 0 (length atoms)) = map g atoms.
Proof.
  intros A f g atoms Hf. apply (nth_ext _ _ (f 0%nat) (f 0%nat)); rewrite map_length, seq_length; [rewrite map_length; auto|].
  intros i Hi. rewrite (nth_map' _ _ _ _ _ 0%nat), (nth_map' _ _ _ _ _ no_atom), seq_nth by (try rewrite seq_length; auto). apply Hf. auto.
Qed.
Lemma map_nth_seq : forall A (d : A) l n, length l = n -> map (fun i => nth i l d) (seq 0 n) = l.
Proof.
  intros A d l n <-. apply (nth_ext _ _ d d); rewrite map_length, seq_length; auto. intros i Hi.
  rewrite (nth_map' _ _ _ _ _ 0%nat), seq_nth by (try rewrite seq_length; auto). auto.
Qed.

Lemma F2_length : forall A B (P : A -> B -> Prop) l l', Forall2 P l l' -> length l = length l'.
Proof. intros A B P l l' F. induction F; simpl; auto. Qed.

Section Converters.
  Variables (tol : R) (cellpar_to_cell : list (fval (T := R)) -> outcome (list (vec R))).

  (** What is left of the converters once the atoms are known. *)
  Definition read_atoms (stop : bool) (h : bool) (d : disorder_option) (cell : list (vec R)) (atoms : list atom)
    (symmetry : outcome (list (op (T := R)) * list warning)) : outcome (crystal_set (T := R) * list warning) :=
    if (match d with Skip => stop | _ => false end) then Raise ParseError else
    let kept := filter (wanted h d) atoms in
    match kept with
    | [] => Raise ParseError
    | _ => convert mod1 tol d cell (map (fun a => map mod1 (at_coords a)) kept) (map at_type kept) symmetry
    end.

  Lemma finite_coords_ok : forall l : list atom, finite_coords (map (fun a => map Fin (at_coords a)) l) = Done (map at_coords l).
  Proof.
    intros l. unfold finite_coords. induction l as [|a l IH]; auto. cbn [map omap]. rewrite IH.
    assert (E : forall c : list R, omap (fun v : fval (T := R) => match v with Fin x => Done x | _ => OutOfFuel end) (map Fin c) = Done c).
    { induction c as [|x c IHc]; auto. cbn [map omap obind]. rewrite IHc. auto. }
    unfold vec in *. rewrite E. auto.
  Qed.

  Lemma convert_sites_ok : forall h d cell atoms disordered sym,
    (d <> AllSites -> disordered = map at_disordered atoms) ->
    convert_sites mod1 tol h d cell (map (fun a => map Fin (at_coords a)) atoms) (map at_type atoms) disordered sym =
    read_atoms (skipped h atoms) h d cell atoms sym.
  Proof.
    intros h d cell atoms disordered sym HD. unfold convert_sites, read_atoms.
    destruct (sites_removed h d atoms disordered HD) as [(-> & E1 & E2)|(E1 & r & E2 & E3)]; rewrite E2; cbn [obind].
    - rewrite E1. auto.
    - replace (match d with Skip => skipped h atoms | _ => false end) with false by (destruct d; auto; symmetry; auto).
      rewrite !E3. cbv zeta. destruct (filter (wanted h d) atoms) as [|a l]; auto.
      rewrite finite_coords_ok. cbn [obind]. rewrite map_map. auto.
  Qed.

    Lemma block_labels_ok : forall (get : chars -> cifval (T := R)) (atoms : list atom) labels,
      (listed (get (text "_atom_site_label")) is_text labels \/
       (get (text "_atom_site_label") = Nothing /\ labels = repeat [] (length atoms))) ->
      block_labels get (length atoms) = Done (map Str labels).
    Proof.
      intros get atoms labels. unfold block_labels, label_tag. intros [(l & -> & F)|[-> ->]].
      - cbn [iterate]. f_equal. clear - F. induction F as [|a b l l' -> F IH]; auto. cbn [map]. rewrite IH. auto.
      - f_equal. clear. induction (length atoms); auto. cbn [repeat map]. rewrite <- IHn. auto.
    Qed.

  Section Columns.
    Variables (get : chars -> cifval (T := R)) (atoms : list atom) (xs ys zs : list R) (labels symbols : list chars) (occs : list R).
    Hypothesis LX : length xs = length atoms.
    Hypothesis LY : length ys = length atoms.
    Hypothesis LZ : length zs = length atoms.
    Hypothesis LL : length labels = length atoms.
    Hypothesis LO : length occs = length atoms.
    Hypothesis LS : length symbols = length atoms.
    Hypothesis HA : forall i, (i < length atoms)%nat ->
      is_atom (nth i labels []) (nth i symbols []) [nth i xs 0; nth i ys 0; nth i zs 0] (nth i occs 0) (nth i atoms no_atom).

    Lemma rows_atoms : map (fun i => [nth i xs 0; nth i ys 0; nth i zs 0]) (seq 0 (length atoms)) = map at_coords atoms.
    Proof. apply map_seq_atoms. intros i Hi. symmetry. apply (ia_coords _ _ _ _ _ (HA i Hi)). Qed.

    Lemma types_atoms : map (fun s => atomic_number (find_symbol s)) symbols = map at_type atoms.
    Proof.
      rewrite <- (map_nth_seq _ [] symbols (length atoms) LS), map_map. apply map_seq_atoms. intros i Hi.
      apply (atom_type _ _ _ _ _ (HA i Hi)).
    Qed.

    Lemma block_types_ok :
      (listed (get (text "_atom_site_type_symbol")) is_text symbols \/
       (get (text "_atom_site_type_symbol") = Nothing /\ symbols = repeat [] (length atoms))) ->
      block_types get (length atoms) = Done (map at_type atoms).
    Proof.
      intros HS. rewrite <- types_atoms. unfold block_types, type_symbol_tag. destruct HS as [(l & -> & F)|[-> ->]].
      - cbn [iterate obind]. rewrite (omap_Forall2 _ _ _ _ _ find_symbol _ _ F).
        + cbn [obind]. rewrite map_map. auto.
        + intros a b ->. cbn [symbol_of]. rewrite symbol_label. auto.
      - f_equal. clear. induction (length atoms); auto. cbn [repeat map]. rewrite <- IHn. auto.
    Qed.
    Lemma disorder_ok : forall (P : cifval (T := R) -> R -> Prop) vs, (forall v x, P v x -> occupancy_value v = Fin x) ->
      Forall2 P vs occs ->
      omap (fun lo : cifval (T := R) * cifval (T := R) => has_disorder_value (fst lo) (snd lo)) (combine (map Str labels) vs) = Done (map at_disordered atoms).
    Proof.
      intros P vs HP F.
      rewrite (omap_ok _ _ _ (fun lo => match fst lo with Str s => has_disorder s (snd lo) | _ => false end)).
      2:{ intros [a b] I. cbn [fst snd]. apply in_combine_l in I. apply in_map_iff in I as (s & <- & _). auto. }
      f_equal. assert (LV : length vs = length atoms) by (rewrite <- LO; eapply F2_length; eauto).
      rewrite <- (map_nth_seq _ [] labels (length atoms) LL), <- (map_nth_seq _ Nothing vs (length atoms) LV).
      assert (E : forall A B (f : nat -> A) (g : nat -> B) l, combine (map f l) (map g l) = map (fun i => (f i, g i)) l).
      { intros A B f g l. induction l as [|i l IH]; auto. cbn [map combine]. rewrite IH. auto. }
      rewrite map_map, E, map_map. apply map_seq_atoms. intros i Hi. cbn [fst snd].
      apply (atom_disorder _ _ _ _ _ _ (HA i Hi)). apply HP.
      assert (G : forall l l', Forall2 P l l' -> forall i, (i < length l)%nat -> P (nth i l Nothing) (nth i l' 0)).
      { clear. intros l l' F. induction F as [|a b l l' Hab F IH]; intros i Hi; [simpl in Hi; lia|]. destruct i; auto. apply IH. simpl in Hi. lia. }
      apply G; auto. rewrite LV. auto.
    Qed.
  End Columns.

  Lemma ase_reads : forall (num occ : cifval (T := R) -> R -> Prop) spg b atoms par cell h d,
    (forall v x, num v x -> str2float_str v = Done (Fin x)) -> (forall v x, occ v x -> occupancy_value v = Fin x) ->
    (forall x, occ (Number (Fin x)) x) ->
    block_atoms num occ (ab_get b) atoms ->
    omap (fun t => str2float_str (ab_get b t)) cellpar_tags = Done par -> cellpar_to_cell par = Done cell ->
    ase_convert mod1 tol cellpar_to_cell spg b h d = read_atoms (skipped h atoms) h d cell atoms (ase_symmetry spg b).
  Proof.
    intros num occ spg b atoms par cell h d Hnum Hocc Hocc1 HB HP HC.
    destruct HB as (xs & ys & zs & labels & occs & symbols & HX & HY & HZ & HLab & HO & HS & LX & LY & LZ & LL & LO & LS & HA).
    change {| at_coords := []; at_type := 0; at_disordered := false |} with no_atom in HA.
    unfold ase_convert. rewrite HP. cbn [obind]. rewrite HC. cbn [obind].
    destruct HX as (vx & EX & FX), HY as (vy & EY & FY), HZ as (vz & EZ & FZ).
    assert (E : omap (fun t => obind (iterate (ab_get b t)) (fun l => omap str2float_str l)) fract_tags = Done [map Fin xs; map Fin ys; map Fin zs]).
    { unfold fract_tags. cbn [map omap]. unfold text in *. rewrite EX, EY, EZ. cbn [iterate obind].
      rewrite !(omap_Forall2 _ _ _ _ _ Fin _ _ FX), (omap_Forall2 _ _ _ _ _ Fin _ _ FY), (omap_Forall2 _ _ _ _ _ Fin _ _ FZ)
        by (intros; apply Hnum; auto). auto. }
    rewrite E. cbn [obind]. rewrite (rows_three _ _ _ _ _ (length atoms)) by (rewrite map_length; auto).
    rewrite map_length, seq_length. rewrite (block_types_ok _ atoms xs ys zs labels symbols occs); auto. cbn [obind].
    assert (RW : map (fun i => [nth i (map Fin xs) NaN; nth i (map Fin ys) NaN; nth i (map Fin zs) NaN]) (seq 0 (length atoms)) =
                map (fun a => map Fin (at_coords a)) atoms).
    { rewrite <- (map_map at_coords). rewrite <- (rows_atoms atoms xs ys zs labels symbols occs HA). rewrite map_map. apply map_ext_in. intros i Hi. apply in_seq in Hi.
      cbn [map]. rewrite !(nth_map' _ _ _ _ _ 0) by lia. auto. }
    rewrite RW. destruct (is_all_sites d) eqn:D.
    - cbn [obind]. apply convert_sites_ok. destruct d; try discriminate. intros Q. exfalso. auto.
    - assert (X : exists vs, match ab_get b occupancy_tag with Nothing => Done (repeat (Number (Fin n1)) (length atoms)) | v => iterate v end = Done vs /\
                    Forall2 occ vs occs).
      { unfold occupancy_tag. destruct HO as [(l & -> & F)|[-> ->]].
        - exists l. auto.
        - exists (repeat (Number (Fin n1)) (length atoms)). split; auto. clear - Hocc1. induction (length atoms); constructor; auto. }
      destruct X as (vs & -> & FV). cbn [obind]. rewrite (block_labels_ok _ atoms labels) by auto. cbn [obind].
      rewrite (disorder_ok atoms xs ys zs labels symbols occs LL LO HA occ) by auto. cbn [obind].
      apply convert_sites_ok. auto.
  Qed.

  Lemma reraise_Done : forall A (x : A), reraise (Done x) = Done x.
  Proof. auto. Qed.

  Lemma pymatgen_reads : forall (num occ : cifval (T := R) -> R -> Prop) lib b atoms par cell h d,
    (forall v x, num v x -> str2float v = Done (Fin x)) -> (forall v x, occ v x -> str2float v = Done (Fin x)) ->
    block_atoms num occ (pb_get b) atoms ->
    existsb (fun t => missing_value (pb_get b t)) cellpar_tags = false ->
    omap (fun t => str2float (pb_get b t)) cellpar_tags = Done par -> cellpar_to_cell par = Done cell ->
    pymatgen_convert mod1 tol cellpar_to_cell lib b h d = read_atoms (skipped h atoms) h d cell atoms (pymatgen_symmetry lib b).
  Proof.
    intros num occ lib b atoms par cell h d Hnum Hocc HB HM HP HC.
    destruct HB as (xs & ys & zs & labels & occs & symbols & HX & HY & HZ & HLab & HO & HS & LX & LY & LZ & LL & LO & LS & HA).
    change {| at_coords := []; at_type := 0; at_disordered := false |} with no_atom in HA.
    unfold pymatgen_convert. rewrite HM, HP. cbn [reraise obind]. rewrite HC. cbn [obind].
    destruct HX as (vx & EX & FX), HY as (vy & EY & FY), HZ as (vz & EZ & FZ).
    assert (N : existsb (fun t => is_nothing (pb_get b t)) fract_tags = false).
    { unfold fract_tags. cbn [map existsb]. rewrite EX, EY, EZ. auto. }
    rewrite N. assert (E : omap (fun t => iterate (pb_get b t)) fract_tags = Done [vx; vy; vz]).
    { unfold fract_tags. cbn [map omap]. unfold text in *. rewrite EX, EY, EZ. auto. }
    rewrite E. cbn [obind]. pose proof (F2_length _ _ _ _ _ FX) as VX. pose proof (F2_length _ _ _ _ _ FY) as VY. pose proof (F2_length _ _ _ _ _ FZ) as VZ.
    rewrite (rows_three _ _ _ _ _ (length atoms)) by congruence.
    assert (G : forall l l', Forall2 num l l' -> forall i, (i < length l)%nat -> num (nth i l Nothing) (nth i l' 0)).
    { clear. intros l l' F. induction F as [|a b l l' Hab F IH]; intros i Hi; [simpl in Hi; lia|]. destruct i; auto. apply IH. simpl in Hi. lia. }
    assert (RW : omap (omap str2float) (map (fun i => [nth i vx Nothing; nth i vy Nothing; nth i vz Nothing]) (seq 0 (length atoms))) =
                Done (map (fun a => map Fin (at_coords a)) atoms)).
    { rewrite <- (map_map at_coords). rewrite <- (rows_atoms atoms xs ys zs labels symbols occs HA). rewrite map_map.
      assert (Q : forall l, (forall i, In i l -> (i < length atoms)%nat) ->
         omap (omap str2float) (map (fun i => [nth i vx Nothing; nth i vy Nothing; nth i vz Nothing]) l) = Done (map (fun i => map Fin [nth i xs 0; nth i ys 0; nth i zs 0]) l)).
      { induction l as [|i l IH]; intros Hl; auto. cbn [map omap]. pose proof (Hl i (or_introl eq_refl)).
        rewrite (Hnum _ _ (G _ _ FX i ltac:(lia))), (Hnum _ _ (G _ _ FY i ltac:(lia))), (Hnum _ _ (G _ _ FZ i ltac:(lia))).
        cbn [obind]. rewrite IH by (intros; apply Hl; right; auto). auto. }
      apply Q. intros i Hi. apply in_seq in Hi. lia. }
    rewrite RW. cbn [reraise obind]. rewrite map_length. rewrite (block_types_ok _ atoms xs ys zs labels symbols occs); auto. cbn [obind].
    destruct (is_all_sites d) eqn:D.
    - cbn [obind]. apply convert_sites_ok. destruct d; try discriminate. intros Q. exfalso. auto.
    - assert (X : match pb_get b occupancy_tag with Nothing => Done (repeat (Fin n1) (length atoms)) | v => obind (iterate v) (fun l => omap str2float l) end = Done (map Fin occs)).
      { unfold occupancy_tag. destruct HO as [(l & -> & F)|[-> ->]].
        - cbn [iterate obind]. apply (omap_Forall2 _ _ _ _ _ Fin _ _ F). apply Hocc.
        - f_equal. clear. induction (length atoms); auto. cbn [repeat map]. rewrite <- IHn. auto. }
      rewrite X. cbn [obind]. rewrite (block_labels_ok _ atoms labels) by auto. cbn [obind].
      assert (Y : omap (fun lo : cifval (T := R) * fval (T := R) => has_disorder_value (fst lo) (Number (snd lo))) (combine (map Str labels) (map Fin occs)) = Done (map at_disordered atoms)).
      { rewrite <- (disorder_ok atoms xs ys zs labels symbols occs LL LO HA (fun v x => v = Number (Fin x)) (map (fun x => Number (Fin x)) occs)).
        - clear. generalize (map (@Str R) labels) as l. clear. induction occs as [|o t IH]; intros [|a l]; auto. cbn [map combine omap fst snd]. rewrite IH. auto.
        - intros v x ->. auto.
        - clear. induction occs; constructor; auto. }
      rewrite Y. cbn [obind]. apply convert_sites_ok. auto.
  Qed.
End Converters.

(** ** The loop of gemmi *)
Fixpoint position (t : chars) (tags : list chars) : option nat :=
  match tags with
  | [] => None
  | t' :: ts => if text_eqb t t' then Some 0%nat else option_map S (position t ts)
  end.
Lemma text_eqb_refl : forall t, text_eqb t t = true.
Proof. intros t. apply text_eqb_eq. auto. Qed.
Lemma position_some : forall t tags j, NoDup tags -> nth_error tags j = Some t -> position t tags = Some j.
Proof.
  intros t tags. induction tags as [|t' ts IH]; intros j HN Hj; [destruct j; discriminate|]. inversion HN; subst.
  destruct j as [|j]; cbn [nth_error position] in *.
  - injection Hj as ->. rewrite text_eqb_refl. auto.
  - destruct (text_eqb t t') eqn:E.
    + apply text_eqb_eq in E. subst t'. exfalso. apply H1. eapply nth_error_In; eauto.
    + rewrite (IH j); auto.
Qed.
Lemma position_none : forall t tags, ~ In t tags -> position t tags = None.
Proof.
  intros t tags. induction tags as [|t' ts IH]; intros HN; auto. cbn [position]. destruct (text_eqb t t') eqn:E.
  - apply text_eqb_eq in E. subst t'. exfalso. apply HN. left. auto.
  - rewrite IH; auto. intros I. apply HN. right. auto.
Qed.
Lemma position_bound : forall t tags j, position t tags = Some j -> (j < length tags)%nat /\ In t tags.
Proof.
  intros t tags. induction tags as [|t' ts IH]; intros j Hj; [discriminate|]. cbn [position] in Hj. destruct (text_eqb t t') eqn:E.
  - injection Hj as <-. apply text_eqb_eq in E. subst. simpl. split; [lia|auto].
  - destruct (position t ts) as [k|]; [|discriminate]. injection Hj as <-. destruct (IH k eq_refl). simpl. split; [lia|auto].
Qed.
Lemma position_In : forall t tags, In t tags -> exists j, position t tags = Some j.
Proof.
  intros t tags. induction tags as [|t' ts IH]; intros I; [destruct I|]. cbn [position]. destruct (text_eqb t t') eqn:E; [eauto|].
  destruct I as [->|I]; [rewrite text_eqb_refl in E; discriminate|]. destruct (IH I) as [j ->]. cbn. eauto.
Qed.

Lemma dict_combine : forall A (cols : list A) d tags t, NoDup tags -> length cols = length tags ->
  dict_get t (combine tags cols) = option_map (fun j => nth j cols d) (position t tags).
Proof.
  intros A cols d tags t. revert cols. induction tags as [|t' ts IH]; intros cols HN HL; auto. inversion HN; subst.
  destruct cols as [|c cols]; [discriminate|]. cbn [combine dict_get position]. rewrite (IH cols); auto.
  destruct (text_eqb t t') eqn:E.
  - apply text_eqb_eq in E. subst t'. rewrite position_none by auto. auto.
  - destruct (position t ts) as [j|]; auto.
Qed.

Lemma filter_row : forall w k j (d : chars) l off, (j < w)%nat -> (off + length l = w)%nat ->
  map snd (filter (fun iv : nat * chars => (fst iv mod w =? j)%nat) (combine (seq (k * w + off) (length l)) l)) =
  if (off <=? j)%nat then [nth (j - off) l d] else [].
Proof.
  intros w k j d l. induction l as [|a l IH]; intros off Hj HL; cbn [length] in HL.
  - replace (off <=? j)%nat with false by (symmetry; apply Nat.leb_gt; lia). auto.
  - cbn [length seq combine filter fst].
    assert (M : ((k * w + off) mod w = off)%nat). { rewrite Nat.add_comm, Nat.mod_add by lia. apply Nat.mod_small. lia. }
    rewrite M. replace (S (k * w + off)) with (k * w + S off)%nat by lia.
    specialize (IH (S off) Hj ltac:(lia)). destruct (Nat.eqb_spec off j) as [->|N].
    + cbn [map snd]. rewrite IH. replace (S j <=? j)%nat with false by (symmetry; apply Nat.leb_gt; lia).
      rewrite Nat.leb_refl, Nat.sub_diag. auto.
    + rewrite IH. destruct (Nat.leb_spec (S off) j), (Nat.leb_spec off j); try lia; auto.
      replace (j - off)%nat with (S (j - S off)) by lia. auto.
Qed.
Lemma combine_app : forall A B (a a' : list A) (b b' : list B), length a = length b ->
  combine (a ++ a') (b ++ b') = combine a b ++ combine a' b'.
Proof. intros A B a. induction a as [|x a IH]; intros a' [|y b] b' HL; try discriminate; auto. cbn. rewrite IH; auto. Qed.
Lemma column_rows : forall w j rows k, (j < w)%nat -> Forall (fun r : list chars => length r = w) rows ->
  map snd (filter (fun iv : nat * chars => (fst iv mod w =? j)%nat) (combine (seq (k * w) (length (List.concat rows))) (List.concat rows))) =
  map (fun r => nth j r []) rows.
Proof.
  intros w j rows. induction rows as [|r rows IH]; intros k Hj HR; auto. inversion HR; subst. cbn [List.concat].
  rewrite app_length, seq_app. rewrite combine_app by (rewrite seq_length; auto). rewrite filter_app, map_app.
  pose proof (filter_row (length r) k j [] r 0 Hj ltac:(lia)) as E. rewrite Nat.add_0_r, Nat.sub_0_r in E. cbn [Nat.leb] in E. rewrite E.
  cbn [map app]. f_equal. specialize (IH (S k) Hj H2). replace (S k * length r)%nat with (k * length r + length r)%nat in IH by lia. exact IH.
Qed.

Lemma omap_map : forall A B C (f : B -> outcome C) (g : A -> B) l, omap f (map g l) = omap (fun a => f (g a)) l.
Proof. intros A B C f g l. induction l as [|a l IH]; auto. cbn [map omap]. rewrite IH. auto. Qed.

Section Gemmi.
  Variables (tol : R) (cellpar_to_cell : list (fval (T := R)) -> outcome (list (vec R))) (lib : gemmi_lib (T := R)).
  Variable num : list ascii -> R -> Prop.
  Hypothesis Hnum : forall s x, num s x -> str_to_float (T := R) s = Done (Fin x).
  Variables (l : loop) (rows : list (list chars)) (atoms : list atom).
  Hypothesis HN : NoDup (lp_tags l).
  Hypothesis HV : lp_values l = List.concat rows.
  Hypothesis HF : Forall (fun t => In t (lp_tags l)) fract_tags.
  Hypothesis HR : Forall (fun r => length r = length (lp_tags l)) rows.
  Hypothesis HA : Forall2 (gemmi_atom num lib l) rows atoms.

  Lemma dict_ok : forall t, dict_get t (loop_dict l) = option_map (fun j => map (fun r => nth j r []) rows) (position t (lp_tags l)).
  Proof.
    intros t. unfold loop_dict. rewrite (dict_combine _ _ []) by (auto; rewrite map_length, seq_length; auto).
    destruct (position t (lp_tags l)) as [j|] eqn:P; auto. cbn [option_map]. f_equal. apply position_bound in P as [P _].
    rewrite (nth_map' _ _ _ _ _ 0%nat), seq_nth by (try rewrite seq_length; auto). cbn [Nat.add].
    unfold enumerate. rewrite HV. apply (column_rows (width l) j rows 0 P HR).
  Qed.
  Lemma rows_length : loop_length l = length rows.
  Proof.
    unfold loop_length. rewrite HV. unfold width.
    assert (W : (0 < length (lp_tags l))%nat).
    { pose proof HF as F. rewrite Forall_forall in F. assert (I : In (text "_atom_site_fract_x") (lp_tags l)) by (apply F; left; reflexivity).
      destruct (lp_tags l); [destruct I|simpl; lia]. }
    assert (E : length (List.concat rows) = (length rows * length (lp_tags l))%nat).
    { clear - HR. revert HR. generalize (length (lp_tags l)). intros w HR. induction rows as [|r rows' IH]; auto. inversion HR; subst.
      cbn [List.concat length]. rewrite app_length, IH; auto. }
    rewrite E. apply Nat.div_mul. lia.
  Qed.

  Definition label_of (row : list chars) : chars :=
    match position label_tag (lp_tags l) with Some j => gl_as_string lib (nth j row []) | None => [] end.
  Definition symbol_text (row : list chars) : chars :=
    match position type_symbol_tag (lp_tags l) with Some j => gl_as_string lib (nth j row []) | None => label_of row end.
  Definition occ_of (row : list chars) (o : R) : Prop :=
    match position occupancy_tag (lp_tags l) with Some j => num (nth j row []) o | None => o = 1 end.

  Lemma atom_view : forall row a, gemmi_atom num lib l row a -> exists x y z o,
    (forall j, position (text "_atom_site_fract_x") (lp_tags l) = Some j -> num (nth j row []) x) /\
    (forall j, position (text "_atom_site_fract_y") (lp_tags l) = Some j -> num (nth j row []) y) /\
    (forall j, position (text "_atom_site_fract_z") (lp_tags l) = Some j -> num (nth j row []) z) /\
    occ_of row o /\ is_atom (label_of row) (symbol_text row) [x; y; z] o a.
  Proof.
    intros row a (xt & yt & zt & label & x & y & z & occ & symbol & (i & j & k & Pi & Ei & Pj & Ej & Pk & Ek) & Dx & Dy & Dz & HL & HO & HS & HI).
    exists x, y, z, occ. rewrite !(position_some _ _ _ HN Pi), !(position_some _ _ _ HN Pj), !(position_some _ _ _ HN Pk).
    split; [intros i' Q; injection Q as <-; unfold chars in *; rewrite Ei; auto|].
    split; [intros i' Q; injection Q as <-; unfold chars in *; rewrite Ej; auto|].
    split; [intros i' Q; injection Q as <-; unfold chars in *; rewrite Ek; auto|].
    assert (EL : label_of row = label).
    { unfold label_of, label_tag. destruct HL as [(m & Pm & <-)|[Q ->]]; [rewrite (position_some _ _ _ HN Pm)|rewrite position_none by auto]; auto. }
    assert (ES : symbol_text row = symbol).
    { unfold symbol_text, type_symbol_tag. destruct HS as [(m & Pm & <-)|[Q ->]]; [rewrite (position_some _ _ _ HN Pm)|rewrite position_none by auto]; auto. }
    rewrite EL, ES. split; auto.
    unfold occ_of, occupancy_tag. destruct HO as [(m & Pm & Q)|[Q ->]]; [rewrite (position_some _ _ _ HN Pm)|rewrite position_none by auto]; auto.
  Qed.

  Lemma gemmi_labels_ok : gemmi_labels lib l = map label_of rows.
  Proof.
    unfold gemmi_labels. rewrite dict_ok, rows_length. unfold label_of. destruct (position label_tag (lp_tags l)) as [j|]; cbn [option_map].
    - apply map_map.
    - clear. induction rows as [|r t IH]; auto. cbn. rewrite IH. auto.
  Qed.
  Lemma gemmi_types_ok : gemmi_types lib l = map at_type atoms.
  Proof.
    unfold gemmi_types. rewrite gemmi_labels_ok, dict_ok.
    transitivity (map (fun r => atomic_number (find_symbol (symbol_text r))) rows).
    - unfold symbol_text. destruct (position type_symbol_tag (lp_tags l)) as [j|]; cbn [option_map].
      + rewrite !map_map. auto.
      + rewrite symbols_labels, !map_map. auto.
    - pose proof HA as F0. clear HA HV HR HF. induction F0 as [|r a rs as' H1 F IH]; auto. cbn [map]. f_equal; auto.
      destruct (atom_view r a H1) as (x & y & z & o & _ & _ & _ & _ & I). apply (atom_type _ _ _ _ _ I).
  Qed.
  Lemma gemmi_occupancies_ok : exists os, gemmi_occupancies l = Done (map Fin os) /\
    Forall2 (fun r o => occ_of r o) rows os /\ map (fun ro => has_disorder (label_of (fst ro)) (Number (Fin (snd ro)))) (combine rows os) = map at_disordered atoms.
  Proof.
    assert (X : exists os, Forall2 (fun r o => occ_of r o) rows os /\
      map (fun ro => has_disorder (label_of (fst ro)) (Number (Fin (snd ro)))) (combine rows os) = map at_disordered atoms).
    { pose proof HA as F0. clear HA HV HR HF. induction F0 as [|r a rs as' H1 F IH]; [exists []; split; [constructor|auto]|].
      destruct IH as (os & F2 & E). destruct (atom_view r a H1) as (x & y & z & o & _ & _ & _ & HO & I).
      exists (o :: os). split; [constructor; auto|]. cbn [combine map fst snd]. f_equal; auto. apply (atom_disorder _ _ _ _ _ _ I). auto. }
    destruct X as (os & F & E). exists os. split; auto. unfold gemmi_occupancies. rewrite dict_ok, rows_length.
    unfold occ_of in F. destruct (position occupancy_tag (lp_tags l)) as [j|]; cbn [option_map].
    - assert (Q : omap (fun s => str2float (T := R) (Str s)) (map (fun r => nth j r []) rows) = Done (map Fin os)).
      { rewrite omap_map. apply (omap_Forall2 _ _ _ _ _ Fin _ _ F). intros r o. apply Hnum. }
      rewrite Q. cbn [obind]. rewrite map_map. auto.
    - f_equal. clear - F. induction F as [|r o rs os H1 F IH]; auto. cbn [length repeat map]. rewrite IH, H1. auto.
  Qed.
  Lemma gemmi_coords_ok : exists xs ys zs,
    omap (fun t => get_key t (loop_dict l)) fract_tags = Done [xs; ys; zs] /\
    exists cols, omap (omap (fun s => str2float (T := R) (Str s))) [xs; ys; zs] = Done cols /\
      forallb (fun c => (length c =? shortest cols)%nat) cols = true /\
      rows_of NaN cols = map (fun a => map Fin (at_coords a)) atoms.
  Proof.
    assert (P : forall t, In t fract_tags -> exists j, position t (lp_tags l) = Some j).
    { intros t I. apply position_In. rewrite Forall_forall in HF. apply HF. exact I. }
    destruct (P (text "_atom_site_fract_x")) as [i Pi]; [unfold fract_tags; simpl; auto|].
    destruct (P (text "_atom_site_fract_y")) as [j Pj]; [unfold fract_tags; simpl; auto|].
    destruct (P (text "_atom_site_fract_z")) as [k Pk]; [unfold fract_tags; simpl; auto|].
    exists (map (fun r => nth i r []) rows), (map (fun r => nth j r []) rows), (map (fun r => nth k r []) rows). split.
    { unfold fract_tags, get_key. cbn [map omap]. rewrite !dict_ok. unfold text in *. rewrite Pi, Pj, Pk. auto. }
    assert (V : Forall2 (fun r a => exists x y z, at_coords a = [x; y; z] /\ num (nth i r []) x /\ num (nth j r []) y /\ num (nth k r []) z) rows atoms).
    { pose proof HA as F0. clear HA HV HR HF. induction F0 as [|r a rs as' H1 F IH]; constructor; auto.
      destruct (atom_view r a H1) as (x & y & z & o & Dx & Dy & Dz & _ & I). exists x, y, z.
      split; [apply (ia_coords _ _ _ _ _ I)|]. auto. }
    assert (W : forall n, (n < 3)%nat -> forall m, (forall r a, (exists x y z, at_coords a = [x; y; z] /\ num (nth i r []) x /\ num (nth j r []) y /\ num (nth k r []) z) -> num (nth m r []) (nth n (at_coords a) 0)) ->
      omap (fun s => str2float (T := R) (Str s)) (map (fun r => nth m r []) rows) = Done (map (fun a => Fin (nth n (at_coords a) 0)) atoms)).
    { intros n Hn m Hm. rewrite omap_map. apply (omap_Forall2 _ _ _ _ _ (fun a => Fin (nth n (at_coords a) 0)) _ _ V).
      intros r a Q. apply Hnum. auto. }
    exists [map (fun a => Fin (nth 0 (at_coords a) 0)) atoms; map (fun a => Fin (nth 1 (at_coords a) 0)) atoms; map (fun a => Fin (nth 2 (at_coords a) 0)) atoms].
    cbn [omap]. rewrite (W 0%nat), (W 1%nat), (W 2%nat); try lia.
    2,3,4: intros r a (x & y & z & -> & Dx & Dy & Dz); cbn [nth]; auto.
    split; auto. split.
    { cbn [forallb]. unfold shortest. cbn [fold_left]. rewrite !map_length, !Nat.min_id, !Nat.eqb_refl. auto. }
    rewrite (rows_three _ _ _ _ _ (length atoms)) by apply map_length. apply map_seq_atoms. intros p Hp.
    rewrite !(nth_map' _ _ _ _ _ no_atom) by auto.
    assert (C : Forall (fun a => length (at_coords a) = 3%nat) atoms).
    { clear - V. induction V as [|r a rs as' (x & y & z & E & _) F IH]; constructor; auto. rewrite E. auto. }
    rewrite Forall_forall in C. pose proof (C _ (nth_In _ no_atom Hp)) as E3. destruct (at_coords (nth p atoms no_atom)) as [|x [|y [|z [|]]]]; try discriminate. auto.
  Qed.

  Lemma fin_row : forall a, map fin_or_0 (map (fmod1 mod1) (map Fin (at_coords a))) = map mod1 (at_coords a).
  Proof. intros a. rewrite !map_map. apply map_ext. auto. Qed.

  Lemma gemmi_reads : forall b pars par cell h d, gb_fract b = Some l ->
    omap (fun t => match gb_find_value b t with Some s => Done s | None => Raise ParseError end) cellpar_tags = Done pars ->
    omap (fun s => str2float (Str s)) pars = Done par -> sum_is_nan par = false -> cellpar_to_cell par = Done cell ->
    gemmi_convert mod1 tol cellpar_to_cell lib b h d = read_atoms tol (existsb at_disordered atoms) h d cell atoms (gemmi_symmetry lib b).
  Proof.
    intros b pars par cell h d Hb HP HQ HS HC. unfold gemmi_convert. rewrite HP, HQ. cbn [obind]. rewrite HS, HC, Hb. cbn [obind].
    destruct gemmi_coords_ok as (xs & ys & zs & E1 & cols & E2 & E3 & E4). rewrite E1. cbn [obind]. rewrite E2. cbn [obind]. rewrite E3, E4.
    destruct gemmi_occupancies_ok as (os & O1 & O2 & O3). rewrite O1. cbn [negb obind].
    rewrite gemmi_labels_ok, gemmi_types_ok. rewrite map_map.
    assert (M : filter (fun ip : nat * list (fval (T := R)) => existsb is_nan (snd ip)) (enumerate (map (fun a => map (fmod1 mod1) (map Fin (at_coords a))) atoms)) = []).
    { match goal with |- ?f = [] => destruct f as [|[i p] t] eqn:Q; auto end. exfalso.
      assert (I : In (i, p) ((i, p) :: t)) by (left; auto). rewrite <- Q in I. apply filter_In in I as [I J]. cbn [snd] in J.
      unfold enumerate in I. apply in_combine_r in I. apply in_map_iff in I as (a & <- & _). apply existsb_exists in J as (v & Hv & Nv).
      rewrite map_map in Hv. apply in_map_iff in Hv as (x & <- & _). discriminate. }
    rewrite M. cbn [map app].
    assert (D : map (fun lo : chars * fval (T := R) => has_disorder (fst lo) (Number (snd lo))) (combine (map label_of rows) (map Fin os)) = map at_disordered atoms).
    { rewrite <- O3. clear. revert os. induction rows as [|r rs IH]; intros [|o os]; auto. cbn [map combine fst snd]. f_equal. apply IH. }
    rewrite D. assert (S : existsb (fun d => d) (map at_disordered atoms) = existsb at_disordered atoms).
    { clear. induction atoms as [|a t IH]; auto. cbn. rewrite IH. auto. }
    rewrite S. unfold read_atoms.
    assert (G : forall remove, (forall i, (i < length atoms)%nat -> forall a0, existsb (Nat.eqb i) remove = negb (wanted h d (nth i atoms a0))) ->
      match without remove (map (fun a => map (fmod1 mod1) (map Fin (at_coords a))) atoms) with
      | [] => Raise ParseError
      | _ => convert mod1 tol d cell (map (map fin_or_0) (without remove (map (fun a => map (fmod1 mod1) (map Fin (at_coords a))) atoms)))
               (without remove (map at_type atoms)) (gemmi_symmetry lib b)
      end =
      match filter (wanted h d) atoms with
      | [] => Raise ParseError
      | _ => convert mod1 tol d cell (map (fun a => map mod1 (at_coords a)) (filter (wanted h d) atoms)) (map at_type (filter (wanted h d) atoms)) (gemmi_symmetry lib b)
      end).
    { intros remove Hr. rewrite !(without_filter _ _ _ (wanted h d)) by auto.
      destruct (filter (wanted h d) atoms) as [|a0 t]; auto. rewrite map_map.
      cbn [map]. rewrite fin_row. f_equal. f_equal. apply map_ext. exact fin_row. }
    assert (Hyd : forall remove i a0, (i < length atoms)%nat ->
      existsb (Nat.eqb i) (if h then remove ++ map fst (filter (fun it : nat * nat => (snd it =? 1)%nat) (enumerate (map at_type atoms))) else remove) =
      (existsb (Nat.eqb i) remove || flagged h (nth i atoms a0))%bool).
    { intros remove i a0 Hi. pose proof (hydrogens_ok h atoms i a0 Hi) as E. destruct h.
      - rewrite existsb_app, E. auto.
      - unfold flagged. cbn [andb]. rewrite orb_false_r. auto. }
    destruct d.
    - destruct (existsb at_disordered atoms); auto. cbn [obind]. apply G. intros i Hi a0. rewrite (Hyd _ i a0 Hi). cbn [existsb orb].
      unfold wanted, flagged. rewrite andb_true_r, negb_involutive. auto.
    - cbn [obind]. apply G. intros i Hi a0. rewrite (Hyd _ i a0 Hi).
      pose proof (existsb_positions _ (at_disordered a0) (fun d => d) (map at_disordered atoms) i ltac:(rewrite map_length; auto)) as E.
      rewrite map_nth in E.
      assert (E' : existsb (Nat.eqb i) (map fst (filter snd (enumerate (map at_disordered atoms)))) = at_disordered (nth i atoms a0)).
      { exact E. }
      rewrite E'. unfold wanted, flagged. rewrite negb_andb, !negb_involutive. apply orb_comm.
    - cbn [obind]. apply G. intros i Hi a0. rewrite (Hyd _ i a0 Hi). cbn [existsb orb].
      unfold wanted, flagged. rewrite andb_true_r, negb_involutive. auto.
  Qed.
End Gemmi.
