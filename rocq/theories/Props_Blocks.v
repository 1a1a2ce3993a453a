(** C42, C47 and C48: what the converters of CIF blocks make of the atoms. *)
From Coq Require Import List ZArith Reals Arith Bool Ascii String Lia Lra Sorted.
From Verif Require Import Num Base Outcome LatticeProofs2 NNModel CalcModel CompareModel TextModel SpecText TextProofs Props_Text
  SitesModel SpecSites SitesProofs SitesExpand Props_Sites BlocksModel SpecBlocks BlocksProofs.
Import ListNotations.
Open Scope string_scope.
Open Scope R_scope.
Open Scope list_scope.
Notation length := List.length.

(** The result of a conversion of the atoms [kept] with operations [ops]: with all_sites every
    atom is expanded; otherwise those which are not within [tol] of an earlier one. *)
Definition reads (tol : R) (d : disorder_option) (cell : list (list R)) (ops : list operation) (kept : list atom)
  (cs : crystal_set (T := R)) : Prop :=
  exists sel frac origin which starts mult,
    StronglySorted lt sel /\
    (forall i, In i sel <-> (i < length kept)%nat /\
       (d = AllSites \/ forall j, (j < i)%nat ->
          ~ close_mod1 tol (at_coords (nth j kept no_atom)) (at_coords (nth i kept no_atom)))) /\
    converted 3 tol (negb (is_all_sites d)) cell
      (map (fun i => map frac_part (at_coords (nth i kept no_atom))) sel)
      (map (fun i => at_type (nth i kept no_atom)) sel) ops cs frac origin which starts mult.

Lemma and_iff_compat_l_dep : forall A B C : Prop, (A -> (B <-> C)) -> (A /\ B <-> A /\ C).
Proof. tauto. Qed.
Lemma filter_all : forall A (l : list A), filter (fun _ => true) l = l.
Proof. intros A l. induction l as [|a l IH]; auto. cbn. rewrite IH. auto. Qed.
Lemma seq_sorted : forall n m, StronglySorted lt (seq m n).
Proof.
  induction n as [|n IH]; intros m; constructor; auto. apply Forall_forall. intros x Hx. apply in_seq in Hx. lia.
Qed.
Lemma select_map : forall A B (f : A -> B) mask l, select mask (map f l) = map f (select mask l).
Proof.
  intros A B f mask. induction mask as [|b mask IH]; intros [|a l]; auto. cbn [map]. rewrite !select_cons, map_app, IH. destruct b; auto.
Qed.
Lemma close_mod : forall tol p q, length p = length q -> close_mod1 tol (map mod1 p) (map mod1 q) <-> close_mod1 tol p q.
Proof.
  intros tol p q HL. assert (S : forall p, same_mod1 (map mod1 p) p) by (intros; apply mod1_same).
  split; intros C.
  - apply (close_same_l _ _ _ _ (S p)). eapply close_same; [apply S| |exact C]. rewrite !map_length. auto.
  - apply (close_same_l _ _ _ _ (same_sym _ _ (S p))). eapply close_same; [apply same_sym, S| |exact C]. auto.
Qed.

Lemma convert_reads : forall tol d cell kept ops w, 0 <= tol < 1 -> kept <> [] -> Forall (fun a => length (at_coords a) = 3%nat) kept ->
  length cell = 3%nat -> ops <> [] -> Forall (operation_ok 3) ops ->
  exists cs w', convert mod1 tol d cell (map (fun a => map mod1 (at_coords a)) kept) (map at_type kept) (Done (ops, w)) = Done (cs, w') /\
    reads tol d cell ops kept cs.
Proof.
  intros tol d cell kept ops w Ht HK H3 HC HO Hops.
  set (sites := map (fun a => map mod1 (at_coords a)) kept).
  assert (HS : Forall (fun p => length p = 3%nat /\ in_unit p) sites).
  { apply Forall_forall. intros p Hp. apply in_map_iff in Hp as (a & <- & Ha). rewrite Forall_forall in H3. split.
    - rewrite map_length. auto.
    - apply mod1_same. }
  assert (LS : length sites = length kept) by apply map_length.
  set (mask := if is_all_sites d then repeat true (length kept) else unique_sites tol sites).
  assert (LM : length mask = length kept).
  { unfold mask. destruct (is_all_sites d); [apply repeat_length|rewrite unique_len; auto]. }
  set (sel := chosen mask).
  assert (Hsel : forall i, In i sel <-> (i < length kept)%nat /\
       (d = AllSites \/ forall j, (j < i)%nat -> ~ close_mod1 tol (at_coords (nth j kept no_atom)) (at_coords (nth i kept no_atom)))).
  { intros i. unfold sel. rewrite chosen_In, LM. apply and_iff_compat_l_dep. intros Hi. unfold mask. destruct (is_all_sites d) eqn:D.
    - rewrite nth_repeat_lt by auto. destruct d; try discriminate. tauto.
    - destruct (C45_unique_sites 3 tol sites (proj2 Ht) HS) as [_ U]. rewrite (U i) by lia.
      assert (E : forall j, (j <= i)%nat -> nth j sites [] = map mod1 (at_coords (nth j kept no_atom))).
      { intros j Hj. unfold sites. rewrite (nth_map' _ _ _ _ _ no_atom) by lia. auto. }
      assert (L : forall j, (j <= i)%nat -> length (at_coords (nth j kept no_atom)) = 3%nat).
      { intros j Hj. rewrite Forall_forall in H3. apply H3, nth_In. lia. }
      split.
      + intros Q. right. intros j Hj C. apply (Q j Hj). rewrite !E by lia. apply (proj2 (close_mod tol _ _ (eq_trans (L j ltac:(lia)) (eq_sym (L i ltac:(lia)))))). exact C.
      + intros [Q|Q] j Hj C; [subst d; discriminate|]. apply (Q j Hj). rewrite !E in C by lia. exact (proj1 (close_mod tol _ _ (eq_trans (L j ltac:(lia)) (eq_sym (L i ltac:(lia))))) C). }
  assert (ES : select mask sites = map (fun i => map mod1 (at_coords (nth i kept no_atom))) sel).
  { unfold sites. rewrite select_map, (select_chosen _ no_atom) by auto. rewrite map_map. auto. }
  assert (ET : select mask (map at_type kept) = map (fun i => at_type (nth i kept no_atom)) sel).
  { rewrite select_map, (select_chosen _ no_atom) by auto. rewrite map_map. auto. }
  set (asym := map (fun i => map mod1 (at_coords (nth i kept no_atom))) sel) in *.
  set (types := map (fun i => at_type (nth i kept no_atom)) sel) in *.
  assert (AN : asym <> []).
  { assert (I : In 0%nat sel).
    { apply Hsel. split; [destruct kept; [congruence|simpl; lia]|]. right. intros; lia. }
    unfold asym. destruct sel; [destruct I|discriminate]. }
  assert (A3 : Forall (fun p => length p = 3%nat) asym).
  { rewrite <- ES. apply Forall_forall. intros p Hp. unfold select in Hp. apply in_map_iff in Hp as ([m q] & E & Hq).
    apply filter_In in Hq as [Hq _]. apply in_combine_r in Hq. cbn in E. subst q. rewrite Forall_forall in HS. apply HS. auto. }
  destruct (C46_total 3 tol (negb (is_all_sites d)) cell asym types ops Ht Hops AN A3) as [[cs w3] F].
  { unfold asym, types. rewrite !map_length. auto. }
  destruct (C46_expansion 3 tol _ cell asym types ops cs w3 Ht HO Hops AN A3 HC F) as (frac & origin & which & starts & mult & CV).
  assert (X : exists w1, convert mod1 tol d cell sites (map at_type kept) (Done (ops, w)) = Done (cs, w1 ++ w ++ w3)).
  { unfold convert. unfold mask in *. destruct (is_all_sites d) eqn:D.
    - exists []. cbn [obind].
      assert (Q1 : sites = asym).
      { rewrite <- ES, <- LS. clear. induction sites as [|p t IH]; auto. cbn [length repeat]. rewrite select_cons. cbn. f_equal. apply IH. }
      assert (Q2 : map at_type kept = types).
      { rewrite <- ET. clear. induction kept as [|p t IH]; auto. cbn [length repeat map]. rewrite select_cons. cbn. f_equal. apply IH. }
      unfold vec in *. rewrite Q1, Q2. cbn [negb] in F |- *. rewrite F. auto.
    - eexists. cbn [obind]. unfold vec in *. rewrite ES, ET. cbn [negb] in F |- *. rewrite F. reflexivity. }
  destruct X as [w1 X]. exists cs, (w1 ++ w ++ w3). split; auto.
  exists sel, frac, origin, which, starts, mult. split; [apply chosen_sorted|]. split; auto.
Qed.

(** The six cell parameters: texts for gemmi and pymatgen, texts or numbers for ase. *)
Definition gemmi_cell_with (num : list ascii -> R -> Prop) (b : gemmi_block) (par : list R) : Prop :=
  Forall2 (fun t p => exists s, gb_find_value b t = Some s /\ num s p) cell_tags par.
Definition gemmi_cell := gemmi_cell_with denotes.
Definition ase_cell (b : ase_block (T := R)) (par : list R) : Prop :=
  Forall2 (fun t p => ase_number (ab_get b t) p) cell_tags par.
Definition pymatgen_cell (b : pymatgen_block (T := R)) (par : list R) : Prop :=
  Forall2 (fun t p => pymatgen_number (pb_get b t) p) cell_tags par.

Lemma gemmi_cell_read : forall (num : list ascii -> R -> Prop) b par, (forall s x, num s x -> str_to_float (T := R) s = Done (Fin x)) ->
  gemmi_cell_with num b par -> exists pars,
  omap (fun t => match gb_find_value b t with Some s => Done s | None => Raise ParseError end) cellpar_tags = Done pars /\
  omap (fun s => str2float (T := R) (Str s)) pars = Done (map Fin par).
Proof.
  intros num b par Hnum F. unfold gemmi_cell_with in F. change cell_tags with cellpar_tags in F. induction F as [|t p ts ps (s & E & D) F IH].
  - exists []. auto.
  - destruct IH as (pars & E1 & E2). exists (s :: pars). cbn [omap]. rewrite E, E1. split; auto.
    pose proof (Hnum s p D) as Q. cbn [map obind].
    change (str2float (Str s)) with (str_to_float (T := R) s). rewrite Q. cbn [obind]. unfold chars in *. rewrite E2. auto.
Qed.
Lemma sum_finite : forall par : list R, sum_is_nan (map Fin par) = false.
Proof.
  intros par. unfold sum_is_nan. assert (E : forall f : fval (T := R) -> bool, (forall x, f (Fin x) = false) -> existsb f (map Fin par) = false).
  { intros f Hf. induction par; auto. cbn. rewrite Hf. auto. }
  rewrite !E; auto.
Qed.
Lemma denotes_not_missing : forall s x, denotes s x -> missing_value (T := R) (Str s) = false.
Proof.
  intros s x (sg & n & Hn & _ & [->|(b & _ & ->)]).
  - pose proof (float_signed sg n Hn) as F. unfold missing_value. apply orb_false_iff. split; apply not_true_iff_false; intros E;
      apply text_eqb_eq in E; rewrite E in F; discriminate.
  - unfold missing_value. apply orb_false_iff. split; apply not_true_iff_false; intros E; apply text_eqb_eq in E;
      (assert (I : In "("%char ((write_sign sg ++ write_numeral n) ++ "("%char :: b ++ [")"%char])) by (apply in_or_app; right; left; auto));
      rewrite E in I; simpl in I; intuition discriminate.
Qed.
Lemma pymatgen_cell_read : forall b par, pymatgen_cell b par ->
  existsb (fun t => missing_value (pb_get b t)) cellpar_tags = false /\
  omap (fun t => str2float (pb_get b t)) cellpar_tags = Done (map Fin par).
Proof.
  intros b par F. split.
  - unfold pymatgen_cell in F. change cell_tags with cellpar_tags in F. induction F as [|t p ts ps (s & E & D) F IH]; auto. cbn [existsb]. rewrite IH, E, (denotes_not_missing s p D). auto.
  - apply (omap_Forall2 _ _ _ _ _ Fin _ _ F). intros t p. apply pymatgen_number_float.
Qed.
Lemma ase_cell_read : forall b par, ase_cell b par -> omap (fun t => str2float_str (ab_get b t)) cellpar_tags = Done (map Fin par).
Proof. intros b par F. apply (omap_Forall2 _ _ _ _ _ Fin _ _ F). intros t p. apply ase_number_float. Qed.

Lemma gemmi_three : forall num lib b atoms, gemmi_atoms_with num lib b atoms -> Forall (fun a => length (at_coords a) = 3%nat) atoms.
Proof.
  intros num lib b atoms (l & rows & _ & _ & _ & _ & _ & F). induction F as [|r a rs as' H1 F IH]; constructor; auto.
  destruct H1 as (x & y & z & la & x' & y' & z' & o & s & _ & _ & _ & _ & _ & _ & _ & I). rewrite (ia_coords _ _ _ _ _ I). auto.
Qed.
Lemma block_three : forall num occ get atoms, block_atoms num occ get atoms -> Forall (fun a => length (at_coords a) = 3%nat) atoms.
Proof.
  intros num occ get atoms (xs & ys & zs & ls & os & ss & _ & _ & _ & _ & _ & _ & _ & _ & _ & _ & _ & _ & HA).
  apply Forall_forall. intros a Ha. apply (In_nth _ _ no_atom) in Ha as (i & Hi & <-).
  pose proof (HA i Hi) as I. change {| at_coords := []; at_type := 0; at_disordered := false |} with no_atom in I.
  rewrite (ia_coords _ _ _ _ _ I). auto.
Qed.

Lemma gemmi_form : forall (num : list ascii -> R -> Prop) tol c2c lib b atoms par cell h d, (forall s x, num s x -> str_to_float (T := R) s = Done (Fin x)) ->
  gemmi_atoms_with num lib b atoms -> gemmi_cell_with num b par -> c2c (map Fin par) = Done cell ->
  gemmi_convert mod1 tol c2c lib b h d = read_atoms tol (existsb at_disordered atoms) h d cell atoms (gemmi_symmetry lib b).
Proof.
  intros num tol c2c lib b atoms par cell h d Hnum (l & rows & E1 & E2 & E3 & E4 & E5 & E6) HP HC.
  destruct (gemmi_cell_read num b par Hnum HP) as (pars & P1 & P2).
  apply (gemmi_reads tol c2c lib num Hnum l rows atoms E2 E3 E4 E5 E6 b pars (map Fin par)); auto. apply sum_finite.
Qed.
Lemma ase_form_with : forall (num : cifval (T := R) -> R -> Prop) tol c2c spg b atoms par cell h d,
  (forall v x, num v x -> str2float_str v = Done (Fin x)) ->
  block_atoms num ase_occupancy (ab_get b) atoms -> ase_cell b par -> c2c (map Fin par) = Done cell ->
  ase_convert mod1 tol c2c spg b h d = read_atoms tol (skipped h atoms) h d cell atoms (ase_symmetry spg b).
Proof.
  intros num tol c2c spg b atoms par cell h d Hnum HB HP HC. apply (ase_reads tol c2c num ase_occupancy spg b atoms (map Fin par)); auto.
  - apply ase_occupancy_value.
  - intros x. left. auto.
  - apply ase_cell_read. auto.
Qed.
Lemma ase_form : forall tol c2c spg b atoms par cell h d,
  ase_atoms b atoms -> ase_cell b par -> c2c (map Fin par) = Done cell ->
  ase_convert mod1 tol c2c spg b h d = read_atoms tol (skipped h atoms) h d cell atoms (ase_symmetry spg b).
Proof. intros tol c2c spg b atoms par cell h d. apply ase_form_with. apply ase_number_float. Qed.
Lemma pymatgen_form_with : forall (num : cifval (T := R) -> R -> Prop) tol c2c lib b atoms par cell h d,
  (forall v x, num v x -> str2float v = Done (Fin x)) ->
  block_atoms num num (pb_get b) atoms -> pymatgen_cell b par -> c2c (map Fin par) = Done cell ->
  pymatgen_convert mod1 tol c2c lib b h d = read_atoms tol (skipped h atoms) h d cell atoms (pymatgen_symmetry lib b).
Proof.
  intros num tol c2c lib b atoms par cell h d Hnum HB HP HC. destruct (pymatgen_cell_read b par HP).
  apply (pymatgen_reads tol c2c num num lib b atoms (map Fin par)); auto.
Qed.
Lemma pymatgen_form : forall tol c2c lib b atoms par cell h d,
  pymatgen_atoms b atoms -> pymatgen_cell b par -> c2c (map Fin par) = Done cell ->
  pymatgen_convert mod1 tol c2c lib b h d = read_atoms tol (skipped h atoms) h d cell atoms (pymatgen_symmetry lib b).
Proof. intros tol c2c lib b atoms par cell h d. apply pymatgen_form_with. apply pymatgen_number_float. Qed.

(** ** C47 *)

(** What the options do: [stops] says for which atoms disorder="skip" refuses the crystal. *)
Definition options_respected (tol : R) (stops : atom -> Prop) (h : bool) (d : disorder_option) (cell : list (list R))
  (ops : list operation) (atoms : list atom) (r : outcome (crystal_set (T := R) * list warning)) : Prop :=
  (d = Skip -> Exists stops atoms -> r = Raise ParseError) /\
  (filter (wanted h d) atoms = [] -> r = Raise ParseError) /\
  ((d = Skip -> ~ Exists stops atoms) -> filter (wanted h d) atoms <> [] ->
   exists cs w, r = Done (cs, w) /\ reads tol d cell ops (filter (wanted h d) atoms) cs).

Lemma read_atoms_options : forall tol (stop : bool) stops h d cell ops w atoms, 0 <= tol < 1 ->
  (stop = true <-> Exists stops atoms) -> Forall (fun a => length (at_coords a) = 3%nat) atoms ->
  length cell = 3%nat -> ops <> [] -> Forall (operation_ok 3) ops ->
  options_respected tol stops h d cell ops atoms (read_atoms tol stop h d cell atoms (Done (ops, w))).
Proof.
  intros tol stop stops h d cell ops w atoms Ht HS H3 HC HO Hops. unfold read_atoms. split; [|split].
  - intros -> X. apply HS in X. rewrite X. auto.
  - intros ->. destruct (match d with Skip => stop | _ => false end); auto.
  - intros HN HK.
    assert (E : (match d with Skip => stop | _ => false end) = false).
    { destruct d; auto. apply not_true_iff_false. intros Q. apply (HN eq_refl), HS. auto. }
    rewrite E. cbv zeta. destruct (convert_reads tol d cell (filter (wanted h d) atoms) ops w) as (cs & w' & F1 & F2); auto.
    { apply Forall_forall. intros a Ha. apply filter_In in Ha as [Ha _]. rewrite Forall_forall in H3. auto. }
    exists cs, w'. split; auto. destruct (filter (wanted h d) atoms); [congruence|]. exact F1.
Qed.

(** gemmi refuses a crystal if any atom is disordered, *)
Theorem C47_gemmi : forall tol c2c lib b atoms par cell ops w h d, 0 <= tol < 1 ->
  gemmi_atoms lib b atoms -> gemmi_cell b par -> c2c (map Fin par) = Done cell -> length cell = 3%nat ->
  gemmi_symmetry lib b = Done (ops, w) -> ops <> [] -> Forall (operation_ok 3) ops ->
  options_respected tol (fun a => at_disordered a = true) h d cell ops atoms (gemmi_convert mod1 tol c2c lib b h d).
Proof.
  intros tol c2c lib b atoms par cell ops w h d Ht HB HP HC H3 HY HO Hops.
  rewrite (gemmi_form denotes tol c2c lib b atoms par cell h d denotes_float HB HP HC), HY.
  apply read_atoms_options; auto.
  - rewrite existsb_exists, Exists_exists. reflexivity.
  - apply (gemmi_three _ _ _ _ HB).
Qed.
(** the others if any atom except removed hydrogens is. *)
Definition stopping (h : bool) (a : atom) : Prop := at_disordered a = true /\ ~ (h = true /\ at_type a = 1%nat).
Lemma skipped_stopping : forall h atoms, skipped h atoms = true <-> Exists (stopping h) atoms.
Proof.
  intros h atoms. unfold skipped. rewrite existsb_exists, Exists_exists. unfold stopping, flagged.
  split; intros (a & I & Q); exists a; split; auto.
  - apply andb_true_iff in Q as [Q1 Q2]. split; auto. intros [-> E]. rewrite E in Q2. discriminate.
  - destruct Q as [Q1 Q2]. rewrite Q1. cbn. apply negb_true_iff. apply not_true_iff_false. intros E. apply Q2.
    apply andb_true_iff in E as [E1 E2]. apply Nat.eqb_eq in E2. auto.
Qed.
Theorem C47_ase : forall tol c2c spg b atoms par cell ops w h d, 0 <= tol < 1 ->
  ase_atoms b atoms -> ase_cell b par -> c2c (map Fin par) = Done cell -> length cell = 3%nat ->
  ase_symmetry spg b = Done (ops, w) -> ops <> [] -> Forall (operation_ok 3) ops ->
  options_respected tol (stopping h) h d cell ops atoms (ase_convert mod1 tol c2c spg b h d).
Proof.
  intros tol c2c spg b atoms par cell ops w h d Ht HB HP HC H3 HY HO Hops.
  rewrite (ase_form tol c2c spg b atoms par cell h d HB HP HC), HY.
  apply read_atoms_options; auto.
  - apply skipped_stopping.
  - apply (block_three _ _ _ _ HB).
Qed.
Theorem C47_pymatgen : forall tol c2c lib b atoms par cell ops w h d, 0 <= tol < 1 ->
  pymatgen_atoms b atoms -> pymatgen_cell b par -> c2c (map Fin par) = Done cell -> length cell = 3%nat ->
  pymatgen_symmetry lib b = Done (ops, w) -> ops <> [] -> Forall (operation_ok 3) ops ->
  options_respected tol (stopping h) h d cell ops atoms (pymatgen_convert mod1 tol c2c lib b h d).
Proof.
  intros tol c2c lib b atoms par cell ops w h d Ht HB HP HC H3 HY HO Hops.
  rewrite (pymatgen_form tol c2c lib b atoms par cell h d HB HP HC), HY.
  apply read_atoms_options; auto.
  - apply skipped_stopping.
  - apply (block_three _ _ _ _ HB).
Qed.

(** Consequences for a crystal which is read: without hydrogens no type is 1, *)
Theorem C47_no_hydrogen : forall tol d cell ops atoms cs, reads tol d cell ops (filter (wanted true d) atoms) cs ->
  ~ In 1%nat (cs_types cs).
Proof.
  intros tol d cell ops atoms cs (sel & frac & origin & which & starts & mult & HS & HI & CV) H1.
  destruct (cv_types _ _ _ _ _ _ _ _ _ _ _ _ _ CV) as [L T]. apply (In_nth _ _ 0%nat) in H1 as (k & Hk & E). rewrite L in Hk.
  rewrite (T k Hk) in E. destruct (ex_range _ _ _ _ _ _ _ (cv_points _ _ _ _ _ _ _ _ _ _ _ _ _ CV) k Hk) as [R1 _].
  rewrite map_length in R1. rewrite (nth_map' _ _ _ _ _ 0%nat) in E by auto.
  assert (I : In (nth (nth k origin 0%nat) sel 0%nat) sel) by (apply nth_In; auto). apply HI in I as [I _].
  apply (nth_In _ no_atom) in I. apply filter_In in I as [_ W].
  assert (Q : forall a, wanted true d a = true -> at_type a <> 1%nat) by (intros a Wa Ea; unfold wanted in Wa; rewrite Ea in Wa; discriminate).
  exact (Q _ W E).
Qed.
(** with ordered_sites and skip every point comes from an ordered atom (the points of the motif
    are images of the atoms they come from), *)
Theorem C47_points : forall tol d cell ops kept cs, reads tol d cell ops kept cs ->
  Forall (fun a => length (at_coords a) = 3%nat) kept ->
  exists frac from, ps_motif (cs_set cs) = map (cartesian cell) frac /\ length from = length frac /\
    forall k, (k < length frac)%nat -> exists a g, In a kept /\ In g ops /\ nth_error from k = Some a /\
      same_mod1 (nth k frac []) (affine g (map frac_part (at_coords a))) /\ nth k (cs_types cs) 0%nat = at_type a.
Proof.
  intros tol d cell ops kept cs (sel & frac & origin & which & starts & mult & HS & HI & CV) H3.
  pose proof (cv_points _ _ _ _ _ _ _ _ _ _ _ _ _ CV) as EX.
  exists frac, (map (fun o => nth (nth o sel 0%nat) kept no_atom) origin).
  split; [apply (cv_motif _ _ _ _ _ _ _ _ _ _ _ _ _ CV)|]. split; [rewrite map_length; apply (ex_origin _ _ _ _ _ _ _ EX)|].
  intros k Hk. destruct (ex_range _ _ _ _ _ _ _ EX k Hk) as [R1 R2]. rewrite map_length in R1.
  pose proof (ex_image _ _ _ _ _ _ _ EX k Hk) as IM. rewrite (nth_map' _ _ _ _ _ 0%nat) in IM by auto.
  destruct (cv_types _ _ _ _ _ _ _ _ _ _ _ _ _ CV) as [_ T]. pose proof (T k Hk) as E. rewrite (nth_map' _ _ _ _ _ 0%nat) in E by auto.
  exists (nth (nth (nth k origin 0%nat) sel 0%nat) kept no_atom), (nth (nth k which 0%nat) ops ([], [])).
  assert (I : In (nth (nth k origin 0%nat) sel 0%nat) sel) by (apply nth_In; auto). apply HI in I as [I _].
  split; [apply nth_In; auto|]. split; [apply nth_In; auto|]. split; auto.
  rewrite (nth_error_nth' _ no_atom) by (rewrite map_length, (ex_origin _ _ _ _ _ _ _ EX); auto).
  rewrite (nth_map' _ _ _ _ _ 0%nat) by (rewrite (ex_origin _ _ _ _ _ _ _ EX); auto). auto.
Qed.
(** and with all_sites every image of every atom is represented in the motif by a point which
    comes from that atom. *)
Theorem C47_all_sites : forall tol cell ops kept cs, reads tol AllSites cell ops kept cs ->
  transitive_images tol (map (fun a => map frac_part (at_coords a)) kept) ops ->
  exists frac, ps_motif (cs_set cs) = map (cartesian cell) frac /\
    forall a g, In a kept -> In g ops -> exists k, (k < length frac)%nat /\
      close_mod1 tol (nth k frac []) (affine g (map frac_part (at_coords a))) /\ nth k (cs_types cs) 0%nat = at_type a.
Proof.
  intros tol cell ops kept cs (sel & frac & origin & which & starts & mult & HS & HI & CV) HT.
  assert (ES : sel = seq 0 (length kept)).
  { apply lt_sorted_ext.
    - auto.
    - apply seq_sorted.
    - intros i. rewrite HI, in_seq. intuition lia. }
  subst sel. assert (EA : map (fun i => map frac_part (at_coords (nth i kept no_atom))) (seq 0 (length kept)) = map (fun a => map frac_part (at_coords a)) kept).
  { apply map_seq_atoms. auto. }
  assert (ET : map (fun i => at_type (nth i kept no_atom)) (seq 0 (length kept)) = map at_type kept).
  { apply map_seq_atoms. auto. }
  rewrite EA, ET in CV. exists frac. split; [apply (cv_motif _ _ _ _ _ _ _ _ _ _ _ _ _ CV)|]. intros a g Ha Hg.
  apply (In_nth _ _ no_atom) in Ha as (i & Hi & <-). apply (In_nth _ _ ([], [])) in Hg as (w & Hw & <-).
  destruct (cv_represented _ _ _ _ _ _ _ _ _ _ _ _ _ CV HT i w) as (k & Hk & _ & O & C); [rewrite map_length; auto|auto|].
  specialize (O (or_introl eq_refl)). rewrite (nth_map' _ _ _ _ _ no_atom) in C by auto. exists k. split; auto. split; auto.
  destruct (cv_types _ _ _ _ _ _ _ _ _ _ _ _ _ CV) as [_ T]. rewrite (T k Hk), O. apply nth_map'. auto.
Qed.

(** ** C48 *)

(** Blocks with the same atoms, cell and operations are converted to the same result by all
    three, unless disorder="skip" meets a disordered hydrogen which is to be removed. *)
Theorem C48_same_result_partial : forall tol c2c glib gb spg ab plib pb atoms par cell symmetry h d,
  gemmi_atoms glib gb atoms -> ase_atoms ab atoms -> pymatgen_atoms pb atoms ->
  gemmi_cell gb par -> ase_cell ab par -> pymatgen_cell pb par -> c2c (map Fin par) = Done cell ->
  gemmi_symmetry glib gb = symmetry -> ase_symmetry spg ab = symmetry -> pymatgen_symmetry plib pb = symmetry ->
  (d = Skip -> h = true -> forall a, In a atoms -> at_type a = 1%nat -> at_disordered a = false) ->
  ase_convert mod1 tol c2c spg ab h d = gemmi_convert mod1 tol c2c glib gb h d /\
  pymatgen_convert mod1 tol c2c plib pb h d = gemmi_convert mod1 tol c2c glib gb h d.
Proof.
  intros tol c2c glib gb spg ab plib pb atoms par cell symmetry h d G A P GC AC PC HC GS AS PS Q.
  rewrite (gemmi_form denotes tol c2c glib gb atoms par cell h d denotes_float G GC HC), GS.
  rewrite (ase_form tol c2c spg ab atoms par cell h d A AC HC), AS.
  rewrite (pymatgen_form tol c2c plib pb atoms par cell h d P PC HC), PS.
  assert (E : d = Skip -> skipped h atoms = existsb at_disordered atoms).
  { intros D. unfold skipped, flagged. apply eq_iff_eq_true. rewrite !existsb_exists. split; intros (a & I & X); exists a; split; auto.
    - apply andb_true_iff in X. tauto.
    - rewrite X. cbn. apply negb_true_iff, not_true_iff_false. intros Y. apply andb_true_iff in Y as [-> Y].
      apply Nat.eqb_eq in Y. rewrite (Q D eq_refl a I Y) in X. discriminate. }
  unfold read_atoms. destruct d; auto. rewrite E by auto. auto.
Qed.

(** The types: those of hydrogen and deuterium are 1, and no others. *)
Theorem C47_hydrogen : forall sym n, type_of sym n -> (n = 1%nat <-> sym = text "H" \/ sym = text "D").
Proof.
  intros sym n [(i & k & Hk & <- & ->)|[[-> ->]|(-> & HD & Hk)]].
  - split.
    + intros E. injection E as ->. injection Hk as <-. auto.
    + intros [E|E]; f_equal; rewrite <- (string_of_list_ascii_of_string k), E in Hk; cbn in Hk;
        (assert (L : (i < length elements)%nat) by (apply nth_error_Some; rewrite Hk; discriminate); cbn in L;
         do 118 (destruct i as [|i]; [try discriminate; reflexivity|]); lia).
  - tauto.
  - split; [discriminate|]. intros [->| ->]; exfalso.
    + apply (Hk "H"); [left; auto|reflexivity].
    + apply HD. reflexivity.
Qed.

(** Operations given as texts are the same for all three. *)
Lemma operations_parsed : forall texts ops, Forall2 spells_operation texts ops ->
  omap (parse_sitesym (T := R)) texts = Done ops.
Proof.
  intros texts ops F. induction F as [|s g texts ops (s1 & s2 & s3 & t1 & t2 & t3 & -> & H1 & H2 & H3 & ->) F IH]; auto.
  cbn [omap]. rewrite (sitesym_parsed s1 s2 s3 t1 t2 t3) by auto. cbn [obind]. unfold chars in *. rewrite IH. reflexivity.
Qed.
Theorem C48_operations : forall texts ops, Forall2 spells_operation texts ops -> texts <> [] ->
  (forall lib b, first_given (gb_column b) (fun l => l = []) operation_tags texts -> gemmi_symmetry lib b = Done (ops, [])) /\
  (forall spg b, first_given (ab_get b) (fun v => v = Nothing) operation_tags (Items (map Str texts)) -> ase_symmetry spg b = Done (ops, [])) /\
  (forall lib b, first_given (pb_get b) (fun v => v = Nothing) operation_tags (Items (map Str texts)) -> pymatgen_symmetry lib b = Done (ops, [])).
Proof.
  intros texts ops F HN. pose proof (operations_parsed texts ops F) as P. split; [|split].
  - intros lib b (before & t & after & E & FB & G). unfold gemmi_symmetry.
    assert (Q : first_nonempty (gb_column b) symop_tags = Some texts).
    { change symop_tags with operation_tags. rewrite E. clear E. induction FB as [|u us H1 FB IH]; cbn [app first_nonempty].
      - rewrite G. destruct texts; [exfalso; apply HN; reflexivity|reflexivity].
      - rewrite H1. auto. }
    rewrite Q. unfold parse_sitesyms. unfold chars in *. rewrite P. auto.
  - intros spg b (before & t & after & E & FB & G). unfold ase_symmetry.
    assert (Q : get_any (ab_get b) symop_tags = Items (map Str texts)).
    { change symop_tags with operation_tags. rewrite E. clear E. induction FB as [|u us H1 FB IH]; cbn [app get_any].
      - rewrite G. auto.
      - rewrite H1. auto. }
    rewrite Q. cbn [sitesyms_of]. rewrite omap_map. unfold chars in *. match goal with |- context [omap ?f texts] => replace (omap f texts) with (Done ops) by (symmetry; exact P) end. auto.
  - intros lib b (before & t & after & E & FB & G). unfold pymatgen_symmetry.
    assert (Q : first_truthy (pb_get b) symop_tags = Items (map Str texts)).
    { change symop_tags with operation_tags. rewrite E. clear E. induction FB as [|u us H1 FB IH]; cbn [app first_truthy].
      - rewrite G. destruct texts; [exfalso; apply HN; reflexivity|reflexivity].
      - rewrite H1. auto. }
    rewrite Q. cbn [sitesyms_of]. rewrite omap_map. unfold chars in *. match goal with |- context [omap ?f texts] => replace (omap f texts) with (Done ops) by (symmetry; exact P) end. auto.
Qed.

(** *** Concrete blocks *)

(** A table of texts, one row for each site, and the text of the first cell length. *)
Definition site_tags : list (list ascii) := map text
  ["_atom_site_label"; "_atom_site_type_symbol"; "_atom_site_fract_x"; "_atom_site_fract_y"; "_atom_site_fract_z"; "_atom_site_occupancy"].
Definition cell_of (c : string) : list (list ascii * list ascii) :=
  combine cellpar_tags (map text [c; "1"; "1"; "90"; "90"; "90"]).
Definition row_text (j : nat) (r : list string) : list ascii := text (nth j r "").
Definition gemmi_of (c : string) (rows : list (list string)) : gemmi_block := {|
  gb_find_value t := dict_get t (cell_of c);
  gb_fract := Some {| lp_tags := site_tags; lp_values := List.concat (map (map text) rows) |};
  gb_cartn := None;
  gb_column t := if text_eqb t (text "_symmetry_equiv_pos_as_xyz") then [text "x,y,z"] else [] |}.
Definition column_of (c : string) (rows : list (list string)) (t : list ascii) : cifval (T := R) :=
  match dict_get t (cell_of c) with
  | Some s => Str s
  | None => match dict_get t (combine site_tags (map (fun j => map (fun r => Str (row_text j r)) rows) (seq 0 6))) with
            | Some l => Items l
            | None => if text_eqb t (text "_symmetry_equiv_pos_as_xyz") then Items [Str (text "x,y,z")] else Nothing
            end
  end.
Definition ase_of c rows : ase_block (T := R) := {| ab_get := column_of c rows |}.
Definition pymatgen_of c rows : pymatgen_block (T := R) := {| pb_get := column_of c rows |}.
Definition no_glib : gemmi_lib (T := R) := {| gl_as_string s := s; gl_as_int _ := Raise ValueError;
  gl_group_by_name _ := None; gl_group_by_number _ := Raise ValueError |}.
Definition no_spg (_ : cifval (T := R)) : outcome (list (op (T := R))) := Raise ValueError.
Definition no_plib : pymatgen_lib (T := R) := {| pl_space_groups _ := None; pl_group _ := None; pl_cod _ := None;
  pl_group_by_number _ := None; pl_int _ := 0%Z |}.
Definition unit_cell : list (list R) := [[1; 0; 0]; [0; 1; 0]; [0; 0; 1]].
Definition to_unit (_ : list (fval (T := R))) : outcome (list (vec R)) := Done unit_cell.
Definition identity : operation := (unit_cell, [0; 0; 0]).

Definition row_atom (num onum : list ascii -> R -> Prop) (r : list string) (a : atom) : Prop :=
  length r = 6%nat /\ exists x y z o, num (row_text 2 r) x /\ num (row_text 3 r) y /\ num (row_text 4 r) z /\ onum (row_text 5 r) o /\
    is_atom (row_text 0 r) (row_text 1 r) [x; y; z] o a.

Lemma site_tags_NoDup : NoDup site_tags.
Proof.
  unfold site_tags. cbn [map]. repeat constructor; cbn [In]; intros Q;
    repeat match goal with X : _ \/ _ |- _ => destruct X end; try contradiction; discriminate.
Qed.
Lemma table_gemmi : forall num c rows atoms, Forall2 (row_atom num num) rows atoms -> gemmi_atoms_with num no_glib (gemmi_of c rows) atoms.
Proof.
  intros num c rows atoms F. exists {| lp_tags := site_tags; lp_values := List.concat (map (map text) rows) |}, (map (map text) rows).
  split; auto. split; [apply site_tags_NoDup|]. split; auto. split; [|split].
  - cbn [lp_tags]. apply Forall_forall. intros t Ht. unfold site_tags. cbn [map In] in *. intuition (subst; auto 10).
  - cbn [lp_tags]. apply Forall_forall. intros t Ht. apply in_map_iff in Ht as (r & <- & Hr). rewrite map_length.
    clear - F Hr. induction F as [|r' a rs as' [L _] F IH]; [destruct Hr|]. destruct Hr as [<-|Hr]; auto.
  - induction F as [|r a rs as' [L (x & y & z & o & H1 & H2 & H3 & H4 & I)] F IH]; constructor; auto.
    unfold row_text in *. repeat (destruct r as [|? r]; try discriminate). cbn [nth] in *.
    eexists _, _, _, _, x, y, z, o, _. split; [|split; [|split; [|split; [|split; [|split; [|split]]]]]].
    + exists 2%nat, 3%nat, 4%nat. cbn [map nth]. auto 10.
    + exact H1.
    + exact H2.
    + exact H3.
    + left. exists 0%nat. split; auto.
    + left. exists 5%nat. split; auto.
    + left. exists 1%nat. split; auto.
    + exact I.
Qed.
Lemma table_block : forall (num onum : list ascii -> R -> Prop) (numv occv : cifval (T := R) -> R -> Prop) c rows atoms,
  (forall s x, num s x -> numv (Str s) x) -> (forall s x, onum s x -> occv (Str s) x) ->
  Forall2 (row_atom num onum) rows atoms -> block_atoms numv occv (column_of c rows) atoms.
Proof.
  intros num onum numv occv c rows atoms HN HO F.
  assert (X : exists ds : list (R * R * R * R), length ds = length atoms /\ length rows = length atoms /\
    forall i, (i < length atoms)%nat -> let '(x, y, z, o) := nth i ds (0, 0, 0, 0) in let r := nth i rows [] in
      num (row_text 2 r) x /\ num (row_text 3 r) y /\ num (row_text 4 r) z /\ onum (row_text 5 r) o /\
      is_atom (row_text 0 r) (row_text 1 r) [x; y; z] o (nth i atoms no_atom)).
  { induction F as [|r a rs as' [L (x & y & z & o & Q)] F (ds & L1 & L2 & IH)].
    - exists []. repeat (split; auto). simpl. lia.
    - exists ((x, y, z, o) :: ds). simpl length. split; [lia|]. split; [lia|]. intros [|i] Hi; cbn [nth]; auto. apply IH. lia. }
  destruct X as (ds & L1 & L2 & X).
  assert (C : forall t j (B : Type) (f : R * R * R * R -> list string -> B) (P : cifval (T := R) -> B -> Prop),
     dict_get t (cell_of c) = None -> dict_get t (combine site_tags (map (fun j => map (fun r => Str (T := R) (row_text j r)) rows) (seq 0 6))) =
       Some (map (fun r => Str (row_text j r)) rows) ->
     (forall i, (i < length atoms)%nat -> P (Str (row_text j (nth i rows []))) (f (nth i ds (0, 0, 0, 0)) (nth i rows []))) ->
     listed (column_of c rows t) P (map (fun dr => f (fst dr) (snd dr)) (combine ds rows))).
  { intros t j B f P E1 E2 HP. unfold listed, column_of. rewrite E1, E2. exists (map (fun r => Str (row_text j r)) rows). split; auto.
    rewrite <- L2 in HP. rewrite <- L2 in L1. clear - HP L1. revert ds L1 HP.
    induction rows as [|r rs IH]; intros [|d ds] L1 HP; try discriminate; constructor.
    - apply (HP 0%nat). simpl. lia.
    - apply IH; [simpl in L1; lia|]. intros i Hi. apply (HP (S i)). simpl. lia. }
  assert (G : forall t j, nth_error site_tags j = Some t -> dict_get t (cell_of c) = None /\
     dict_get t (combine site_tags (map (fun j => map (fun r => Str (T := R) (row_text j r)) rows) (seq 0 6))) =
       Some (map (fun r => Str (row_text j r)) rows)).
  { intros t j Hj. do 6 (destruct j as [|j]; [injection Hj as <-; split; reflexivity|]). destruct j; discriminate. }
  assert (LL : forall B (f : R * R * R * R -> list string -> B), length (map (fun dr => f (fst dr) (snd dr)) (combine ds rows)) = length atoms).
  { intros B f. rewrite map_length, combine_length. lia. }
  assert (NN : forall B (f : R * R * R * R -> list string -> B) b i, (i < length atoms)%nat ->
     nth i (map (fun dr => f (fst dr) (snd dr)) (combine ds rows)) b = f (nth i ds (0, 0, 0, 0)) (nth i rows [])).
  { intros B f b i Hi. rewrite (nth_map' _ _ _ _ _ ((0, 0, 0, 0), [])) by (rewrite combine_length; lia).
    rewrite combine_nth by lia. auto. }
  pose (fx := fun (d : R * R * R * R) (r : list string) => fst (fst (fst d))).
  pose (fy := fun (d : R * R * R * R) (r : list string) => snd (fst (fst d))).
  pose (fz := fun (d : R * R * R * R) (r : list string) => snd (fst d)).
  pose (fo := fun (d : R * R * R * R) (r : list string) => snd d).
  pose (fl := fun (d : R * R * R * R) (r : list string) => row_text 0 r).
  pose (fs := fun (d : R * R * R * R) (r : list string) => row_text 1 r).
  exists (map (fun dr => fx (fst dr) (snd dr)) (combine ds rows)), (map (fun dr => fy (fst dr) (snd dr)) (combine ds rows)),
    (map (fun dr => fz (fst dr) (snd dr)) (combine ds rows)), (map (fun dr => fl (fst dr) (snd dr)) (combine ds rows)),
    (map (fun dr => fo (fst dr) (snd dr)) (combine ds rows)), (map (fun dr => fs (fst dr) (snd dr)) (combine ds rows)).
  split; [|split; [|split; [|split; [|split; [|split]]]]].
  - destruct (G (text "_atom_site_fract_x") 2%nat eq_refl) as [G1 G2]. apply (C _ 2%nat _ fx); auto. intros i Hi. specialize (X i Hi). unfold fx.
    destruct (nth i ds (0, 0, 0, 0)) as [[[x y] z] o]. apply HN, X.
  - destruct (G (text "_atom_site_fract_y") 3%nat eq_refl) as [G1 G2]. apply (C _ 3%nat _ fy); auto. intros i Hi. specialize (X i Hi). unfold fy.
    destruct (nth i ds (0, 0, 0, 0)) as [[[x y] z] o]. apply HN, X.
  - destruct (G (text "_atom_site_fract_z") 4%nat eq_refl) as [G1 G2]. apply (C _ 4%nat _ fz); auto. intros i Hi. specialize (X i Hi). unfold fz.
    destruct (nth i ds (0, 0, 0, 0)) as [[[x y] z] o]. apply HN, X.
  - left. destruct (G (text "_atom_site_label") 0%nat eq_refl) as [G1 G2]. apply (C _ 0%nat _ fl); auto. intros i Hi. reflexivity.
  - left. destruct (G (text "_atom_site_occupancy") 5%nat eq_refl) as [G1 G2]. apply (C _ 5%nat _ fo); auto. intros i Hi. specialize (X i Hi). unfold fo.
    destruct (nth i ds (0, 0, 0, 0)) as [[[x y] z] o]. apply HO, X.
  - left. destruct (G (text "_atom_site_type_symbol") 1%nat eq_refl) as [G1 G2]. apply (C _ 1%nat _ fs); auto. intros i Hi. reflexivity.
  - repeat (split; [apply LL|]). intros i Hi. rewrite (NN _ fx), (NN _ fy), (NN _ fz), (NN _ fo), (NN _ fl), (NN _ fs) by auto. specialize (X i Hi).
    unfold fx, fy, fz, fo, fl, fs.
    change {| at_coords := []; at_type := 0; at_disordered := false |} with no_atom.
    destruct (nth i ds (0, 0, 0, 0)) as [[[x y] z] o]. apply X.
Qed.

Lemma table_symmetry : forall c rows, gemmi_symmetry no_glib (gemmi_of c rows) = Done ([identity], []) /\
  ase_symmetry no_spg (ase_of c rows) = Done ([identity], []) /\
  pymatgen_symmetry no_plib (pymatgen_of c rows) = Done ([identity], []).
Proof. intros c rows. split; [|split]; reflexivity. Qed.
Lemma identity_ok : Forall (operation_ok 3) [identity].
Proof. constructor; auto. split; auto. split; auto. repeat (constructor; auto). Qed.

(** Texts of some numbers. *)
Definition plainly (s : list ascii) (x : R) : Prop :=
  exists sg n, s = write_sign sg ++ write_numeral n /\ numeral_ok n /\ x = signed (negative_sign sg) (numeral_value n).
Lemma plainly_denotes : forall s x, plainly s x -> denotes s x.
Proof. intros s x (sg & n & E & Hn & V). exists sg, n. auto. Qed.
Lemma plainly_ase : forall s x, plainly s x -> ase_occupancy (Str s) x.
Proof. intros s x (sg & n & E & Hn & V). right. exists sg, n. subst s. auto. Qed.
Ltac spell w f := exists None, {| whole := w; fraction := f |}; split; [reflexivity|]; split;
  [split; [cbn [whole fraction frac_digits app]; repeat (constructor; [lia|]); constructor | discriminate] |
   cbn [negative_sign signed]; unfold numeral_value; cbn; lra].
Lemma plainly_0 : plainly (text "0") 0.
Proof. spell [0%nat] (@None (list nat)). Qed.
Lemma plainly_1 : plainly (text "1") 1.
Proof. spell [1%nat] (@None (list nat)). Qed.
Lemma plainly_half : plainly (text "0.5") (1 / 2).
Proof. spell [0%nat] (Some [5%nat]). Qed.
Lemma plainly_90 : plainly (text "90") 90.
Proof. spell [9%nat; 0%nat] (@None (list nat)). Qed.

Lemma table_cell : forall (num : list ascii -> R -> Prop) c x rows, (forall s x, plainly s x -> num s x) -> num (text c) x ->
  gemmi_cell_with num (gemmi_of c rows) [x; 1; 1; 90; 90; 90] /\
  (plainly (text c) x -> ase_cell (ase_of c rows) [x; 1; 1; 90; 90; 90] /\ pymatgen_cell (pymatgen_of c rows) [x; 1; 1; 90; 90; 90]).
Proof.
  intros num c x rows HN Hc. split; [|intros Hx; split].
  - unfold gemmi_cell_with, cell_tags. cbn [map]. repeat (constructor; [eexists; split; [reflexivity|];
      first [exact Hc | apply HN; first [apply plainly_1 | apply plainly_90]]|]). constructor.
  - unfold ase_cell, cell_tags. cbn [map]. repeat (constructor; [right; eexists; split; [reflexivity|];
      apply plainly_denotes; first [exact Hx | apply plainly_1 | apply plainly_90]|]). constructor.
  - unfold pymatgen_cell, cell_tags. cbn [map]. repeat (constructor; [eexists; split; [reflexivity|];
      apply plainly_denotes; first [exact Hx | apply plainly_1 | apply plainly_90]|]). constructor.
Qed.

(** A carbon atom, and a hydrogen atom with occupancy 1/2. *)
Definition carbon : list string := ["C1"; "C"; "0"; "0"; "0"; "1"].
Definition hydrogen : list string := ["H1"; "H"; "0.5"; "0.5"; "0.5"; "0.5"].
Definition carbon_atom := {| at_coords := [0; 0; 0]; at_type := 6; at_disordered := false |}.
Definition hydrogen_atom := {| at_coords := [1 / 2; 1 / 2; 1 / 2]; at_type := 1; at_disordered := true |}.
Lemma one_letter : forall C, capital C -> symbol_in [C] [C].
Proof.
  intros C HC. right. exists [], C, [], C. split; auto. split; [constructor|]. split; [left; exact HC|]. split; auto. split; [reflexivity|].
  right. auto.
Qed.
Lemma carbon_is : is_atom (text "C1") (text "C") [0; 0; 0] 1 carbon_atom.
Proof.
  split; auto.
  - exists (text "C"). split; [apply one_letter; unfold capital; cbn; lia|]. left. exists 5%nat, "C". auto.
  - cbn. split; [discriminate|]. intros [Q|(s & E)]; [lra|]. destruct s as [|? [|? [|? s]]]; discriminate.
Qed.
Lemma carbon_row : row_atom plainly plainly carbon carbon_atom.
Proof.
  split; auto. exists 0, 0, 0, 1. repeat (split; [first [apply plainly_0 | apply plainly_1]|]). exact carbon_is.
Qed.
Lemma hydrogen_row : row_atom plainly plainly hydrogen hydrogen_atom.
Proof.
  split; auto. exists (1 / 2), (1 / 2), (1 / 2), (1 / 2). repeat (split; [apply plainly_half|]). split; auto.
  - exists (text "H"). split; [apply one_letter; unfold capital; cbn; lia|]. left. exists 0%nat, "H". auto.
  - cbn. split; auto. intros _. left. lra.
Qed.
Lemma row_atom_mono : forall (num num' onum onum' : list ascii -> R -> Prop), (forall s x, num s x -> num' s x) -> (forall s x, onum s x -> onum' s x) ->
  forall r a, row_atom num onum r a -> row_atom num' onum' r a.
Proof. intros num num' onum onum' HN HO r a [L (x & y & z & o & H1 & H2 & H3 & H4 & I)]. split; auto. exists x, y, z, o. auto 10. Qed.

Lemma table_atoms : forall c rows atoms, Forall2 (row_atom plainly plainly) rows atoms ->
  gemmi_atoms no_glib (gemmi_of c rows) atoms /\ ase_atoms (ase_of c rows) atoms /\ pymatgen_atoms (pymatgen_of c rows) atoms.
Proof.
  intros c rows atoms F. split; [|split].
  - apply table_gemmi. induction F as [|r a rs as' H1 F IH]; constructor; auto. revert H1. apply row_atom_mono; apply plainly_denotes.
  - apply (table_block plainly plainly); auto.
    + intros s x Hs. right. exists s. split; auto. apply plainly_denotes; auto.
    + apply plainly_ase.
  - apply (table_block plainly plainly); auto; intros s x Hs; exists s; split; auto; apply plainly_denotes; auto.
Qed.

(** The conditions of the theorems of C47 and of [C48_same_result_partial] are met. *)
Example C47_case : gemmi_atoms no_glib (gemmi_of "1" [carbon; hydrogen]) [carbon_atom; hydrogen_atom] /\
  ase_atoms (ase_of "1" [carbon; hydrogen]) [carbon_atom; hydrogen_atom] /\
  pymatgen_atoms (pymatgen_of "1" [carbon; hydrogen]) [carbon_atom; hydrogen_atom] /\
  gemmi_cell (gemmi_of "1" [carbon; hydrogen]) [1; 1; 1; 90; 90; 90] /\
  ase_cell (ase_of "1" [carbon; hydrogen]) [1; 1; 1; 90; 90; 90] /\
  pymatgen_cell (pymatgen_of "1" [carbon; hydrogen]) [1; 1; 1; 90; 90; 90] /\
  gemmi_symmetry no_glib (gemmi_of "1" [carbon; hydrogen]) = Done ([identity], []) /\
  ase_symmetry no_spg (ase_of "1" [carbon; hydrogen]) = Done ([identity], []) /\
  pymatgen_symmetry no_plib (pymatgen_of "1" [carbon; hydrogen]) = Done ([identity], []) /\
  Forall (operation_ok 3) [identity] /\ transitive_images (1 / 1000) [[0; 0; 0]] [identity] /\
  filter (wanted true OrderedSites) [carbon_atom; hydrogen_atom] = [carbon_atom].
Proof.
  destruct (table_atoms "1" [carbon; hydrogen] [carbon_atom; hydrogen_atom]) as (A & B & C).
  { constructor; [apply carbon_row|]. constructor; [apply hydrogen_row|constructor]. }
  destruct (table_cell denotes "1" 1 [carbon; hydrogen] plainly_denotes (plainly_denotes _ _ plainly_1)) as [D E].
  destruct (E plainly_1) as [E1 E2]. destruct (table_symmetry "1" [carbon; hydrogen]) as (S1 & S2 & S3).
  repeat (split; [assumption|]). split; [apply identity_ok|]. split; [|reflexivity].
  intros p q r g h k Hp Hq Hr Hg Hh Hk. cbn in Hp, Hq, Hr, Hg, Hh, Hk.
  destruct Hp as [<-|[]], Hq as [<-|[]], Hr as [<-|[]], Hg as [<-|[]], Hh as [<-|[]], Hk as [<-|[]]. auto.
Qed.

(** Removing hydrogens and skipping disorder, gemmi refuses this crystal, the others read it. *)
Theorem C48_same_skip_refuted : exists tol c2c glib gb spg ab plib pb atoms par cell ops,
  0 <= tol < 1 /\ gemmi_atoms glib gb atoms /\ ase_atoms ab atoms /\ pymatgen_atoms pb atoms /\
  gemmi_cell gb par /\ ase_cell ab par /\ pymatgen_cell pb par /\ c2c (map Fin par) = Done cell /\
  gemmi_symmetry glib gb = Done (ops, []) /\ ase_symmetry spg ab = Done (ops, []) /\ pymatgen_symmetry plib pb = Done (ops, []) /\
  gemmi_convert mod1 tol c2c glib gb true Skip = Raise ParseError /\
  (exists r, ase_convert mod1 tol c2c spg ab true Skip = Done r) /\
  (exists r, pymatgen_convert mod1 tol c2c plib pb true Skip = Done r).
Proof.
  destruct C47_case as (A1 & A2 & A3 & B1 & B2 & B3 & S1 & S2 & S3 & O & _ & _).
  exists (1 / 1000), to_unit, no_glib, (gemmi_of "1" [carbon; hydrogen]), no_spg, (ase_of "1" [carbon; hydrogen]), no_plib,
    (pymatgen_of "1" [carbon; hydrogen]), [carbon_atom; hydrogen_atom], [1; 1; 1; 90; 90; 90], unit_cell, [identity].
  split; [lra|]. do 6 (split; [assumption|]). split; [reflexivity|]. do 3 (split; [assumption|]).
  assert (NS : ~ Exists (stopping true) [carbon_atom; hydrogen_atom]).
  { intros X. apply Exists_exists in X as (a & [<-|[<-|[]]] & Q1 & Q2); [discriminate|]. apply Q2. auto. }
  split; [|split].
  - destruct (C47_gemmi (1 / 1000) to_unit no_glib _ _ _ unit_cell [identity] [] true Skip ltac:(lra) A1 B1 eq_refl eq_refl S1 ltac:(discriminate) O) as [Q _].
    apply Q; auto.
  - destruct (C47_ase (1 / 1000) to_unit no_spg _ _ _ unit_cell [identity] [] true Skip ltac:(lra) A2 B2 eq_refl eq_refl S2 ltac:(discriminate) O) as (_ & _ & Q).
    destruct Q as (cs & w & Q & _); eauto. discriminate.
  - destruct (C47_pymatgen (1 / 1000) to_unit no_plib _ _ _ unit_cell [identity] [] true Skip ltac:(lra) A3 B3 eq_refl eq_refl S3 ltac:(discriminate) O) as (_ & _ & Q).
    destruct Q as (cs & w & Q & _); eauto. discriminate.
Qed.

(** ** C42 *)

Lemma missing_float : forall s x, denotes_or_zero s x -> str_to_float (T := R) s = Done (Fin x).
Proof.
  intros s x [D|[[-> | ->] ->]]; [apply denotes_float; auto| |]; reflexivity.
Qed.

(** pymatgen: a missing cell parameter raises ParseError. *)
Theorem C42_pymatgen_cell_partial : forall tol c2c lib b h d t, In t cell_tags ->
  (pb_get b t = Nothing \/ pb_get b t = Str (text "?") \/ pb_get b t = Str (text ".")) ->
  pymatgen_convert mod1 tol c2c lib b h d = Raise (A := crystal_set (T := R) * list warning) ParseError.
Proof.
  intros tol c2c lib b h d t Ht Q. unfold pymatgen_convert.
  assert (E : existsb (fun t => missing_value (pb_get b t)) cellpar_tags = true).
  { apply existsb_exists. exists t. split; auto. destruct Q as [-> |[-> | ->]]; reflexivity. }
  rewrite E. auto.
Qed.
(** gemmi: a cell parameter which is not given at all does as well. *)
Theorem C42_gemmi_cell_partial : forall tol c2c lib b h d t, In t cell_tags -> gb_find_value b t = None ->
  gemmi_convert mod1 tol c2c lib b h d = Raise (A := crystal_set (T := R) * list warning) ParseError.
Proof.
  intros tol c2c lib b h d t Ht Q. unfold gemmi_convert.
  assert (E : exists e, omap (fun t => match gb_find_value b t with Some s => Done s | None => Raise ParseError end) cellpar_tags = Raise e).
  { change cell_tags with cellpar_tags in Ht. revert Ht. generalize cellpar_tags. induction l as [|u l IH]; intros []; cbn [omap].
    - subst u. rewrite Q. exists ParseError. reflexivity.
    - destruct (IH H) as [e E]. rewrite E. destruct (gb_find_value b u); [exists e|exists ParseError]; reflexivity. }
  destruct E as [e ->]. auto.
Qed.

(** A carbon atom with the first coordinate or the occupancy missing. *)
Definition no_coordinate : list string := ["C1"; "C"; "?"; "0"; "0"; "1"].
Definition no_occupancy : list string := ["C1"; "C"; "0"; "0"; "0"; "?"].
Definition partial_atom := {| at_coords := [0; 0; 0]; at_type := 6; at_disordered := true |}.
Lemma question_zero : denotes_or_zero (text "?") 0.
Proof. right. auto. Qed.
Lemma plainly_or_zero : forall s x, plainly s x -> denotes_or_zero s x.
Proof. intros s x Hs. left. apply plainly_denotes. auto. Qed.
Lemma no_coordinate_row : row_atom denotes_or_zero plainly no_coordinate carbon_atom.
Proof.
  split; auto. exists 0, 0, 0, 1. split; [apply question_zero|]. do 2 (split; [apply plainly_or_zero, plainly_0|]). split; [apply plainly_1|].
  exact carbon_is.
Qed.
Lemma no_occupancy_row : row_atom denotes_or_zero denotes_or_zero no_occupancy partial_atom.
Proof.
  split; auto. exists 0, 0, 0, 0. do 3 (split; [apply plainly_or_zero, plainly_0|]). split; [apply question_zero|]. split; auto.
  - apply (ia_type _ _ _ _ _ carbon_is).
  - cbn. split; auto. intros _. left. lra.
Qed.
Lemma one_reads : forall (h : bool) d a, at_disordered a = false -> at_type a = 6%nat -> length (at_coords a) = 3%nat -> forall stop, stop = false ->
  exists r, read_atoms (1 / 1000) stop h d unit_cell [a] (Done ([identity], [])) = Done r.
Proof.
  intros h d a D T L stop ->.
  destruct (read_atoms_options (1 / 1000) false (fun _ => False) h d unit_cell [identity] [] [a]) as (_ & _ & Q).
  - lra.
  - split; [discriminate|]. intros X. apply Exists_exists in X as (? & _ & []).
  - constructor; auto.
  - auto.
  - discriminate.
  - apply identity_ok.
  - destruct Q as (cs & w & Q & _); eauto.
    + intros _ X. apply Exists_exists in X as (? & _ & []).
    + unfold wanted. cbn [filter]. rewrite D, T. rewrite andb_false_r. destruct d; discriminate.
Qed.

(** The only site has no first coordinate. It is not removed: every converter reads a crystal,
    with the point at coordinate 0. *)
Theorem C42_coordinate_refuted : exists tol c2c glib gb spg ab plib pb par cell,
  0 <= tol < 1 /\ gemmi_cell gb par /\ ase_cell ab par /\ pymatgen_cell pb par /\ c2c (map Fin par) = Done cell /\
  (exists l, gb_fract gb = Some l /\ dict_get (text "_atom_site_fract_x") (loop_dict l) = Some [text "?"]) /\
  ab_get ab (text "_atom_site_fract_x") = Items [Str (text "?")] /\
  pb_get pb (text "_atom_site_fract_x") = Items [Str (text "?")] /\
  forall h d, (exists r, gemmi_convert mod1 tol c2c glib gb h d = Done r) /\
              (exists r, ase_convert mod1 tol c2c spg ab h d = Done r) /\
              (exists r, pymatgen_convert mod1 tol c2c plib pb h d = Done r).
Proof.
  exists (1 / 1000), to_unit, no_glib, (gemmi_of "1" [no_coordinate]), no_spg, (ase_of "1" [no_coordinate]), no_plib,
    (pymatgen_of "1" [no_coordinate]), [1; 1; 1; 90; 90; 90], unit_cell.
  split; [lra|]. destruct (table_cell denotes "1" 1 [no_coordinate] plainly_denotes (plainly_denotes _ _ plainly_1)) as [D E].
  destruct (E plainly_1) as [E1 E2]. do 3 (split; [assumption|]). split; [reflexivity|].
  split; [eexists; split; reflexivity|]. split; [reflexivity|]. split; [reflexivity|].
  destruct (table_symmetry "1" [no_coordinate]) as (S1 & S2 & S3). intros h d.
  assert (SK : skipped h [carbon_atom] = false) by (unfold skipped; reflexivity).
  assert (F : Forall2 (row_atom denotes_or_zero plainly) [no_coordinate] [carbon_atom]) by (constructor; [apply no_coordinate_row|constructor]).
  split; [|split].
  - rewrite (gemmi_form denotes_or_zero (1 / 1000) to_unit no_glib _ [carbon_atom] [1; 1; 1; 90; 90; 90] unit_cell h d missing_float).
    + rewrite S1. apply one_reads; auto.
    + apply table_gemmi. constructor; [|constructor]. generalize no_coordinate_row. apply row_atom_mono; auto. apply plainly_or_zero.
    + apply table_cell; [apply plainly_or_zero|apply plainly_or_zero, plainly_1].
    + auto.
  - rewrite (ase_form_with (fun v x => exists s, v = Str s /\ denotes_or_zero s x) (1 / 1000) to_unit no_spg _ [carbon_atom] [1; 1; 1; 90; 90; 90] unit_cell h d).
    + rewrite S2. apply one_reads; auto.
    + intros v x (s & -> & Q). apply missing_float. auto.
    + apply (table_block denotes_or_zero plainly); auto; [eauto|]. apply plainly_ase.
    + auto.
    + auto.
  - rewrite (pymatgen_form_with (fun v x => exists s, v = Str s /\ denotes_or_zero s x) (1 / 1000) to_unit no_plib _ [carbon_atom] [1; 1; 1; 90; 90; 90] unit_cell h d).
    + rewrite S3. apply one_reads; auto.
    + intros v x (s & -> & Q). apply missing_float. auto.
    + apply (table_block denotes_or_zero plainly); auto; [eauto|]. intros s x Hs. exists s. split; auto. apply plainly_or_zero. auto.
    + auto.
    + auto.
Qed.
(** A missing cell parameter is 0 for gemmi. *)
Theorem C42_cell_refuted : exists tol c2c lib b t, 0 <= tol < 1 /\ In t cell_tags /\ gb_find_value b t = Some (text "?") /\
  forall h d, exists r, gemmi_convert mod1 tol c2c lib b h d = Done r.
Proof.
  exists (1 / 1000), to_unit, no_glib, (gemmi_of "?" [carbon]), (text "_cell_length_a"). split; [lra|]. split; [left; auto|].
  split; [reflexivity|]. intros h d. destruct (table_symmetry "?" [carbon]) as (S1 & _ & _).
  rewrite (gemmi_form denotes_or_zero (1 / 1000) to_unit no_glib _ [carbon_atom] [0; 1; 1; 90; 90; 90] unit_cell h d missing_float).
  - rewrite S1. apply one_reads; auto.
  - apply table_gemmi. constructor; [|constructor]. generalize carbon_row. apply row_atom_mono; apply plainly_or_zero.
  - apply table_cell; [apply plainly_or_zero|apply question_zero].
  - auto.
Qed.
(** A missing occupancy is 0 for gemmi and pymatgen: the site counts as disordered. *)
Theorem C42_occupancy_refuted : exists tol c2c glib gb plib pb par cell,
  0 <= tol < 1 /\ gemmi_cell gb par /\ pymatgen_cell pb par /\ c2c (map Fin par) = Done cell /\
  (exists l, gb_fract gb = Some l /\ dict_get (text "_atom_site_occupancy") (loop_dict l) = Some [text "?"]) /\
  pb_get pb (text "_atom_site_occupancy") = Items [Str (text "?")] /\
  forall h, gemmi_convert mod1 tol c2c glib gb h Skip = Raise ParseError /\ pymatgen_convert mod1 tol c2c plib pb h Skip = Raise ParseError.
Proof.
  exists (1 / 1000), to_unit, no_glib, (gemmi_of "1" [no_occupancy]), no_plib, (pymatgen_of "1" [no_occupancy]), [1; 1; 1; 90; 90; 90], unit_cell.
  split; [lra|]. destruct (table_cell denotes "1" 1 [no_occupancy] plainly_denotes (plainly_denotes _ _ plainly_1)) as [D E].
  destruct (E plainly_1) as [E1 E2]. do 2 (split; [assumption|]). split; [reflexivity|].
  split; [eexists; split; reflexivity|]. split; [reflexivity|]. intros h.
  assert (F : Forall2 (row_atom denotes_or_zero denotes_or_zero) [no_occupancy] [partial_atom]) by (constructor; [apply no_occupancy_row|constructor]).
  split.
  - rewrite (gemmi_form denotes_or_zero (1 / 1000) to_unit no_glib _ [partial_atom] [1; 1; 1; 90; 90; 90] unit_cell h Skip missing_float); auto.
    + apply table_gemmi. auto.
    + apply table_cell; [apply plainly_or_zero|apply plainly_or_zero, plainly_1].
  - rewrite (pymatgen_form_with (fun v x => exists s, v = Str s /\ denotes_or_zero s x) (1 / 1000) to_unit no_plib _ [partial_atom] [1; 1; 1; 90; 90; 90] unit_cell h Skip); auto.
    + unfold read_atoms, skipped, flagged. cbn. rewrite andb_false_r. reflexivity.
    + intros v x (s & -> & Q). apply missing_float. auto.
    + apply (table_block denotes_or_zero denotes_or_zero); eauto.
Qed.

Print Assumptions C42_pymatgen_cell_partial.
Print Assumptions C42_gemmi_cell_partial.
Print Assumptions C42_coordinate_refuted.
Print Assumptions C42_cell_refuted.
Print Assumptions C42_occupancy_refuted.
Print Assumptions C47_gemmi.
Print Assumptions C47_ase.
Print Assumptions C47_pymatgen.
Print Assumptions C47_no_hydrogen.
Print Assumptions C47_hydrogen.
Print Assumptions C47_points.
Print Assumptions C47_all_sites.
Print Assumptions C48_same_result_partial.
Print Assumptions C48_operations.
Print Assumptions C48_same_skip_refuted.
