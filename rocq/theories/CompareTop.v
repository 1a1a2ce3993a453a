(** Lemmas about [compare]: options, reading the inputs, results. *)
From Coq Require Import List ZArith Arith Bool Lia Lra Reals Permutation Sorting.Sorted String Ascii.
From Verif Require Import Num Base Outcome Condensed NNModel CalcModel CalcProofs SpecEmd EmdTop CompareModel SpecCompare
  CompareProofs CompareNear Props_Matrix.
Import ListNotations.
Open Scope string_scope.
Open Scope R_scope.
Open Scope list_scope.
Notation length := List.length.

Notation kw := (@kwargs R).
Notation val := (@pyval R).

(** The value of a keyword argument: the one given, or the default. *)
Definition opt (given : kw) (key : string) (default : val) : val :=
  match lookup key given with Some v => v | None => default end.

(** What the readers must be called with. *)
Definition cif_options (verbose : bool) (given : kw) : kw :=
  [("reader", opt given "reader" (VStr "gemmi")); ("remove_hydrogens", opt given "remove_hydrogens" (VBool false));
   ("disorder", opt given "disorder" (VStr "skip")); ("heaviest_component", opt given "heaviest_component" (VBool false));
   ("molecular_centres", opt given "molecular_centres" (VBool false)); ("show_warnings", opt given "show_warnings" (VBool true));
   ("verbose", VBool verbose)].
Definition csd_options (verbose : bool) (given : kw) : kw :=
  [("refcode_families", opt given "refcode_families" (VBool false)); ("remove_hydrogens", opt given "remove_hydrogens" (VBool false));
   ("disorder", opt given "disorder" (VStr "skip")); ("heaviest_component", opt given "heaviest_component" (VBool false));
   ("molecular_centres", opt given "molecular_centres" (VBool false)); ("show_warnings", opt given "show_warnings" (VBool true));
   ("verbose", VBool verbose)].
Definition nearest_options (given : kw) : kw :=
  [("algorithm", opt given "algorithm" (VStr "kd_tree")); ("leaf_size", opt given "leaf_size" (VInt 5));
   ("metric", opt given "metric" (VStr "chebyshev")); ("n_jobs", opt given "n_jobs" VNone)].

Definition elements (x : input (T := R)) : list (item (T := R)) := match x with One i => [i] | Many l => l end.

Section Reading.
  Context (P : Type) (ext : calls (T := R) P).

  (** [A] are the crystals of one argument of compare, in reading order. *)
  Definition reads (csd verbose : bool) (given : kw) (x : input (T := R)) (A : list (crystal (T := R))) : Prop :=
    if csd then exists codes, elements x = map IsStr codes /\ read_csd P ext codes (csd_options verbose given) = Done A
    else exists parts, Forall2 (fun it part => match it with
                                               | IsSet c => part = [c]
                                               | IsStr s => read_cif P ext s (cif_options verbose given) = Done part
                                               | IsOther => False
                                               end) (elements x) parts /\ A = List.concat parts.

  Lemma cif_kw : forall verbose given, lookup "verbose" given = None ->
    override (set_key "verbose" (VBool verbose) cif_defaults) given = cif_options verbose given.
  Proof.
    intros verbose given Hv. unfold cif_defaults, set_key, override, cif_options, opt. cbn [map fst snd String.eqb Ascii.eqb Bool.eqb].
    rewrite Hv. reflexivity.
  Qed.
  Lemma csd_kw : forall verbose given, lookup "verbose" given = None ->
    override (set_key "verbose" (VBool verbose) csd_defaults) given = csd_options verbose given.
  Proof.
    intros verbose given Hv. unfold csd_defaults, set_key, override, csd_options, opt. cbn [map fst snd String.eqb Ascii.eqb Bool.eqb].
    rewrite Hv. reflexivity.
  Qed.

  Lemma unwrap_psets : forall k l parts acc,
    Forall2 (fun it part => match it with
                            | IsSet c => part = [c]
                            | IsStr s => read_cif P ext s k = Done part
                            | IsOther => False
                            end) l parts ->
    ofold (fun ret x =>
             match x with
             | IsSet c => Done (ret ++ [c])
             | IsStr s => obind (read_cif P ext s k) (fun new => Done (ret ++ new))
             | IsOther => Raise ValueError
             end) l acc = Done (acc ++ List.concat parts).
  Proof.
    intros k l parts acc F. revert acc. induction F as [|it part l parts Hit F IH]; intros acc; simpl.
    - rewrite app_nil_r. auto.
    - destruct it as [c|s|]; [subst part| |tauto].
      + simpl. rewrite IH, <- app_assoc. auto.
      + rewrite Hit. simpl. rewrite IH, <- app_assoc. auto.
  Qed.

  Lemma unwrap_codes : forall k codes, unwrap_refcode_list P ext (map IsStr codes) k = read_csd P ext codes k.
  Proof.
    intros k codes. unfold unwrap_refcode_list.
    replace (forallb _ _) with true.
    - f_equal. induction codes; simpl; auto. f_equal. auto.
    - symmetry. apply forallb_forall. intros x Hx. apply in_map_iff in Hx as (s & <- & _). auto.
  Qed.

  Lemma reads_unwrap : forall csd verbose given x A, lookup "verbose" given = None -> reads csd verbose given x A ->
    A <> [] ->
    obind (if csd then unwrap_refcode_list P ext (as_list x) (override (set_key "verbose" (VBool verbose) csd_defaults) given)
           else unwrap_pset_list P ext (as_list x) (override (set_key "verbose" (VBool verbose) cif_defaults) given))
      nonempty = Done A.
  Proof.
    intros csd verbose given x A Hv HR Hne. rewrite cif_kw, csd_kw by auto.
    assert (Hn : nonempty A = Done A) by (destruct A; [tauto|auto]).
    unfold reads in HR. change (as_list x) with (elements x). destruct csd.
    - destruct HR as (codes & -> & E). rewrite unwrap_codes, E. exact Hn.
    - destruct HR as (parts & F & ->). unfold unwrap_pset_list. rewrite (unwrap_psets _ _ _ [] F). exact Hn.
  Qed.
End Reading.

(** * Upper case *)
Definition cases3 (a b c a' b' c' : ascii) : list string :=
  [String a (String b (String c "")); String a (String b (String c' "")); String a (String b' (String c ""));
   String a (String b' (String c' "")); String a' (String b (String c "")); String a' (String b (String c' ""));
   String a' (String b' (String c "")); String a' (String b' (String c' ""))].
Definition amd_words : list string := cases3 "A" "M" "D" "a" "m" "d".
Definition pdd_words : list string := cases3 "P" "D" "D" "p" "d" "d".

Lemma upper_letter : forall c, upper_ascii c = "A"%char <-> c = "A"%char \/ c = "a"%char.
Proof. intros [[] [] [] [] [] [] [] []]; vm_compute; split; intros E; try discriminate; auto; destruct E; discriminate. Qed.
Lemma upper_letter_M : forall c, upper_ascii c = "M"%char <-> c = "M"%char \/ c = "m"%char.
Proof. intros [[] [] [] [] [] [] [] []]; vm_compute; split; intros E; try discriminate; auto; destruct E; discriminate. Qed.
Lemma upper_letter_D : forall c, upper_ascii c = "D"%char <-> c = "D"%char \/ c = "d"%char.
Proof. intros [[] [] [] [] [] [] [] []]; vm_compute; split; intros E; try discriminate; auto; destruct E; discriminate. Qed.
Lemma upper_letter_P : forall c, upper_ascii c = "P"%char <-> c = "P"%char \/ c = "p"%char.
Proof. intros [[] [] [] [] [] [] [] []]; vm_compute; split; intros E; try discriminate; auto; destruct E; discriminate. Qed.

Lemma upper_amd : forall s, upper s = "AMD" <-> In s amd_words.
Proof.
  intros s. split.
  - destruct s as [|a [|b [|c [|d s]]]]; simpl; intros E; try discriminate.
    injection E as Ea Eb Ec. apply upper_letter in Ea. apply upper_letter_M in Eb. apply upper_letter_D in Ec.
    destruct Ea as [-> | ->], Eb as [-> | ->], Ec as [-> | ->]; simpl; tauto.
  - simpl. intros H. repeat destruct H as [<- | H]; auto. tauto.
Qed.

Lemma upper_pdd : forall s, upper s = "PDD" <-> In s pdd_words.
Proof.
  intros s. split.
  - destruct s as [|a [|b [|c [|d s]]]]; simpl; intros E; try discriminate.
    injection E as Ea Eb Ec. apply upper_letter_P in Ea. apply upper_letter_D in Eb. apply upper_letter_D in Ec.
    destruct Ea as [-> | ->], Eb as [-> | ->], Ec as [-> | ->]; simpl; tauto.
  - simpl. intros H. repeat destruct H as [<- | H]; auto. tauto.
Qed.
