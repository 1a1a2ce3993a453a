(** Outcome, termination and completeness of the loop of nearest_neighbors_minval. *)
From Coq Require Import List ZArith Arith Bool Lia Reals Lra Permutation Sorted.
From Verif Require Import Num Base Spec SpecGeom SpecData SpecMinval Outcome LatticeModel LatticeProofs CacheModel CacheProofs NNModel VecR NNProofs
  NNSpecProofs NNComplete CalcModel UtilsModel MinvalModel MinvalProofs.
Import ListNotations.
Open Scope R_scope.

(** ** Counting the entries below a bound *)
Definition below_count (v : R) (l : list R) : nat := length (filter (fun a => Rltb a v) l).
Lemma below_perm : forall v l l', Permutation l l' -> below_count v l = below_count v l'.
Proof. intros. apply filter_perm_length. auto. Qed.
Lemma below_app : forall v l l', below_count v (l ++ l') = (below_count v l + below_count v l')%nat.
Proof. intros. unfold below_count. rewrite filter_app, app_length. auto. Qed.
Lemma below_zero : forall v l, below_count v l = 0%nat <-> forall a, In a l -> v <= a.
Proof.
  intros v. induction l as [|a l IH]; [split; [intros _ ? []|auto]|]. unfold below_count in *. cbn [filter]. destruct (Rltb a v) eqn:E.
  - apply Rltb_true in E. cbn [length]. split; [discriminate|]. intros H. specialize (H a (or_introl eq_refl)). lra.
  - apply Rltb_false in E. rewrite IH. split; [intros H b [<-|Hb]; auto|intros H b Hb; apply H; right; auto].
Qed.
Lemma sorted_count : forall v l j, StronglySorted Rle l -> (j < length l)%nat -> (nth j l 0 < v <-> (j < below_count v l)%nat).
Proof.
  intros v. induction l as [|a l IH]; intros j HS Hj; [cbn in Hj; lia|]. apply StronglySorted_inv in HS as [HS HF]. rewrite Forall_forall in HF.
  unfold below_count in *. cbn [filter]. destruct (Rltb a v) eqn:E.
  - apply Rltb_true in E. cbn [length]. destruct j as [|j]; cbn [nth]; [split; auto; lia|]. rewrite IH by (auto; cbn in Hj; lia). lia.
  - apply Rltb_false in E. assert (Z : length (filter (fun a => Rltb a v) l) = 0%nat).
    { apply (below_zero v l). intros b Hb. specialize (HF b Hb). lra. }
    rewrite Z. split; [|lia]. destruct j as [|j]; cbn [nth]; [lra|]. intros H. assert (a <= nth j l 0) by (apply HF, nth_In; cbn in Hj; lia). lra.
Qed.

Section Loop.
  Variables (motif cell : list (list R)) (dims : nat) (v : R) (kdtree : list (list R) -> list (list R) -> list (list nat)).
  Hypothesis Hps : pset_ok dims motif cell.
  Hypothesis Hkd : kd_contract kdtree.
  Let P := pt dims motif cell.
  Let m := length motif.
  Let cloud_of := cloud_of motif cell dims.
  Let row_of := row_of motif cell dims.
  Let all_rows := all_rows motif cell dims.
  Let far := far motif cell dims.
  Let farthest := farthest motif cell dims.
  Let close := close cell dims.
  Let unchanged := unchanged motif cell dims v.
  Let final := final motif cell dims v kdtree.
  Let loop f n c L prev := minval_loop kdtree motif cell v f n c (cloud_of L) (all_rows L) (kdtree (cloud_of L) motif) prev.
  Let L0 := concat (layers dims 3).

  (** Number of points of the cloud closer to [p] than [x]. *)
  Definition closer (x : R) (L : list (list Z)) (p : list R) : nat := below_count x (map (fun a => dist p (pt dims motif cell a)) (idxs (length motif) L)).
  Lemma row_count : forall x L p j, (j < length L * m)%nat -> (nth j (row_of L p) 0 < x <-> (j < closer x L p)%nat).
  Proof.
    intros x L p j Hj. unfold closer. rewrite (below_perm x _ (row_of L p)) by apply sortR_perm. apply sorted_count; [apply sortR_sorted|]. unfold row_of. rewrite row_length. auto.
  Qed.
  Lemma closer_app : forall x L M p, closer x (L ++ M) p = (closer x L p + closer x M p)%nat.
  Proof. intros. unfold closer. rewrite idxs_app, map_app. apply below_app. Qed.
  Lemma closer_zero : forall x L p, closer x L p = 0%nat <-> forall a, In a (idxs m L) -> x <= dist p (P a).
  Proof.
    intros x L p. unfold closer. rewrite below_zero. split.
    - intros H a Ha. apply H. apply (in_map (fun a => dist p (P a))). auto.
    - intros H d Hd. apply in_map_iff in Hd as (a & <- & Ha). auto.
  Qed.
  Lemma row_antitone : forall L M p j, (j < length L * m)%nat -> nth j (row_of (L ++ M) p) 0 <= nth j (row_of L p) 0.
  Proof.
    intros L M p j Hj. apply Rnot_lt_le. intros H. set (x := nth j (row_of (L ++ M) p) 0) in *. apply row_count in H; auto.
    assert (H' : nth j (row_of (L ++ M) p) 0 < x); [|unfold x in H'; lra]. apply row_count; [rewrite app_length; lia|]. rewrite closer_app. lia.
  Qed.

  Lemma hd_row : forall L, length (hd [] (all_rows L)) = (length L * m)%nat.
  Proof.
    intros L. unfold all_rows, MinvalProofs.all_rows. destruct Hps as [_ Hne _ _ _]. unfold m. pose proof (row_length motif cell dims L) as RL. destruct motif as [|p t]; [congruence|]. cbn [map hd]. apply RL.
  Qed.
  Lemma column_iff : forall L k, first_column v (all_rows L) = Done k <->
    ((k < length L * m)%nat /\ (forall p, In p motif -> v <= nth k (row_of L p) 0) /\ forall j, (j < k)%nat -> exists p, In p motif /\ nth j (row_of L p) 0 < v).
  Proof.
    intros L k. rewrite first_column_done, hd_row. unfold all_rows, MinvalProofs.all_rows. split; intros (H1 & H2 & H3); split; auto; split.
    - intros p Hp. apply H2. apply (in_map (row_of L)). auto.
    - intros j Hj. destruct (H3 j Hj) as (r & Hr & Hlt). apply in_map_iff in Hr as (p & <- & Hp). eauto.
    - intros r Hr. apply in_map_iff in Hr as (p & <- & Hp). auto.
    - intros j Hj. destruct (H3 j Hj) as (p & Hp & Hlt). exists (row_of L p). split; auto. apply (in_map (row_of L)). auto.
  Qed.

  Lemma m_pos1 : (1 <= m)%nat.
  Proof. exact (m1 motif cell dims Hps). Qed.

  Lemma unchanged_column : forall prev L, unchanged prev L -> exists k, first_column v (all_rows L) = Done k /\ first_column v prev = Done k /\
    map (firstn (S k)) prev = map (firstn (S k)) (all_rows L).
  Proof.
    intros prev L (_ & k & EK & EQ). exists k. split; auto. split; auto. fold all_rows in EK, EQ. pose proof (proj1 (column_iff L k) EK) as (H1 & H2 & H3).
    apply first_column_done. split; [|split].
    - assert (X : length (firstn (S k) (hd [] prev)) = length (firstn (S k) (hd [] (all_rows L)))).
      { destruct prev as [|r prev], (all_rows L) as [|r' rs]; cbn [map] in EQ; try discriminate; auto. cbn [hd]. congruence. }
      rewrite !firstn_length, hd_row in X. lia.
    - intros r Hr. destruct (in_map_pair _ _ _ _ _ EQ r Hr) as (r' & Hr' & E). rewrite (firstn_nth _ r r' (S k) k 0 E) by lia.
      apply in_map_iff in Hr' as (p & <- & Hp). auto.
    - intros j Hj. destruct (H3 j Hj) as (p & Hp & Hlt). destruct (in_map_pair _ _ _ _ _ (eq_sym EQ) (row_of L p) (in_map _ _ _ Hp)) as (r' & Hr' & E).
      exists r'. split; auto. rewrite <- (firstn_nth _ _ _ (S k) j 0 E) by lia. auto.
  Qed.

  (** Lattice vectors kept before layer [n]. *)
  Record kept_ok (n : nat) (L : list (list Z)) : Prop := {
    ko_n : (3 <= n)%nat;
    ko_nodup : NoDup L;
    ko_layers : incl L (concat (layers dims n));
    ko_first : incl L0 L
  }.
  Lemma L0_head : In (repeat 0%Z dims) L0.
  Proof.
    unfold L0. apply (layers_concat_In motif cell dims Hps 2). split; [apply repeat_length|].
    assert (Z0 : zsq (repeat 0%Z dims) = 0%Z) by (generalize dims as e; induction e as [|e IH]; auto). rewrite Z0. lia.
  Qed.
  Lemma kept_ne : forall n L, kept_ok n L -> L <> [].
  Proof. intros n L [_ _ _ H] ->. destruct (H _ L0_head). Qed.
  Lemma kept_step : forall n L c d, kept_ok n L -> kept_ok (S n) (L ++ close c d (layer dims n)).
  Proof.
    intros n L c d [H1 H2 H3 H4]. assert (Hd : (1 <= dims)%nat) by (destruct Hps; auto). destruct (layer_spec dims n Hd) as (_ & ND & HI). split.
    - lia.
    - apply NoDup_app_intro; auto.
      + apply NoDup_filter. auto.
      + intros l Hl Hl'. apply filter_In in Hl' as [Hl' _]. apply HI in Hl' as (_ & _ & [E|Hlt]); [lia|]. apply H3 in Hl. destruct n as [|n]; [lia|].
        apply (layers_concat_In motif cell dims Hps) in Hl as [_ Hle]. nia.
    - rewrite layers_S, concat_app. cbn [concat]. rewrite app_nil_r. apply incl_app; [apply incl_appl; auto|]. apply incl_appr. intros l Hl. apply filter_In in Hl as []. auto.
    - apply incl_appl. auto.
  Qed.
  Lemma kept_len : forall n L l, kept_ok n L -> In l L -> length l = dims.
  Proof. intros n L l [H1 _ H _] Hl. apply H in Hl. destruct n as [|n]; [lia|]. apply (layers_concat_In motif cell dims Hps) in Hl as []. auto. Qed.

  Definition result (L : list (list Z)) (k : nat) := (map (fun r => firstn k (skipn 1 r)) (all_rows L), cloud_of L, kdtree (cloud_of L) motif).

  Lemma final_cases : forall n prev L, kept_ok n L -> (prev = all_rows L \/ unchanged prev L) ->
    (final prev L = Raise IndexError /\ exists p, In p motif /\ far L p < v) \/
    exists k, first_column v (all_rows L) = Done k /\ final prev L = Done (result L k).
  Proof.
    intros n prev L HK HP. unfold final, MinvalProofs.final, minval_result. destruct HP as [->|HU].
    - destruct (first_column_cases v (all_rows L)) as [(k & EK)|(EK & HN)].
      + right. exists k. split; auto. rewrite EK. reflexivity.
      + left. rewrite EK. split; auto. destruct (Forall_Exists_dec (fun p => v <= far L p) (fun p => Rle_dec v (far L p)) motif) as [HA|HE].
        * exfalso. rewrite Forall_forall in HA. destruct (reach_column motif cell dims v Hps L (kept_ne n L HK) HA) as (k & E). fold all_rows in E. congruence.
        * apply Exists_exists in HE as (p & Hp & H). exists p. split; auto. lra.
    - right. destruct (unchanged_column prev L HU) as (k & EK & EP & _). exists k. split; auto. rewrite EP. reflexivity.
  Qed.

  Theorem loop_outcome : forall fuel n c L prev, kept_ok n L ->
    loop fuel n c L prev = OutOfFuel \/
    (loop fuel n c L prev = Raise IndexError /\ exists n' L', kept_ok n' L' /\ exists p, In p motif /\ far L' p < v) \/
    exists n' L' k, kept_ok n' L' /\ first_column v (all_rows L') = Done k /\ loop fuel n c L prev = Done (result L' k).
  Proof.
    induction fuel as [|fuel IH]; intros n c L prev HK; [left; reflexivity|].
    destruct (farthest_exists motif cell dims Hps L) as (d & HD & _).
    destruct (loop_step motif cell dims v kdtree Hps Hkd fuel n c L prev d (kept_ne n L HK) HD) as [(HU & E)|[(_ & _ & E)|(_ & _ & E)]]; unfold loop at 1 2 3; unfold cloud_of, all_rows; rewrite E.
    - right. destruct (final_cases n prev L HK (or_intror HU)) as [[E' X]|(k & EK & E')]; fold final; rewrite E'; [left|right]; eauto 10.
    - right. destruct (final_cases n (all_rows L) L HK (or_introl eq_refl)) as [[E' X]|(k & EK & E')]; fold final all_rows; rewrite E'; [left|right]; eauto 10.
    - apply (IH (S n) c (L ++ close c d (layer dims n)) (all_rows L)). apply kept_step. auto.
  Qed.

  (** ** Termination *)
  Hypothesis Hns : nonsingular dims cell.
  Lemma late_layers : forall B, exists N, (3 <= N)%nat /\ forall n l, (N <= n)%nat -> In l (layer dims n) -> B < norm (latvec dims cell l).
  Proof.
    intros B. destruct Hps as [H1 _ _ H4 H5]. destruct (latvec_far dims cell H4 H5 Hns) as (C & HC & FAR).
    destruct (INR_exceeds (C * (B * B) + 1)) as (N & HN). exists (N + 4)%nat. split; [lia|]. intros n l Hn Hl.
    destruct (layer_spec dims n H1) as (_ & _ & HI). apply HI in Hl as (HL & _ & [E|Hlt]); [lia|]. specialize (FAR l HL). rewrite <- norm_sq in FAR. pose proof (norm_nonneg (latvec dims cell l)) as H0.
    apply Rnot_le_lt. intros HB. assert (HN1 : INR (N + 3) <= IZR (Z.of_nat n - 1)) by (rewrite INR_IZR_INZ; apply IZR_le; lia).
    assert (Z1 : IZR (Z.of_nat n - 1) * IZR (Z.of_nat n - 1) <= IZR (zsq l)) by (rewrite <- mult_IZR; apply IZR_le; lia).
    assert (INR N <= INR (N + 3)) by (apply le_INR; lia). assert (B2 : norm (latvec dims cell l) * norm (latvec dims cell l) <= B * B) by nra.
    assert (0 <= C * (B * B)) by (apply Rmult_le_pos; nra). assert (INR N >= 1) by lra. assert (IZR (Z.of_nat n - 1) >= 1) by lra.
    assert (C * (norm (latvec dims cell l) * norm (latvec dims cell l)) <= C * (B * B)) by (apply Rmult_le_compat_l; lra). nra.
  Qed.

  (** The greatest distance of motif points. *)
  Definition motif_diam (c : R) : Prop := 0 <= c /\ forall p q, In p motif -> In q motif -> dist p q <= c.
  Lemma motif_len : forall p, In p motif -> length p = dims.
  Proof. intros p Hp. destruct Hps as [_ _ H _ _]. rewrite Forall_forall in H. auto. Qed.
  Lemma pt_len : forall l i, (i < m)%nat -> length (P (l, i)) = dims.
  Proof.
    intros l i Hi. unfold P, pt. cbn [fst snd]. destruct Hps as [_ _ _ H4 H5]. rewrite vadd_length, latvec_length by auto. rewrite motif_len by (apply nth_In; auto). apply Nat.min_id.
  Qed.
  Lemma point_far : forall c p l i, motif_diam c -> In p motif -> (i < m)%nat -> norm (latvec dims cell l) - c <= dist p (P (l, i)).
  Proof.
    intros c p l i [_ HC] Hp Hi. assert (HQ : In (nth i motif []) motif) by (apply nth_In; auto). specialize (HC p _ Hp HQ).
    pose proof (dist_translate_lower p (nth i motif []) (latvec dims cell l)) as HT. destruct Hps as [_ _ _ H4 H5].
    rewrite !motif_len, latvec_length in HT by auto. specialize (HT eq_refl eq_refl). unfold P, pt. cbn [fst snd]. lra.
  Qed.

  Lemma short_ends : forall c L d l p, motif_diam c -> farthest L d -> L <> [] -> In p motif -> far L p < v -> norm (latvec dims cell l) - c <= d ->
    norm (latvec dims cell l) <= v + 2 * c.
  Proof.
    intros c L d l p HC [(q & Hq & E) _] HL Hp Hlt Hle. destruct (far_In motif cell dims Hps L q HL) as ([l' i] & Ha & E'). fold far in E, E'. change (MinvalProofs.far motif cell dims L q) with (far L q) in E'.
    pose proof (far_max motif cell dims L p (l', i) Ha) as HM. change (MinvalProofs.far motif cell dims L p) with (far L p) in HM. apply idxs_In in Ha as [_ Hi].
    pose proof (dist_triangle q p (P (l', i))) as HT. rewrite !motif_len, pt_len in HT by auto. specialize (HT eq_refl eq_refl). destruct HC as [_ HC]. specialize (HC q p Hq Hp). unfold P in *. lra.
  Qed.

  Lemma unchanged_later : forall L1 X Y d c, farthest L1 d -> motif_diam c -> L1 <> [] -> (forall p, In p motif -> v <= far L1 p) ->
    (forall l, In l X -> v + c < norm (latvec dims cell l)) -> (forall l, In l Y -> v + c < norm (latvec dims cell l) /\ d + c < norm (latvec dims cell l)) ->
    unchanged (all_rows (L1 ++ X)) ((L1 ++ X) ++ Y).
  Proof.
    intros L1 X Y d c [_ HD] HC HL HA HX HY.
    assert (FV : forall Z p, (forall l, In l Z -> v + c < norm (latvec dims cell l)) -> In p motif -> closer v Z p = 0%nat).
    { intros Z p HZ Hp. apply closer_zero. intros [l i] Ha. apply idxs_In in Ha as [Hl Hi]. specialize (HZ l Hl). pose proof (point_far c p l i HC Hp Hi). lra. }
    assert (SUB : incl L1 ((L1 ++ X) ++ Y)) by (apply incl_appl, incl_appl, incl_refl).
    split.
    - intros p Hp. apply Rle_trans with (far L1 p); [apply HA; auto|]. apply (far_mono motif cell dims Hps L1); auto.
    - destruct (reach_column motif cell dims v Hps L1 HL HA) as (k & EK). exists k. pose proof (proj1 (column_iff L1 k) EK) as (K1 & K2 & K3).
      assert (COL : forall Z, (forall p, In p motif -> closer v Z p = 0%nat) -> forall L, (exists X, L = L1 ++ X /\ forall p, In p motif -> closer v X p = 0%nat) -> first_column v (all_rows L) = Done k).
      { intros _ _ L (X' & -> & HX'). apply column_iff. rewrite app_length. split; [lia|]. split.
        - intros p Hp. apply Rnot_lt_le. intros H. apply row_count in H; [|rewrite app_length; lia]. rewrite closer_app, HX', Nat.add_0_r in H by auto. apply row_count in H; auto. specialize (K2 p Hp). lra.
        - intros j Hj. destruct (K3 j Hj) as (p & Hp & Hlt). exists p. split; auto. eapply Rle_lt_trans; [apply row_antitone; lia|auto]. }
      split.
      + apply (COL [] ltac:(intros; reflexivity)). exists (X ++ Y). rewrite app_assoc. split; auto. intros p Hp. rewrite closer_app, (FV X), (FV Y) by (auto; intros l Hl; apply HY; auto). auto.
      + unfold all_rows, MinvalProofs.all_rows. rewrite !map_map. apply map_ext_in. intros p Hp. unfold MinvalProofs.row_of. rewrite !(idxs_app _ (L1 ++ X) Y), map_app. symmetry.
        apply (kmin_drop (k := S k)).
        * rewrite map_length, idxs_length, app_length. fold m. lia.
        * intros a b Ha Hb. apply in_map_iff in Hb as ([l i] & <- & Hb). apply idxs_In in Hb as [Hl Hi]. destruct (HY l Hl) as [_ HY2]. pose proof (point_far c p l i HC Hp Hi) as HF.
          assert (a <= d); [|unfold P in HF; lra]. apply In_nth with (d := 0) in Ha as (j & Hj & <-). unfold kmin in *. rewrite firstn_length in Hj.
          assert (NF : nth j (firstn (S k) (sortR (map (fun a => dist p (pt dims motif cell a)) (idxs (length motif) (L1 ++ X))))) 0 = nth j (row_of (L1 ++ X) p) 0).
          { symmetry. apply (firstn_nth _ _ _ (S k)); [|lia]. rewrite firstn_firstn, Nat.min_id. reflexivity. }
          rewrite NF. eapply Rle_trans; [apply row_antitone; lia|]. eapply Rle_trans; [|apply HD; exact Hp]. apply sorted_le_last; [apply row_sorted|]. apply nth_In. rewrite row_length. fold m. lia.
  Qed.

  Definition stops (n : nat) (c : R) (L : list (list Z)) (prev : list (list R)) : Prop :=
    exists fuel0 r, r <> OutOfFuel /\ forall fuel, (fuel0 <= fuel)%nat -> loop fuel n c L prev = r.
  Lemma final_not_fuel : forall prev L, final prev L <> OutOfFuel.
  Proof.
    intros prev L. unfold final, MinvalProofs.final, minval_result. destruct (first_column_cases v prev) as [(k & ->)|[-> _]]; discriminate.
  Qed.
  Lemma stops_step : forall n c L prev d, kept_ok n L -> farthest L d ->
    unchanged prev L \/ close c d (layer dims n) = [] \/ stops (S n) c (L ++ close c d (layer dims n)) (all_rows L) -> stops n c L prev.
  Proof.
    intros n c L prev d HK HD H.
    assert (ST := fun fuel => loop_step motif cell dims v kdtree Hps Hkd fuel n c L prev d (kept_ne n L HK) HD).
    assert (DEC : forall fuel, loop (S fuel) n c L prev = final prev L /\ unchanged prev L \/ ~ unchanged prev L /\ close c d (layer dims n) = [] /\ loop (S fuel) n c L prev = final (all_rows L) L \/
        ~ unchanged prev L /\ close c d (layer dims n) <> [] /\ loop (S fuel) n c L prev = loop fuel (S n) c (L ++ close c d (layer dims n)) (all_rows L)).
    { intros fuel. destruct (ST fuel) as [(A & B)|[(A & B & C)|(A & B & C)]]; [left|right; left|right; right]; auto. }
    assert (E1 : unchanged prev L -> stops n c L prev).
    { intros HU. exists 1%nat, (final prev L). split; [apply final_not_fuel|]. intros [|fuel] Hf; [lia|]. destruct (DEC fuel) as [(A & B)|[(A & B & C)|(A & B & C)]]; auto; contradiction. }
    assert (E2 : ~ unchanged prev L -> close c d (layer dims n) = [] -> stops n c L prev).
    { intros HU HC. exists 1%nat, (final (all_rows L) L). split; [apply final_not_fuel|]. intros [|fuel] Hf; [lia|]. destruct (DEC fuel) as [(A & B)|[(A & B & C)|(A & B & C)]]; auto; contradiction. }
    destruct (DEC 0%nat) as [(A & B)|[(A & B & _)|(A & B & _)]]; auto. destruct H as [H|[H|(f0 & r & Hr & H)]]; auto.
    exists (S f0), r. split; auto. intros [|fuel] Hf; [lia|]. destruct (DEC fuel) as [(A' & B')|[(A' & B' & C)|(A' & B' & C)]]; try contradiction. rewrite C. apply H. lia.
  Qed.

  (** All later states are the present one extended by far away vectors. *)
  Lemma stops_late : forall c L1 d N1 N2, motif_diam c -> farthest L1 d -> L1 <> [] -> (forall p, In p motif -> v <= far L1 p) ->
    (forall n l, (N1 <= n)%nat -> In l (layer dims n) -> v + c < norm (latvec dims cell l)) ->
    (forall n l, (N2 <= n)%nat -> In l (layer dims n) -> d + c < norm (latvec dims cell l)) ->
    forall gap n X prev, (N2 - n <= gap)%nat -> (N1 <= n)%nat -> kept_ok n (L1 ++ X) -> (forall l, In l X -> v + c < norm (latvec dims cell l)) ->
    stops n c (L1 ++ X) prev.
  Proof.
    intros c L1 d N1 N2 HC HD HL HA H1 H2.
    assert (LATE : forall n X prev, (N2 <= n)%nat -> (N1 <= n)%nat -> kept_ok n (L1 ++ X) -> (forall l, In l X -> v + c < norm (latvec dims cell l)) -> stops n c (L1 ++ X) prev).
    { intros n X prev Hn Hn1 HK HX. destruct (farthest_exists motif cell dims Hps (L1 ++ X)) as (d' & HD' & _). apply (stops_step n c _ prev d' HK HD'). right. right.
      destruct (farthest_exists motif cell dims Hps ((L1 ++ X) ++ close c d' (layer dims n))) as (d2 & HD2 & _). apply (stops_step (S n) c _ _ d2); auto using kept_step. left.
      apply (unchanged_later L1 X _ d c); auto. intros l Hl. apply filter_In in Hl as [Hl _]. split; [apply (H1 n)|apply (H2 n)]; auto. }
    induction gap as [|gap IH]; intros n X prev Hg Hn HK HX; [apply LATE; auto; lia|].
    destruct (farthest_exists motif cell dims Hps (L1 ++ X)) as (d' & HD' & _). apply (stops_step n c _ prev d' HK HD'). right. right. rewrite <- app_assoc. apply IH; [lia|lia| |].
    - rewrite app_assoc. apply kept_step. auto.
    - intros l Hl. apply in_app_iff in Hl as [Hl|Hl]; auto. apply filter_In in Hl as [Hl _]. apply (H1 n); auto.
  Qed.

  Theorem loop_terminates : forall c n L prev, motif_diam c -> kept_ok n L -> stops n c L prev.
  Proof.
    intros c n L prev HC HK. destruct (late_layers (v + 2 * c)) as (N1 & HN1 & H1).
    assert (LATE : forall n L prev, (N1 <= n)%nat -> kept_ok n L -> stops n c L prev).
    { clear n L prev HK. intros n L prev Hn HK. destruct (farthest_exists motif cell dims Hps L) as (d & HD & _).
      destruct (Forall_Exists_dec (fun p => v <= far L p) (fun p => Rle_dec v (far L p)) motif) as [HA|HE].
      - rewrite Forall_forall in HA. destruct (late_layers (d + c)) as (N2 & _ & H2). rewrite <- (app_nil_r L). apply (stops_late c L d N1 N2 HC HD (kept_ne n L HK) HA) with (gap := (N2 - n)%nat); auto.
        + intros n' l Hn' Hl. specialize (H1 n' l Hn' Hl). destruct HC. lra.
        + rewrite app_nil_r. auto.
        + intros l [].
      - apply Exists_exists in HE as (p & Hp & Hlt). apply Rnot_le_lt in Hlt. apply (stops_step n c L prev d HK HD). right. left. unfold close, MinvalProofs.close. apply filter_nil.
        intros l Hl. apply Rleb_false. apply Rnot_le_lt. intros Hle. pose proof (short_ends c L d l p HC HD (kept_ne n L HK) Hp Hlt Hle). specialize (H1 n l Hn Hl). lra. }
    assert (IND : forall gap n L prev, (N1 - n <= gap)%nat -> kept_ok n L -> stops n c L prev).
    { induction gap as [|gap IH]; intros n' L' prev' Hg HK'; [apply LATE; auto; lia|].
      destruct (farthest_exists motif cell dims Hps L') as (d & HD & _). apply (stops_step n' c L' prev' d HK' HD). right. right. apply IH; [lia|]. apply kept_step. auto. }
    apply (IND (N1 - n)%nat); auto.
  Qed.
End Loop.

(** ** Completeness *)
Section Complete.
  Variables (motif cell : list (list R)) (dims : nat) (v : R) (kdtree : list (list R) -> list (list R) -> list (list nat)).
  Hypothesis Hps : pset_ok dims motif cell.
  Hypothesis Hkd : kd_contract kdtree.
  Hypothesis Hdims4 : (dims <= 4)%nat.
  Hypothesis Hin : spread dims cell motif.
  Hypothesis Hv : 0 < v.
  Let P := pt dims motif cell.
  Let m := length motif.

  Lemma beyond_layer : forall n p i, (2 <= n)%nat -> In p motif -> (i < m)%nat ->
    (forall l, In l (layer dims n) -> v <= dist p (P (l, i))) ->
    forall l, length l = dims -> ((Z.of_nat n - 1) * (Z.of_nat n - 1) < zsq l)%Z -> v <= dist p (P (l, i)).
  Proof.
    intros n p i Hn Hp Hi HB. assert (Hd : (1 <= dims)%nat) by (destruct Hps; auto).
    assert (Hind : forall c l, (Z.to_nat (zsq l) < c)%nat -> length l = dims ->
       ((Z.of_nat n - 1) * (Z.of_nat n - 1) < zsq l)%Z -> v <= dist p (P (l, i))).
    { induction c as [|c IH]; intros l Hc Hl Hz; [lia|].
      destruct (Z_le_gt_dec (zsq l) (Z.of_nat n * Z.of_nat n)) as [Hle|Hgt].
      - apply HB. destruct (layer_spec dims n Hd) as (_ & _ & Hin'). apply Hin'. unfold in_shell. auto.
      - destruct (step_closer motif cell dims Hps Hdims4 Hin p l i Hp Hi Hl ltac:(nia)) as (j & s & Hj & Hs & Hsl & Hle).
        apply Rle_trans with (dist p (P (upd l j (nth j l 0 - s)%Z, i))); [|rewrite <- !sqrt_sqd; apply sqrt_le_1_alt; exact Hle].
        assert (Ez : zsq (upd l j (nth j l 0 - s)%Z) = (zsq l - 2 * (s * nth j l 0) + 1)%Z).
        { replace (nth j l 0 - s)%Z with (nth j l 0 + - s)%Z by lia. rewrite zsq_upd by lia.
          destruct Hs as [-> | ->]; lia. }
        pose proof (zsq_nonneg l). pose proof (zsq_ge l j) as Hg.
        assert (Hg' : ((s * nth j l 0) * (s * nth j l 0) <= zsq l)%Z) by (destruct Hs as [-> | ->]; lia).
        apply IH.
        + rewrite Ez. lia.
        + rewrite upd_len. auto.
        + rewrite Ez. set (a := (s * nth j l 0)%Z) in *. nia. }
    intros l Hl Hz. apply (Hind (S (Z.to_nat (zsq l))) l); auto.
  Qed.

  Definition covered (n : nat) (L : list (list Z)) : Prop :=
    forall l, In l (concat (layers dims n)) -> ~ In l L -> forall p i, In p motif -> (i < m)%nat -> v <= dist p (P (l, i)).
  Definition previous (n : nat) (L : list (list Z)) (prev : list (list R)) : Prop :=
    (forall r, In r prev -> forall j, nth j r 0 = 0) \/
    exists n' Lp c d, n = S n' /\ kept_ok dims n' Lp /\ prev = all_rows motif cell dims Lp /\ L = Lp ++ close cell dims c d (layer dims n').
  Definition everything (L : list (list Z)) : Prop :=
    forall l, length l = dims -> ~ In l L -> forall p i, In p motif -> (i < m)%nat -> v <= dist p (P (l, i)).

  Lemma everything_intro : forall n L, (3 <= n)%nat -> covered n L ->
    (forall l p i, In l (layer dims n) -> In p motif -> (i < m)%nat -> v <= dist p (P (l, i))) -> everything L.
  Proof.
    intros n L Hn HC HN l Hl HL p i Hp Hi. destruct (Z_le_gt_dec (zsq l) ((Z.of_nat n - 1) * (Z.of_nat n - 1))) as [Hle|Hgt].
    - apply HC; auto. destruct n as [|n]; [lia|]. apply (layers_concat_In motif cell dims Hps). split; auto. nia.
    - apply (beyond_layer n); auto; [lia|lia].
  Qed.

  Lemma unchanged_no_new : forall n' Lp c d, kept_ok dims n' Lp -> unchanged motif cell dims v (all_rows motif cell dims Lp) (Lp ++ close cell dims c d (layer dims n')) ->
    forall l p i, In l (close cell dims c d (layer dims n')) -> In p motif -> (i < m)%nat -> v <= dist p (P (l, i)).
  Proof.
    intros n' Lp c d HK HU l p i Hl Hp Hi. set (cl := close cell dims c d (layer dims n')) in *.
    destruct (unchanged_column motif cell dims v kdtree Hps _ _ HU) as (k & E1 & E2 & EQ).
    apply (column_iff motif cell dims v kdtree Hps) in E1 as (A1 & A2 & A3). apply (column_iff motif cell dims v kdtree Hps) in E2 as (B1 & B2 & B3). fold m in A1, B1.
    assert (EP : forall j, (j <= k)%nat -> nth j (row_of motif cell dims Lp p) 0 = nth j (row_of motif cell dims (Lp ++ cl) p) 0).
    { intros j Hj. apply (firstn_nth _ _ _ (S k)); [|lia]. unfold all_rows in EQ. rewrite !map_map in EQ. pose proof (proj1 (@map_ext_in_iff _ _ _ _ _) EQ p Hp) as E. exact E. }
    assert (Z : closer motif cell dims v cl p = 0%nat).
    { assert (C1 : (closer motif cell dims v (Lp ++ cl) p <= k)%nat).
      { apply Nat.nlt_ge. intros H. apply (row_count motif cell dims) in H; auto. specialize (A2 p Hp). lra. }
      assert (C2 : forall j, (j <= k)%nat -> (j < closer motif cell dims v Lp p <-> j < closer motif cell dims v (Lp ++ cl) p)%nat).
      { intros j Hj. rewrite <- !(row_count motif cell dims) by (fold m; lia). rewrite EP by auto. tauto. }
      rewrite closer_app in *. destruct (closer motif cell dims v cl p) as [|z]; auto. exfalso. set (a := closer motif cell dims v Lp p) in *.
      specialize (C2 a). lia. }
    apply (proj1 (closer_zero motif cell dims v cl p) Z). apply idxs_In. auto.
  Qed.

  Theorem loop_complete : forall fuel n c L prev r, motif_diam motif c -> kept_ok dims n L -> covered n L -> (exists p, In p motif /\ v <= far motif cell dims L p) -> previous n L prev ->
    minval_loop kdtree motif cell v fuel n c (cloud_of motif cell dims L) (all_rows motif cell dims L) (kdtree (cloud_of motif cell dims L) motif) prev = Done r ->
    exists n' L' k, kept_ok dims n' L' /\ first_column v (all_rows motif cell dims L') = Done k /\ r = result motif cell dims kdtree L' k /\ everything L'.
  Proof.
    induction fuel as [|fuel IH]; intros n c L prev r HM HK HC HD HP E; [discriminate|].
    destruct (farthest_exists motif cell dims Hps L) as (d & HF & _). assert (Hd : v <= d) by (destruct HD as (p & Hp & Hd), HF as [_ HF]; specialize (HF p Hp); lra).
    assert (NC : forall l p i, In l (layer dims n) -> ~ In l (close cell dims c d (layer dims n)) -> In p motif -> (i < m)%nat -> v <= dist p (P (l, i))).
    { intros l p i Hl Hn Hp Hi. pose proof (point_far motif cell dims Hps c p l i HM Hp Hi) as HF'. fold P in HF'. destruct (Rleb (norm (latvec dims cell l) - c) d) eqn:EB.
      - exfalso. apply Hn. apply filter_In. auto.
      - apply Rleb_false in EB. lra. }
    destruct (loop_step motif cell dims v kdtree Hps Hkd fuel n c L prev d (kept_ne motif cell dims Hps n L HK) HF) as [(HU & E')|[(_ & EC & E')|(_ & EC & E')]]; rewrite E' in E.
    - destruct (final_cases motif cell dims v kdtree Hps n prev L HK (or_intror HU)) as [[E2 _]|(k & EK & E2)]; rewrite E2 in E; [discriminate|]. injection E as <-.
      exists n, L, k. split; auto. split; auto. split; auto. destruct HP as [HZ|(n' & Lp & c' & d' & -> & HKp & -> & ->)].
      + exfalso. destruct (unchanged_column motif cell dims v kdtree Hps _ _ HU) as (k' & _ & E3 & _). apply first_column_done in E3 as (K1 & K2 & _). destruct prev as [|r0 prev]; [cbn in K1; lia|].
        specialize (K2 r0 (or_introl eq_refl)). rewrite (HZ r0 (or_introl eq_refl)) in K2. lra.
      + pose proof (unchanged_no_new n' Lp c' d' HKp HU) as NN. assert (Hdm : (1 <= dims)%nat) by (destruct Hps; auto).
        assert (LAY : forall l p i, In l (layer dims n') -> In p motif -> (i < m)%nat -> v <= dist p (P (l, i))).
        { intros l p i Hl Hp Hi. destruct (in_dec (list_eq_dec Z.eq_dec) l (Lp ++ close cell dims c' d' (layer dims n'))) as [HI|HI].
          - apply in_app_iff in HI as [HI|HI]; [|apply NN; auto]. exfalso. destruct HKp as [H1 _ H2 _]. apply H2 in HI. destruct n' as [|n']; [lia|].
            apply (layers_concat_In motif cell dims Hps) in HI as [_ HI]. destruct (layer_spec dims (S n') Hdm) as (_ & _ & HS). apply HS in Hl as (_ & _ & [?|Hl]); [lia|]. nia.
          - apply HC; auto. rewrite layers_S, concat_app. apply in_app_iff. right. cbn [concat]. rewrite app_nil_r. auto. }
        apply (everything_intro n'); auto; [apply HKp|]. intros l Hl HNl. apply HC.
        * rewrite layers_S, concat_app. apply in_app_iff. auto.
        * auto.
    - destruct (final_cases motif cell dims v kdtree Hps n (all_rows motif cell dims L) L HK (or_introl eq_refl)) as [[E2 _]|(k & EK & E2)]; rewrite E2 in E; [discriminate|]. injection E as <-.
      exists n, L, k. split; auto. split; auto. split; auto. apply (everything_intro n); auto; [apply HK|]. intros l p i Hl Hp Hi. apply NC; auto. rewrite EC. auto.
    - apply (IH (S n) c (L ++ close cell dims c d (layer dims n)) (all_rows motif cell dims L) r HM); auto.
      + apply (kept_step motif cell dims Hps). auto.
      + intros l Hl HNl p i Hp Hi. rewrite layers_S, concat_app in Hl. cbn [concat] in Hl. rewrite app_nil_r in Hl. apply in_app_iff in Hl as [Hl|Hl].
        * apply HC; auto. intros HI. apply HNl, in_app_iff. auto.
        * apply NC; auto. intros HI. apply HNl, in_app_iff. auto.
      + destruct HD as (p & Hp & Hd'). exists p. split; auto. eapply Rle_trans; [exact Hd'|]. apply (far_mono motif cell dims Hps L); [apply (kept_ne motif cell dims Hps n); auto|apply incl_appl, incl_refl].
      + right. exists n, L, c, d. auto.
  Qed.
End Complete.
