(** Nearest neighbours found by _neighbors_from_distance_matrix and _nearest_items. *)
From Coq Require Import List ZArith Arith Bool Lia Lra Reals Permutation Sorting.Sorted String.
From Verif Require Import Num Base Outcome Condensed NNModel CalcModel SpecEmd CompareModel SpecCompare CompareProofs.
Import ListNotations.
Open Scope R_scope.
Open Scope list_scope.
Notation length := List.length.

Lemma in_firstn : forall A (l : list A) n x, In x (firstn n l) -> In x l.
Proof.
  induction l as [|a l IH]; intros [|n] x Hx; simpl in *; auto; try tauto.
  destruct Hx as [->|Hx]; auto. right. eapply IH; eauto.
Qed.

Lemma NoDup_firstn' : forall A (l : list A) n, NoDup l -> NoDup (firstn n l).
Proof.
  induction l as [|a l IH]; intros [|n] Hn; simpl; auto; try constructor.
  - inversion Hn; subst. intros Hi. apply in_firstn in Hi. auto.
  - inversion Hn; subst. apply IH. auto.
Qed.

Lemma in_firstn_nth : forall A (l : list A) n x d, In x (firstn n l) ->
  exists a, (a < n)%nat /\ (a < length l)%nat /\ nth a l d = x.
Proof.
  induction l as [|a l IH]; intros [|n] x d Hx; simpl in *; try tauto.
  destruct Hx as [->|Hx].
  - exists 0%nat. split; [lia|split; [lia|auto]].
  - destruct (IH n x d Hx) as (b & H1 & H2 & H3). exists (S b). split; [lia|split; [lia|auto]].
Qed.

Lemma nth_in_firstn : forall A (l : list A) n a d, (a < n)%nat -> (a < length l)%nat -> In (nth a l d) (firstn n l).
Proof.
  induction l as [|x l IH]; intros n a d H1 H2; simpl in H2; [lia|].
  destruct n as [|n]; [lia|]. destruct a as [|a]; simpl; auto. right. apply IH; lia.
Qed.

(** The first entries of an argpartition. *)
Lemma argpartition_prefix : forall f row n, argpartition_ok f -> (n < length row)%nat ->
  let p := firstn n (f row n) in
  length p = n /\ NoDup p /\ Forall (fun j => (j < length row)%nat) p /\
  (forall i j, In i p -> (j < length row)%nat -> ~ In j p -> nth i row 0 <= nth j row 0).
Proof.
  intros f row n Hf Hn p. destruct (Hf row n Hn) as (Hp & Hlo & Hhi).
  assert (L : length (f row n) = length row) by (rewrite (Permutation_length Hp), seq_length; auto).
  assert (ND : NoDup (f row n)).
  { apply (Permutation_NoDup (Permutation_sym Hp)). apply seq_NoDup. }
  split; [unfold p; rewrite firstn_length; lia|]. split; [apply NoDup_firstn'; auto|]. split.
  - apply Forall_forall. intros j Hj. apply in_firstn in Hj. apply (Permutation_in _ Hp) in Hj.
    apply in_seq in Hj. lia.
  - intros i j Hi Hj Hnj. apply in_firstn_nth with (d := 0%nat) in Hi as (a & Ha & _ & <-).
    assert (In j (f row n)) as Hin.
    { apply (Permutation_in _ (Permutation_sym Hp)). apply in_seq. lia. }
    apply In_nth with (d := 0%nat) in Hin as (b & Hb & <-).
    destruct (lt_eq_lt_dec b n) as [[Hlt|Heq]|Hgt].
    + exfalso. apply Hnj. apply nth_in_firstn; lia.
    + subst b. apply Hlo. auto.
    + eapply Rle_trans; [apply Hlo; auto|apply Hhi; lia].
Qed.

Lemma map_nth_seq : forall A (l : list A) d, map (fun i => nth i l d) (seq 0 (length l)) = l.
Proof.
  induction l as [|a l IH]; intros d; simpl; auto. f_equal.
  rewrite <- seq_shift, map_map. apply IH.
Qed.

(** Sorting the indices found by their distances. *)
Lemma sort_row_ok : forall g row inds, argsort_ok g -> Forall (fun j => (j < length row)%nat) inds ->
  let '(ds, is) := sort_row g row inds in
  Permutation is inds /\ ds = map (fun j => nth j row 0) is /\ StronglySorted Rle ds.
Proof.
  intros g row inds Hg Hr. unfold sort_row, pick.
  set (nn := map (fun i => nth i row n0) inds). destruct (Hg nn) as [Hp Hs].
  assert (Ln : length nn = length inds) by (unfold nn; apply map_length).
  split; [|split; [|exact Hs]].
  - eapply Permutation_trans; [apply Permutation_map, Hp|]. rewrite Ln, map_nth_seq. apply Permutation_refl.
  - rewrite map_map. apply map_ext_in. intros a Ha. apply (Permutation_in _ Hp) in Ha. apply in_seq in Ha.
    unfold nn. set (e := fun i => nth i row n0).
    rewrite (nth_indep (map e inds) _ (e 0%nat)) by (rewrite map_length; lia).
    rewrite map_nth. reflexivity.
Qed.

Lemma omap_ok' : forall A B (f : A -> outcome B) (g : A -> B) l,
  (forall a, In a l -> f a = Done (g a)) -> omap f l = Done (map g l).
Proof. exact omap_ok. Qed.

Lemma nth_map2 : forall A B C (f : A -> B -> C) l1 l2 i a b c,
  (i < length l1)%nat -> (i < length l2)%nat -> nth i (map2 f l1 l2) c = f (nth i l1 a) (nth i l2 b).
Proof.
  induction l1 as [|x l1 IH]; intros [|y l2] [|i] a b c H1 H2; simpl in *; try lia; auto.
  apply IH; lia.
Qed.

Lemma map2_length' : forall A B C (f : A -> B -> C) l1 l2, length (map2 f l1 l2) = Nat.min (length l1) (length l2).
Proof. induction l1 as [|x l1 IH]; intros [|y l2]; simpl; auto. Qed.

Lemma nth_enumerate : forall A (l : list A) i d, (i < length l)%nat -> nth i (enumerate l) d = (i, nth i l (snd d)).
Proof.
  intros A l i [d1 d2] Hi. unfold enumerate. rewrite combine_nth by apply seq_length.
  rewrite seq_nth by auto. auto.
Qed.

Lemma enumerate_length : forall A (l : list A), length (enumerate l) = length l.
Proof. intros. unfold enumerate. rewrite combine_length, seq_length. lia. Qed.

Lemma in_enumerate : forall A (l : list A) i a d, In (i, a) (enumerate l) -> (i < length l)%nat /\ a = nth i l d.
Proof.
  intros A l i a d Hi. apply In_nth with (d := (0%nat, d)) in Hi as (j & Hj & E).
  rewrite enumerate_length in Hj. rewrite nth_enumerate in E by auto. injection E as <- <-. auto.
Qed.

Lemma Forall_nth' : forall A (P : A -> Prop) l i d, Forall P l -> (i < length l)%nat -> P (nth i l d).
Proof. intros. eapply Forall_forall; eauto. apply nth_In. auto. Qed.

(** The common end of both branches: rows of candidate indices are sorted by distance. *)
Lemma finish_rows : forall g rows inds m n, argsort_ok g -> has_shape (length rows) m rows ->
  length inds = length rows -> (1 <= length rows)%nat ->
  Forall (fun r => length r = n /\ Forall (fun j => (j < m)%nat) r) inds ->
  exists nn is,
    (match inds with
     | [] => Raise ValueError
     | r :: _ =>
         if forallb (fun r' => (length r' =? length r)%nat) inds then
           let both := map2 (sort_row g) rows inds in Done (map fst both, map snd both)
         else Raise ValueError
     end) = Done (nn, is) /\
    length nn = length rows /\ length is = length rows /\
    forall i, (i < length rows)%nat ->
      Permutation (nth i is []) (nth i inds []) /\
      nth i nn [] = map (fun j => nth j (nth i rows []) 0) (nth i is []) /\ StronglySorted Rle (nth i nn []).
Proof.
  intros g rows inds m n Hg [_ Hs] Hl Hr Hi.
  destruct inds as [|r inds']; [simpl in Hl; lia|].
  set (inds := r :: inds') in *.
  assert (Hn : length r = n) by (inversion Hi; tauto).
  replace (forallb _ inds) with true.
  2:{ symmetry. apply forallb_forall. intros x Hx. apply Nat.eqb_eq. rewrite Forall_forall in Hi.
      destruct (Hi x Hx). congruence. }
  eexists. eexists. split; [reflexivity|]. rewrite !map_length, map2_length'.
  split; [lia|split; [lia|]]. intros i Hlt.
  rewrite !(nth_indep _ (@nil _) (fst (@nil R, @nil nat))) by (rewrite map_length, map2_length'; lia).
  rewrite (nth_indep (map snd _) (@nil _) (snd (@nil R, @nil nat))) by (rewrite map_length, map2_length'; lia).
  rewrite !map_nth. rewrite (nth_map2 _ _ _ (sort_row g) rows inds i [] []) by lia.
  pose proof (sort_row_ok g (nth i rows []) (nth i inds []) Hg) as S.
  assert (HF : Forall (fun j => (j < length (nth i rows []))%nat) (nth i inds [])).
  { rewrite (Forall_nth' _ _ rows i [] Hs) by lia.
    apply (Forall_nth' _ _ inds i [] Hi). lia. }
  specialize (S HF). destruct (sort_row g (nth i rows []) (nth i inds [])) as [ds is]. exact S.
Qed.

(** 2D matrices. *)
Lemma neighbors_square : forall ap g n m rows, argpartition_ok ap -> argsort_ok g ->
  has_shape (length rows) m rows -> (1 <= length rows)%nat -> (n < m)%nat ->
  exists nn is, neighbors_from_distance_matrix ap g n (Square rows) = Done (nn, is) /\
    length nn = length rows /\ length is = length rows /\
    forall i, (i < length rows)%nat ->
      nearest_of m (fun _ => True) (fun j => nth j (nth i rows []) 0) n (nth i is []) (nth i nn []).
Proof.
  intros ap g n m rows Hap Hg Hs Hr Hn. unfold neighbors_from_distance_matrix.
  assert (Hrow : forall row, In row rows -> length row = m).
  { destruct Hs as [_ Hs]. rewrite Forall_forall in Hs. auto. }
  rewrite (omap_ok' _ _ _ (fun row => firstn n (ap row n))).
  2:{ intros row Hrow'. unfold np_argpartition. rewrite (Hrow row Hrow').
      rewrite (proj2 (Nat.ltb_lt n m)) by auto. reflexivity. }
  cbn [obind].
  set (inds := map (fun row => firstn n (ap row n)) rows).
  destruct (finish_rows g rows inds m n Hg Hs) as (nn & is & E & L1 & L2 & N).
  - unfold inds. apply map_length.
  - auto.
  - apply Forall_forall. intros x Hx. apply in_map_iff in Hx as (row & <- & Hin).
    pose proof (argpartition_prefix ap row n Hap) as A. rewrite (Hrow row Hin) in A.
    destruct (A Hn) as (A1 & A2 & A3 & A4). auto.
  - exists nn, is. split; [exact E|split; [auto|split; [auto|]]]. intros i Hi.
    destruct (N i Hi) as (P & D & S).
    assert (Ei : nth i inds [] = firstn n (ap (nth i rows []) n)).
    { unfold inds. rewrite (nth_indep _ [] (firstn n (ap (@nil R) n))) by (rewrite map_length; auto).
      apply (map_nth (fun row => firstn n (ap row n))). }
    rewrite Ei in P. clear Ei.
    assert (Lr : length (nth i rows []) = m) by (apply Hrow, nth_In; auto).
    pose proof (argpartition_prefix ap (nth i rows []) n Hap) as A. rewrite Lr in A.
    destruct (A Hn) as (A1 & A2 & A3 & A4).
    constructor.
    + rewrite (Permutation_length P). auto.
    + exact D.
    + apply (Permutation_NoDup (Permutation_sym P)). auto.
    + apply Forall_forall. intros j Hj. apply (Permutation_in _ P) in Hj. rewrite Forall_forall in A3. auto.
    + auto.
    + intros j Hj _ Hnj. rewrite D. apply Forall_forall. intros d Hd. apply in_map_iff in Hd as (a & <- & Ha).
      apply A4; auto.
      * apply (Permutation_in _ P). auto.
      * intros Hin. apply Hnj. apply (Permutation_in _ (Permutation_sym P)). auto.
Qed.

Lemma filter_not_self : forall i l, NoDup l ->
  (length l <= S (length (filter (fun j => negb (j =? i)%nat) l)))%nat.
Proof.
  induction l as [|a l IH]; intros Hn; simpl; [lia|]. inversion Hn; subst.
  destruct (Nat.eqb_spec a i); simpl.
  - subst. replace (filter _ l) with l; [lia|]. clear - H1. induction l as [|b l IH]; simpl; auto.
    destruct (Nat.eqb_spec b i); simpl.
    + subst. exfalso. apply H1. left. auto.
    + f_equal. apply IH. intros Hi; apply H1; right; auto.
  - specialize (IH H2). lia.
Qed.

Lemma filter_id : forall A (f : A -> bool) l, (forall x, In x l -> f x = true) -> filter f l = l.
Proof.
  induction l as [|a l IH]; intros Hf; simpl; auto. rewrite Hf by (left; auto). f_equal.
  apply IH. intros; apply Hf; right; auto.
Qed.

Lemma filter_length_le : forall A (f : A -> bool) l, (length (filter f l) <= length l)%nat.
Proof. induction l; simpl; auto. destruct (f a); simpl; lia. Qed.

Lemma filter_drop : forall i l, In i l -> (S (length (filter (fun j => negb (j =? i)%nat) l)) <= length l)%nat.
Proof.
  induction l as [|a l IH]; intros Hi; simpl in *; [tauto|].
  destruct (Nat.eqb_spec a i); simpl.
  - pose proof (filter_length_le _ (fun j => negb (j =? i)%nat) l). lia.
  - destruct Hi as [->|Hi]; [tauto|]. specialize (IH Hi). lia.
Qed.

(** Removing the item itself from n+1 candidates. *)
Lemma drop_self_ok : forall n i l, NoDup l -> length l = S n ->
  length (drop_self n i l) = n /\ NoDup (drop_self n i l) /\
  (forall j, In j (drop_self n i l) -> In j l /\ j <> i) /\
  (forall j, In j l -> j <> i -> ~ In j (drop_self n i l) -> ~ In i l).
Proof.
  intros n i l Hn Hl. unfold drop_self. set (fl := filter (fun j => negb (j =? i)%nat) l).
  pose proof (filter_not_self i l Hn) as Hf. fold fl in Hf.
  split; [rewrite firstn_length; lia|]. split; [apply NoDup_firstn', NoDup_filter; auto|]. split.
  - intros j Hj. apply in_firstn in Hj. apply filter_In in Hj as [Hj E]. split; auto.
    intros ->. rewrite Nat.eqb_refl in E. discriminate.
  - intros j Hj Hji Hnj Hi. apply Hnj.
    assert (Hfl : (length fl <= n)%nat) by (pose proof (filter_drop i l Hi); fold fl in H; lia).
    rewrite firstn_all2 by lia. apply filter_In. split; auto.
    destruct (Nat.eqb_spec j i); auto.
Qed.

(** Condensed matrices. *)
Lemma neighbors_condensed : forall ap g n m v, argpartition_ok ap -> argsort_ok g ->
  (1 <= m)%nat -> length v = length (pairs m) -> (n + 1 < m)%nat -> Forall (fun d => 0 <= d) v ->
  exists nn is, neighbors_from_distance_matrix ap g n (Condensed v) = Done (nn, is) /\
    length nn = m /\ length is = m /\
    forall i, (i < m)%nat ->
      nearest_of m (fun j => j <> i) (fun j => squareform 0 m v i j) n (nth i is []) (nth i nn []).
Proof.
  intros ap g n m v Hap Hg Hm Hl Hn Hpos. unfold neighbors_from_distance_matrix.
  unfold squareform_matrix. rewrite Hl, square_dim_pairs by auto. cbn [obind].
  change n0 with 0.
  set (rows := map (fun i => map (squareform 0 m v i) (seq 0 m)) (seq 0 m)).
  assert (Lrows : length rows = m) by (unfold rows; rewrite map_length, seq_length; auto).
  assert (Hs : has_shape (length rows) m rows).
  { split; auto. apply Forall_forall. intros r Hr. apply in_map_iff in Hr as (i & <- & _).
    rewrite map_length, seq_length. auto. }
  assert (Hrow : forall row, In row rows -> length row = m).
  { destruct Hs as [_ Hs]. rewrite Forall_forall in Hs. auto. }
  assert (Hent : forall i j, (i < m)%nat -> (j < m)%nat -> nth j (nth i rows []) 0 = squareform 0 m v i j).
  { intros i j Hi Hj. unfold rows.
    rewrite (nth_indep _ [] (map (squareform 0 m v 0%nat) (seq 0 m))) by (rewrite map_length, seq_length; auto).
    rewrite (map_nth (fun i => map (squareform 0 m v i) (seq 0 m))), seq_nth by auto. simpl plus.
    rewrite (nth_indep _ 0 (squareform 0 m v i 0%nat)) by (rewrite map_length, seq_length; auto).
    rewrite map_nth, seq_nth by auto. auto. }
  assert (Hnn : forall i j, 0 <= squareform 0 m v i j).
  { intros i j. unfold squareform. destruct (i =? j)%nat; [lra|].
    assert (forall t, 0 <= nth t v 0).
    { intros t. destruct (lt_dec t (length v)); [apply (Forall_nth' _ _ v t 0 Hpos); auto|].
      rewrite nth_overflow by lia. lra. }
    destruct (i <? j)%nat; apply H. }
  rewrite (omap_ok' _ _ _ (fun ir => drop_self n (fst ir) (firstn (n + 1) (ap (snd ir) (n + 1)%nat)))).
  2:{ intros [i row] Hin. apply in_enumerate with (d := []) in Hin as [Hi ->]. cbn [fst snd].
      unfold np_argpartition. rewrite Hrow by (apply nth_In; auto).
      rewrite (proj2 (Nat.ltb_lt (n + 1) m)) by auto. reflexivity. }
  cbn [obind].
  set (cand := fun ir : nat * list R => drop_self n (fst ir) (firstn (n + 1) (ap (snd ir) (n + 1)%nat))).
  set (inds := map cand (enumerate rows)).
  assert (HA : forall i, (i < m)%nat ->
    let p := firstn (n + 1) (ap (nth i rows []) (n + 1)%nat) in
    length p = (n + 1)%nat /\ NoDup p /\ Forall (fun j => (j < m)%nat) p /\
    (forall a j, In a p -> (j < m)%nat -> ~ In j p -> squareform 0 m v i a <= squareform 0 m v i j)).
  { intros i Hi p. assert (Lr : length (nth i rows []) = m) by (apply Hrow, nth_In; lia).
    pose proof (argpartition_prefix ap (nth i rows []) (n + 1) Hap) as A. rewrite Lr in A.
    destruct (A Hn) as (A1 & A2 & A3 & A4). fold p in A1, A2, A3, A4.
    split; [auto|split; [auto|split; [auto|]]]. intros a j Ha Hj Hnj.
    rewrite Forall_forall in A3. rewrite <- !Hent; auto. }
  destruct (finish_rows g rows inds m n Hg Hs) as (nn & is & E & L1 & L2 & N).
  - unfold inds. rewrite map_length. apply enumerate_length.
  - lia.
  - apply Forall_forall. intros x Hx. apply in_map_iff in Hx as ([i row] & <- & Hin).
    apply in_enumerate with (d := []) in Hin as [Hi ->]. rewrite Lrows in Hi.
    destruct (HA i Hi) as (A1 & A2 & A3 & _). unfold cand. cbn [fst snd].
    destruct (drop_self_ok n i _ A2 ltac:(lia)) as (D1 & D2 & D3 & _). split; [exact D1|].
    apply Forall_forall. intros j Hj. apply D3 in Hj as [Hj _]. rewrite Forall_forall in A3. auto.
  - exists nn, is. split; [exact E|]. rewrite Lrows in L1, L2, N. split; [auto|split; [auto|]]. intros i Hi.
    destruct (N i Hi) as (P & D & S).
    assert (Ei : nth i inds [] = drop_self n i (firstn (n + 1) (ap (nth i rows []) (n + 1)%nat))).
    { unfold inds. rewrite (nth_indep _ [] (cand (0%nat, @nil R))) by (rewrite map_length, enumerate_length; lia).
      rewrite map_nth, nth_enumerate by lia. reflexivity. }
    rewrite Ei in P. clear Ei.
    destruct (HA i Hi) as (A1 & A2 & A3 & A4).
    set (p := firstn (n + 1) (ap (nth i rows []) (n + 1)%nat)) in *.
    destruct (drop_self_ok n i p A2 ltac:(lia)) as (D1 & D2 & D3 & D4).
    rewrite Forall_forall in A3.
    assert (Dj : nth i nn [] = map (fun j => squareform 0 m v i j) (nth i is [])).
    { rewrite D. apply map_ext_in. intros j Hj. apply (Permutation_in _ P) in Hj. apply D3 in Hj as [Hj _].
      apply Hent; auto. }
    constructor.
    + rewrite (Permutation_length P). auto.
    + exact Dj.
    + apply (Permutation_NoDup (Permutation_sym P)). auto.
    + apply Forall_forall. intros j Hj. apply (Permutation_in _ P) in Hj. apply D3 in Hj as [Hj Hji]. auto.
    + auto.
    + intros j Hj Hji Hnj. rewrite Dj. apply Forall_forall. intros d Hd. apply in_map_iff in Hd as (a & <- & Ha).
      apply (Permutation_in _ P) in Ha. apply D3 in Ha as [Ha _].
      assert (Hnj' : ~ In j (drop_self n i p)).
      { intros Hin. apply Hnj. apply (Permutation_in _ (Permutation_sym P)). auto. }
      destruct (in_dec Nat.eq_dec j p) as [Hjp|Hjp].
      * pose proof (D4 j Hjp Hji Hnj') as Hip.
        eapply Rle_trans; [apply (A4 a i Ha Hi Hip)|].
        unfold squareform at 1. rewrite Nat.eqb_refl. apply Hnn.
      * apply A4; auto.
Qed.

(** * _nearest_items *)
Section Skip.
  Context {T : Type}.
  Definition others (i : nat) (row : list (T * nat)) := filter (fun dj => negb (i =? snd dj)%nat) row.

  Lemma skip_self_ok : forall i n row pre junk, (length pre < n)%nat ->
    length junk = (n - length pre)%nat -> (n - length pre <= length (others i row))%nat ->
    skip_self i n (length pre) row (pre ++ junk) = Done (pre ++ firstn (n - length pre) (others i row)).
  Proof.
    induction row as [|[d j] row IH]; intros pre junk Hp Hj Hl; simpl in *; [lia|].
    destruct (Nat.eqb_spec i j); simpl in *; [apply IH; auto|].
    destruct junk as [|x junk]; [simpl in Hj; lia|]. rewrite set_at_app. simpl.
    replace (n - length pre)%nat with (S (n - length (pre ++ [(d, j)]))) in *
      by (rewrite app_length; simpl; lia).
    simpl in Hj, Hl.
    destruct (Nat.eqb_spec (length pre + 1) n).
    - replace (n - length (pre ++ [(d, j)]))%nat with 0%nat in * by (rewrite app_length; simpl; lia).
      destruct junk; [|discriminate]. auto.
    - replace (pre ++ (d, j) :: junk) with ((pre ++ [(d, j)]) ++ junk) by (rewrite <- app_assoc; auto).
      replace (length pre + 1)%nat with (length (pre ++ [(d, j)])) by (rewrite app_length; simpl; lia).
      rewrite IH; [rewrite <- app_assoc; auto|rewrite app_length; simpl; lia|lia|lia].
  Qed.

  Lemma others_snd : forall i row, map snd (others i row) = filter (fun j => negb (j =? i)%nat) (map snd row).
  Proof.
    induction row as [|[d j] row IH]; simpl; auto. rewrite (Nat.eqb_sym j i).
    destruct (i =? j)%nat; simpl; auto. f_equal. auto.
  Qed.
End Skip.

Lemma firstn_map' : forall A B (f : A -> B) n l, map f (firstn n l) = firstn n (map f l).
Proof. induction n; intros [|a l]; simpl; auto. f_equal. auto. Qed.

Lemma sorted_filter : forall A (le : A -> A -> Prop) f l, StronglySorted le l -> StronglySorted le (filter f l).
Proof.
  induction l as [|a l IH]; intros Hs; simpl; auto. inversion Hs; subst. destruct (f a); auto.
  constructor; auto. apply Forall_forall. intros x Hx. apply filter_In in Hx as [Hx _].
  rewrite Forall_forall in H2. auto.
Qed.

Lemma sorted_firstn : forall A (le : A -> A -> Prop) n l, StronglySorted le l -> StronglySorted le (firstn n l).
Proof.
  induction n as [|n IH]; intros [|a l] Hs; simpl; auto; try constructor.
  - inversion Hs; subst; auto.
  - inversion Hs; subst. apply Forall_forall. intros x Hx. apply in_firstn in Hx.
    rewrite Forall_forall in H2. auto.
Qed.

Lemma sorted_prefix_le : forall A (le : A -> A -> Prop) n l x y,
  StronglySorted le l -> In x (firstn n l) -> In y (skipn n l) -> le x y.
Proof.
  induction n as [|n IH]; intros [|a l] x y Hs Hx Hy; simpl in *; try tauto.
  inversion Hs; subst. destruct Hx as [->|Hx].
  - rewrite Forall_forall in H2. apply H2. rewrite <- (firstn_skipn n l). apply in_or_app. auto.
  - apply (IH l); auto.
Qed.

(** From n+1 nearest items to n nearest other items. *)
Lemma nearest_others : forall m (dist : nat -> R) n i row, 
  nearest_of m (fun _ => True) dist (n + 1)%nat (map snd row) (map fst row) ->
  let out := firstn n (others i row) in
  (n <= length (others i row))%nat /\ nearest_of m (fun j => j <> i) dist n (map snd out) (map fst out).
Proof.
  intros m dist n i row [Hc Hd Hn Hv Hs Hr] out.
  assert (Hlen : length row = (n + 1)%nat) by (rewrite map_length in Hc; auto).
  assert (Ho : (n <= length (others i row))%nat).
  { pose proof (filter_not_self i (map snd row) Hn) as F. rewrite <- others_snd, !map_length in F. lia. }
  split; auto.
  assert (Hpair : forall x, In x row -> fst x = dist (snd x)).
  { intros x Hx. apply In_nth with (d := (0, 0%nat)) in Hx as (a & Ha & <-).
    pose proof (f_equal (fun l => nth a l 0) Hd) as E. cbv beta in E.
    change 0 with (fst (0, 0%nat)) in E at 1. rewrite map_nth in E. rewrite E.
    rewrite map_map.
    rewrite (nth_indep _ 0 (dist (snd (0, 0%nat)))) by (rewrite map_length; auto).
    rewrite (map_nth (fun x => dist (snd x))). auto. }
  assert (Hout : forall x, In x out -> In x row /\ snd x <> i).
  { intros x Hx. apply in_firstn in Hx. apply filter_In in Hx as [Hx E]. split; auto.
    intros E'. rewrite E', Nat.eqb_refl in E. discriminate. }
  assert (Hss : StronglySorted (fun x y => fst x <= fst y) row).
  { clear - Hs. induction row as [|x row IH]; simpl in *; constructor; inversion Hs; subst; auto.
    rewrite Forall_map in H2. auto. }
  constructor.
  - unfold out. rewrite map_length, firstn_length. lia.
  - rewrite map_map. apply map_ext_in. intros x Hx. apply Hpair, Hout, Hx.
  - unfold out. rewrite firstn_map', others_snd. apply NoDup_firstn', NoDup_filter. auto.
  - apply Forall_forall. intros j Hj. apply in_map_iff in Hj as (x & <- & Hx). apply Hout in Hx as [Hx Hxi].
    split; auto. rewrite Forall_forall in Hv. apply Hv. apply in_map. auto.
  - assert (S : StronglySorted (fun x y : R * nat => fst x <= fst y) out)
      by (apply sorted_firstn, sorted_filter; auto).
    clear - S. induction S; simpl; constructor; auto. rewrite Forall_map. auto.
  - intros j Hj Hji Hnj. apply Forall_forall. intros d Hd'. apply in_map_iff in Hd' as (x & <- & Hx).
    destruct (in_dec Nat.eq_dec j (map snd row)) as [Hin|Hnin].
    + apply in_map_iff in Hin as (y & <- & Hy). rewrite <- Hpair by auto.
      apply (sorted_prefix_le _ (fun x y : R * nat => fst x <= fst y) n (others i row)).
      * apply sorted_filter. auto.
      * exact Hx.
      * assert (Hy' : In y (others i row)).
        { apply filter_In. split; auto. destruct (Nat.eqb_spec i (snd y)); auto. }
        rewrite <- (firstn_skipn n (others i row)) in Hy'. apply in_app_or in Hy' as [Hy'|Hy']; auto.
        exfalso. apply Hnj. apply in_map. auto.
    + specialize (Hr j Hj I Hnin). rewrite Forall_forall in Hr. apply Hr. apply in_map. apply Hout. auto.
Qed.

Section Items.
  Context (P : Type) (kn : kwargs (T := R) -> nat -> list (list R) -> list (list R) -> outcome (list (list (R * nat)))).
  Variables (opts : kwargs (T := R)) (dist : list R -> list R -> R)
    (f : nat -> list (list R) -> list (list R) -> list (list (R * nat))).
  Hypothesis Hkn : forall n XB XA, kn opts n XB XA = Done (f n XB XA).
  Hypothesis Hf : kneighbors_ok dist f.

  Lemma nearest_items_two : forall junk n XA XB, (1 <= n <= length XB)%nat ->
    exists ds is, nearest_items kn junk n XA (Some XB) opts = Done (ds, is) /\
      length ds = length XA /\ length is = length XA /\
      forall i, (i < length XA)%nat ->
        nearest_of (length XB) (fun _ => True) (fun j => dist (nth i XA []) (nth j XB [])) n
          (nth i is []) (nth i ds []).
  Proof.
    intros junk n XA XB Hn. unfold nearest_items, sk_kneighbors.
    replace (n =? 0)%nat with false by (symmetry; apply Nat.eqb_neq; lia).
    replace (length XB <? n)%nat with false by (symmetry; apply Nat.ltb_ge; lia).
    cbn [orb]. rewrite Hkn. cbn [obind]. destruct (Hf n XB XA Hn) as [L N].
    eexists. eexists. split; [reflexivity|]. rewrite !map_length. split; [auto|split; [auto|]].
    intros i Hi. specialize (N i Hi).
    rewrite (nth_indep (map (map fst) _) [] (map fst (@nil (R * nat)))) by (rewrite map_length; lia).
    rewrite (nth_indep (map (map snd) _) [] (map snd (@nil (R * nat)))) by (rewrite map_length; lia).
    rewrite !map_nth. exact N.
  Qed.

  Lemma nearest_items_one : forall junk n XA, (1 <= n < length XA)%nat -> has_shape (length XA) n junk ->
    exists ds is, nearest_items kn junk n XA None opts = Done (ds, is) /\
      length ds = length XA /\ length is = length XA /\
      forall i, (i < length XA)%nat ->
        nearest_of (length XA) (fun j => j <> i) (fun j => dist (nth i XA []) (nth j XA [])) n
          (nth i is []) (nth i ds []).
  Proof.
    intros junk n XA Hn [Lj Hj]. unfold nearest_items, sk_kneighbors.
    replace (n + 1 =? 0)%nat with false by (symmetry; apply Nat.eqb_neq; lia).
    replace (length XA <? n + 1)%nat with false by (symmetry; apply Nat.ltb_ge; lia).
    cbn [orb]. rewrite Hkn. cbn [obind]. destruct (Hf (n + 1)%nat XA XA ltac:(lia)) as [L N].
    set (r := f (n + 1)%nat XA XA) in *.
    set (out := fun irow : nat * list (R * nat) => firstn n (others (fst irow) (snd irow))).
    rewrite (omap_ok' _ _ _ out).
    2:{ intros [i row] Hin. apply in_enumerate with (d := []) in Hin as [Hi ->]. cbn [fst snd].
        rewrite get_at_nth with (d := []) by lia. cbn [obind].
        pose proof (skip_self_ok i n (nth i r []) [] (nth i junk [])) as S. simpl in S.
        rewrite Nat.sub_0_r in S. apply S; [lia| |].
        - apply (Forall_nth' _ _ junk i [] Hj). lia.
        - apply (nearest_others _ _ n i _ (N i ltac:(lia))). }
    cbn [obind]. eexists. eexists. split; [reflexivity|]. rewrite !map_length, enumerate_length.
    split; [auto|split; [auto|]]. intros i Hi.
    rewrite (nth_indep (map (map fst) _) [] (map fst (out (0%nat, @nil (R * nat))))) by (rewrite !map_length, enumerate_length; lia).
    rewrite (nth_indep (map (map snd) _) [] (map snd (out (0%nat, @nil (R * nat)))))
      by (rewrite !map_length, enumerate_length; lia).
    rewrite !map_nth, nth_enumerate by lia.
    apply (nearest_others _ _ n i _ (N i Hi)).
  Qed.
End Items.
