(** Points of an expanded asymmetric unit related by a symmetry operation have the same surroundings. *)
From Coq Require Import List ZArith Arith Bool Lia Reals Lra Permutation.
From Verif Require Import Num Base Outcome NNModel Spec SpecGeom SpecSites SpecCalc SpecSymmetry NNProofs NNSpecProofs SitesModel SitesProofs.
Import ListNotations.
Open Scope R_scope.

Lemma list_ext : forall (l l' : list R), length l = length l' -> (forall j, (j < length l)%nat -> nth j l 0 = nth j l' 0) -> l = l'.
Proof. intros. apply (nth_ext l l' 0 0); auto. Qed.
Lemma nth_map_seq0 : forall (f : nat -> R) n j, (j < n)%nat -> nth j (map f (seq 0 n)) 0 = f j.
Proof. intros f n j Hj. rewrite (nth_indep _ 0 (f 0%nat)) by (rewrite map_length, seq_length; auto). rewrite (map_nth f). rewrite seq_nth; auto. Qed.
Lemma nth_map_seqZ : forall (f : nat -> Z) n j, (j < n)%nat -> nth j (map f (seq 0 n)) 0%Z = f j.
Proof. intros f n j Hj. rewrite (nth_indep _ 0%Z (f 0%nat)) by (rewrite map_length, seq_length; auto). rewrite (map_nth f). rewrite seq_nth; auto. Qed.

Lemma shifted_length : forall z p, length (shifted z p) = length p.
Proof. intros. unfold shifted. rewrite map_length, seq_length. auto. Qed.
Lemma shifted_nth : forall z p j, (j < length p)%nat -> nth j (shifted z p) 0 = nth j p 0 + IZR (nth j z 0%Z).
Proof. intros z p j Hj. unfold shifted. rewrite (nth_map_seq0 (fun j => nth j p 0 + IZR (nth j z 0%Z))); auto. Qed.
Definition zadd (dims : nat) (a b : list Z) : list Z := map (fun j => (nth j a 0 + nth j b 0)%Z) (seq 0 dims).
Definition zneg (dims : nat) (a : list Z) : list Z := map (fun j => (- nth j a 0)%Z) (seq 0 dims).
Lemma shifted_add : forall dims a b p, length p = dims -> shifted a (shifted b p) = shifted (zadd dims a b) p.
Proof.
  intros dims a b p Hp. apply list_ext; rewrite !shifted_length; auto. intros j Hj. rewrite !shifted_nth by (rewrite ?shifted_length; auto).
  unfold zadd. rewrite (nth_map_seqZ (fun j => (nth j a 0 + nth j b 0)%Z)) by lia. rewrite plus_IZR. ring.
Qed.
Lemma shifted_neg : forall dims a p, length p = dims -> shifted (zneg dims a) (shifted a p) = p.
Proof.
  intros dims a p Hp. apply list_ext; rewrite !shifted_length; auto. intros j Hj. rewrite !shifted_nth by (rewrite ?shifted_length; auto).
  unfold zneg. rewrite (nth_map_seqZ (fun j => (- nth j a 0)%Z)) by lia. rewrite opp_IZR. ring.
Qed.
Lemma neg_shifted : forall dims a p, length p = dims -> shifted a (shifted (zneg dims a) p) = p.
Proof.
  intros dims a p Hp. apply list_ext; rewrite !shifted_length; auto. intros j Hj. rewrite !shifted_nth by (rewrite ?shifted_length; auto).
  unfold zneg. rewrite (nth_map_seqZ (fun j => (- nth j a 0)%Z)) by lia. rewrite opp_IZR. ring.
Qed.
Lemma shifted_inj : forall a b p, length a = length p -> length b = length p -> shifted a p = shifted b p -> a = b.
Proof.
  intros a b p Ha Hb E. apply (nth_ext a b 0%Z 0%Z); [congruence|]. intros j Hj. apply eq_IZR. assert (N : nth j (shifted a p) 0 = nth j (shifted b p) 0) by (rewrite E; auto). rewrite !shifted_nth in N by lia. lra.
Qed.
Lemma shifted_same : forall z p, same_mod1 (shifted z p) p.
Proof. intros z p. split; [apply shifted_length|]. intros j Hj. rewrite shifted_length in Hj. exists (nth j z 0%Z). rewrite shifted_nth by auto. ring. Qed.
Lemma same_shifted : forall p q, same_mod1 p q -> exists z, length z = length p /\ p = shifted z q.
Proof.
  intros p q [L S]. exists (map (fun j => Int_part (nth j p 0 - nth j q 0)) (seq 0 (length p))). split; [rewrite map_length, seq_length; auto|].
  apply list_ext; [rewrite shifted_length; auto|]. intros j Hj. rewrite shifted_nth by lia. rewrite (nth_map_seqZ (fun j => Int_part (nth j p 0 - nth j q 0))) by auto.
  destruct (S j Hj) as [n Hn]. rewrite Hn. replace (Int_part (IZR n)) with n; [lra|]. unfold Int_part. rewrite <- (tech_up (IZR n) (n + 1)); [lia| |]; rewrite plus_IZR; lra.
Qed.

(** ** Operations *)
Lemma affine_length : forall g p, length (affine g p) = length p.
Proof. intros. unfold affine. rewrite map_length, seq_length. auto. Qed.
Lemma affine_nth : forall g p j, (j < length p)%nat -> nth j (affine g p) 0 = rdot (nth j (fst g) []) p + nth j (snd g) 0.
Proof. intros g p j Hj. unfold affine. rewrite (nth_map_seq0 (fun j => rdot (nth j (fst g) []) p + nth j (snd g) 0)); auto. Qed.
Lemma integer_rdot : forall r z, (forall i, exists n : Z, nth i r 0 = IZR n) -> exists n : Z, rdot r (map IZR z) = IZR n.
Proof.
  induction r as [|a r IH]; intros z H; [exists 0%Z; auto|]. destruct z as [|b z]; [exists 0%Z; auto|]. destruct (IH z) as [n Hn]; [intros i; apply (H (S i))|]. destruct (H 0%nat) as [m Hm]. cbn in Hm. subst a.
  exists (m * b + n)%Z. cbn [map rdot]. rewrite Hn, plus_IZR, mult_IZR. auto.
Qed.
Lemma rdot_shifted : forall r z p, length r = length p -> length z = length p -> rdot r (shifted z p) = rdot r p + rdot r (map IZR z).
Proof.
  intros r z p. revert r z. induction p as [|a p IH]; intros [|b r] [|c z] Hr Hz; try discriminate; [cbn; ring|].
  assert (E : shifted (c :: z) (a :: p) = (a + IZR c) :: shifted z p). { unfold shifted. cbn [length seq map nth]. f_equal. rewrite <- seq_shift, map_map. auto. }
  rewrite E. cbn [rdot map]. rewrite IH by (cbn in *; lia). ring.
Qed.
Lemma affine_shifted : forall dims g z, operation_ok dims g -> (forall i j, exists n : Z, nth i (nth j (fst g) []) 0 = IZR n) -> length z = dims ->
  exists m, length m = dims /\ forall p, length p = dims -> affine g (shifted z p) = shifted m (affine g p).
Proof.
  intros dims g z (O1 & O2 & O3) HI Hz. exists (map (fun j => Int_part (rdot (nth j (fst g) []) (map IZR z))) (seq 0 dims)). split; [rewrite map_length, seq_length; auto|].
  intros p Hp. apply list_ext; [rewrite shifted_length, !affine_length, shifted_length; auto|]. intros j Hj. rewrite affine_length, shifted_length in Hj.
  rewrite shifted_nth by (rewrite affine_length; auto). rewrite !affine_nth by (rewrite ?shifted_length; auto). rewrite (nth_map_seqZ (fun j => Int_part (rdot (nth j (fst g) []) (map IZR z)))) by lia.
  rewrite rdot_shifted; [|rewrite Forall_forall in O2; rewrite (O2 (nth j (fst g) [])); [auto|apply nth_In; lia]|lia].
  destruct (integer_rdot (nth j (fst g) []) z) as [n Hn]; [intros i; apply HI|]. rewrite Hn. replace (Int_part (IZR n)) with n; [ring|]. unfold Int_part. rewrite <- (tech_up (IZR n) (n + 1)); [lia| |]; rewrite plus_IZR; lra.
Qed.

(** ** Points of the periodic set *)
Lemma comb_shifted : forall cell f l j, length f = length cell -> comb_coord cell (shifted l f) j = comb_coord cell f j + lattice_coord cell l j.
Proof.
  intros cell f l j Hf. unfold lattice_coord, comb_coord. assert (G : forall L, (forall r, In r L -> (r < length f)%nat) -> rsum (map (fun r => nth r (shifted l f) 0 * nth j (nth r cell []) 0) L) =
    rsum (map (fun r => nth r f 0 * nth j (nth r cell []) 0) L) + rsum (map (fun r => nth r (map IZR l) 0 * nth j (nth r cell []) 0) L)).
  { unfold rsum. induction L as [|r L IH]; intros H; cbn; [lra|]. rewrite IH by (intros; apply H; right; auto). rewrite shifted_nth by (apply H; left; auto). rewrite (map_nth IZR l 0%Z r). ring. }
  apply G. intros r Hr. apply in_seq in Hr. lia.
Qed.
Lemma ppoint_shifted : forall dims cell frac l k, length cell = dims -> (k < length frac)%nat -> length (nth k frac []) = dims ->
  ppoint dims (map (cartesian cell) frac) cell (l, k) = cartesian cell (shifted l (nth k frac [])).
Proof.
  intros dims cell frac l k Hc Hk Hf. unfold ppoint. cbn [fst snd]. assert (N : nth k (map (cartesian cell) frac) [] = cartesian cell (nth k frac [])) by (rewrite (nth_indep _ [] (cartesian cell [])) by (rewrite map_length; auto); apply map_nth).
  rewrite N. unfold cartesian. rewrite Hc. apply map_ext_in. intros j Hj. apply in_seq in Hj.
  rewrite comb_shifted by lia. f_equal. rewrite (nth_map_seq0 (comb_coord cell (nth k frac []))); auto. lia.
Qed.

Definition floors (p : list R) : list Z := map Int_part p.
Lemma floors_mod1 : forall p, shifted (floors p) (map mod1 p) = p.
Proof.
  intros p. apply list_ext; rewrite shifted_length, map_length; auto. intros j Hj. rewrite shifted_nth by (rewrite map_length; auto).
  unfold floors. rewrite (nth_indep (map mod1 p) 0 (mod1 0)) by (rewrite map_length; auto). rewrite (nth_indep (map Int_part p) 0%Z (Int_part 0)) by (rewrite map_length; auto). rewrite (map_nth mod1), (map_nth Int_part). unfold mod1, frac_part. ring.
Qed.
Lemma unit_unique : forall p q, in_unit p -> in_unit q -> same_mod1 p q -> p = q.
Proof.
  intros p q Hp Hq [L S]. apply list_ext; auto. intros j Hj. destruct (S j Hj) as [n Hn]. unfold in_unit in Hp, Hq. rewrite Forall_forall in Hp, Hq.
  assert (P := Hp (nth j p 0) (nth_In _ _ Hj)). assert (Q := Hq (nth j q 0) (nth_In q 0 (eq_ind _ (fun m => (j < m)%nat) Hj _ L))).
  assert (-1 < n < 1)%Z by (split; apply lt_IZR; lra). assert (n = 0%Z) by lia. subst n. lra.
Qed.

Section Surroundings.
  Variables (dims : nat) (cell frac : list (list R)) (tag : nat -> nat) (G H : list R -> list R) (i j : nat).
  Hypothesis Hcell : length cell = dims.
  Hypothesis Hfrac : Forall (fun f => length f = dims /\ in_unit f) frac.
  Hypothesis HGl : forall p, length p = dims -> length (G p) = dims.
  Hypothesis HHl : forall p, length p = dims -> length (H p) = dims.
  Hypothesis HGH : forall p, length p = dims -> G (H p) = p.
  Hypothesis HHG : forall p, length p = dims -> H (G p) = p.
  Hypothesis Hiso : forall p q, length p = dims -> length q = dims -> edist (cartesian cell (G p)) (cartesian cell (G q)) = edist (cartesian cell p) (cartesian cell q).
  Hypothesis HG : forall k l, (k < length frac)%nat -> length l = dims -> exists k', (k' < length frac)%nat /\ tag k' = tag k /\ same_mod1 (nth k' frac []) (G (shifted l (nth k frac []))).
  Hypothesis HH : forall k l, (k < length frac)%nat -> length l = dims -> exists k', (k' < length frac)%nat /\ tag k' = tag k /\ same_mod1 (nth k' frac []) (H (shifted l (nth k frac []))).
  Hypothesis Huniq : forall k k', (k < length frac)%nat -> (k' < length frac)%nat -> tag k = tag k' -> same_mod1 (nth k frac []) (nth k' frac []) -> k = k'.
  Hypothesis Hi : (i < length frac)%nat.
  Hypothesis Hj : (j < length frac)%nat.
  Hypothesis Hij : G (nth i frac []) = nth j frac [].

  Let pos (a : list Z * nat) : list R := shifted (fst a) (nth (snd a) frac []).
  Let flen : forall k, (k < length frac)%nat -> length (nth k frac []) = dims /\ in_unit (nth k frac []).
  Proof. intros k Hk. rewrite Forall_forall in Hfrac. apply Hfrac, nth_In. auto. Qed.
  Let find_at (t : nat) (p : list R) : nat := hd 0%nat (filter (fun k => (Nat.eqb (tag k) t && if list_eq_dec Req_EM_T (nth k frac []) p then true else false)%bool) (seq 0 (length frac))).
  Let index_of (t : nat) (p : list R) : list Z * nat := (floors p, find_at t (map mod1 p)).

  Lemma index_of_spec : forall t p k, length p = dims -> (k < length frac)%nat -> tag k = t -> same_mod1 (nth k frac []) p -> snd (index_of t p) = k /\ pos (index_of t p) = p /\ length (fst (index_of t p)) = dims.
  Proof.
    intros t p k Hp Hk Ht S. assert (U : in_unit (map mod1 p)) by (apply Forall_forall; intros x Hx; apply in_map_iff in Hx; destruct Hx as (y & <- & _); apply mod1_range).
    assert (S' : same_mod1 p (map mod1 p)). { rewrite <- (floors_mod1 p) at 1. apply shifted_same. }
    assert (E : nth k frac [] = map mod1 p) by (apply unit_unique; [apply flen; auto|auto|apply (same_trans _ p); auto]).
    assert (F : find_at t (map mod1 p) = k).
    { unfold find_at. destruct (filter _ (seq 0 (length frac))) as [|k' t'] eqn:EF.
      - exfalso. assert (I : In k []); [|destruct I]. rewrite <- EF. apply filter_In. split; [apply in_seq; lia|]. rewrite Ht, Nat.eqb_refl, E. cbn. destruct (list_eq_dec Req_EM_T (map mod1 p) (map mod1 p)); auto.
      - assert (I : In k' (k' :: t')) by (left; auto). rewrite <- EF in I. apply filter_In in I. destruct I as [I1 I2]. apply in_seq in I1. apply andb_true_iff in I2. destruct I2 as [I2 I3]. apply Nat.eqb_eq in I2.
        destruct (list_eq_dec Req_EM_T (nth k' frac []) (map mod1 p)) as [E'|]; [|discriminate]. cbn. apply Huniq; auto; [lia|congruence|]. rewrite E', <- E. apply same_refl. }
    unfold index_of. cbn [snd fst]. split; auto. split; [|unfold floors; rewrite map_length; auto]. unfold pos. cbn [fst snd]. rewrite F, E. apply floors_mod1.
  Qed.
  Lemma index_of_pos : forall a, length (fst a) = dims -> (snd a < length frac)%nat -> index_of (tag (snd a)) (pos a) = a.
  Proof.
    intros [l k] Hl Hk. cbn [fst snd] in *. destruct (flen k Hk) as [F1 F2]. destruct (index_of_spec (tag k) (pos (l, k)) k) as (A & B & C); auto.
    - unfold pos. rewrite shifted_length. auto.
    - apply same_sym, shifted_same.
    - destruct (index_of (tag k) (pos (l, k))) as [l' k'] eqn:E. cbn [fst snd] in *. subst k'. unfold pos in B. cbn [fst snd] in B. apply shifted_inj in B; try congruence.
  Qed.
  Lemma surroundings : same_surroundings dims (map (cartesian cell) frac) cell i j.
  Proof.
    assert (PL : forall a, length (fst a) = dims -> (snd a < length frac)%nat -> length (pos a) = dims) by (intros a _ Ha; unfold pos; rewrite shifted_length; apply flen; auto).
    exists (fun a => index_of (tag (snd a)) (G (pos a))), (fun a => index_of (tag (snd a)) (H (pos a))). unfold pindex. rewrite map_length.
    assert (FW : forall (K : list R -> list R), (forall p, length p = dims -> length (K p) = dims) -> (forall k l, (k < length frac)%nat -> length l = dims -> exists k', (k' < length frac)%nat /\ tag k' = tag k /\ same_mod1 (nth k' frac []) (K (shifted l (nth k frac [])))) ->
      forall a, length (fst a) = dims -> (snd a < length frac)%nat -> let b := index_of (tag (snd a)) (K (pos a)) in (length (fst b) = dims /\ (snd b < length frac)%nat) /\ tag (snd b) = tag (snd a) /\ pos b = K (pos a)).
    { intros K KL KS [l k] A1 A2 b. cbn [fst snd] in *. destruct (KS k l A2 A1) as (k' & K1 & K2 & K3). destruct (index_of_spec (tag k) (K (pos (l, k))) k') as (B1 & B2 & B3); auto.
      fold b in B1, B2, B3. rewrite B1. repeat split; auto. }
    split; [|split].
    - intros a [A1 A2]. destruct (FW G HGl HG a A1 A2) as (B1 & B2 & B3). split; auto. rewrite B2, B3, HHG by auto. apply index_of_pos; auto.
    - intros a [A1 A2]. destruct (FW H HHl HH a A1 A2) as (B1 & B2 & B3). split; auto. rewrite B2, B3, HGH by auto. apply index_of_pos; auto.
    - intros a [A1 A2]. destruct (FW G HGl HG a A1 A2) as (B1 & B2 & B3). set (b := index_of (tag (snd a)) (G (pos a))) in *. clearbody b. destruct a as [l k], b as [l' k']. cbn [fst snd] in *. destruct B1 as [B0 B1].
      destruct (flen k A2) as [F1 _]. destruct (flen k' B1) as [F1' _]. rewrite !ppoint_shifted by auto. unfold pos in B3. cbn [fst snd] in B3. rewrite B3.
      assert (N : forall m, (m < length frac)%nat -> nth m (map (cartesian cell) frac) [] = cartesian cell (nth m frac [])) by (intros m Hm; rewrite (nth_indep _ [] (cartesian cell [])) by (rewrite map_length; auto); apply map_nth).
      rewrite !N by auto. rewrite <- Hij. symmetry. apply Hiso; [apply flen; auto|rewrite shifted_length; auto].
  Qed.
End Surroundings.

(** ** Runs *)
Lemma runs_rep : forall origin starts mult, runs origin starts mult -> exists rep,
  (forall k, (k < length origin)%nat -> (rep k < length starts)%nat /\ nth k origin 0%nat = nth (nth (rep k) starts 0%nat) origin 0%nat /\ (nth (rep k) starts 0%nat < length origin)%nat) /\
  (forall a, (a < length starts)%nat -> nth a mult 0%nat = count_occ Nat.eq_dec (map rep (seq 0 (length origin))) a).
Proof.
  intros origin starts mult [RL RS RO RC RM].
  set (inside := fun a k => (Nat.leb (nth a starts 0%nat) k && Nat.ltb k (nth a starts 0%nat + nth a mult 0%nat))%bool).
  assert (IN : forall a k, inside a k = true <-> (nth a starts 0%nat <= k < nth a starts 0%nat + nth a mult 0%nat)%nat). { intros a k. unfold inside. rewrite andb_true_iff, Nat.leb_le, Nat.ltb_lt. lia. }
  set (rep := fun k => hd 0%nat (filter (fun a => inside a k) (seq 0 (length starts)))).
  assert (UN : forall a b k, (a < length starts)%nat -> (b < length starts)%nat -> inside a k = true -> inside b k = true -> a = b).
  { intros a b k Ha Hb Ia Ib. apply IN in Ia. apply IN in Ib. destruct (Nat.lt_trichotomy a b) as [L|[L|L]]; auto; [pose proof (RO a b ltac:(lia))|pose proof (RO b a ltac:(lia))]; lia. }
  assert (RP : forall a k, (a < length starts)%nat -> inside a k = true -> rep k = a).
  { intros a k Ha Ia. unfold rep. destruct (filter _ _) as [|b t] eqn:E.
    - exfalso. assert (I : In a []); [|destruct I]. rewrite <- E. apply filter_In. split; auto. apply in_seq. lia.
    - assert (I : In b (b :: t)) by (left; auto). rewrite <- E in I. apply filter_In in I. destruct I as [I1 I2]. apply in_seq in I1. cbn. apply (UN b a k); auto. lia. }
  exists rep. split.
  - intros k Hk. destruct (RC k Hk) as (a & Ha & Hak). apply IN in Hak. rewrite (RP a k Ha Hak). split; auto. destruct (RS a Ha) as (S1 & S2 & S3). split; [|auto]. apply S3; auto. apply IN; auto.
  - intros a Ha. destruct (RS a Ha) as (S1 & S2 & S3).
    assert (END : (nth a starts 0 + nth a mult 0 <= length origin)%nat).
    { destruct (le_lt_dec (nth a starts 0%nat + nth a mult 0%nat)%nat (length origin)) as [|L]; auto. exfalso.
      (* count the points of all runs *)
      set (pts := flat_map (fun b => map (fun d => (nth b starts 0 + d)%nat) (seq 0 (nth b mult 0%nat))) (seq 0 (length starts))).
      assert (LP : length pts = length origin).
      { unfold pts. rewrite <- RM. transitivity (fold_right plus 0%nat (map (fun b => nth b mult 0%nat) (seq 0 (length starts)))); [|rewrite RL, map_nth_seq; auto]. generalize (seq 0 (length starts)). induction l as [|b l IH]; auto. cbn. rewrite app_length, map_length, seq_length, IH. auto. }
      assert (PI : forall k, In k pts <-> exists b, (b < length starts)%nat /\ inside b k = true).
      { intros k. unfold pts. rewrite in_flat_map. split.
        - intros (b & Hb & Hk). apply in_seq in Hb. apply in_map_iff in Hk. destruct Hk as (d & <- & Hd). apply in_seq in Hd. exists b. split; [lia|]. apply IN. lia.
        - intros (b & Hb & Hk). apply IN in Hk. exists b. split; [apply in_seq; lia|]. apply in_map_iff. exists (k - nth b starts 0)%nat. split; [lia|]. apply in_seq. lia. }
      assert (NI : incl (seq 0 (S (length origin))) pts).
      { intros k Hk. apply in_seq in Hk. apply PI. destruct (Nat.eq_dec k (length origin)) as [->|]; [|destruct (RC k ltac:(lia)) as (b & Hb & Hbk); exists b; split; auto; apply IN; auto].
        exists a. split; auto. apply IN. lia. }
      pose proof (NoDup_incl_length (seq_NoDup _ _) NI) as NL. rewrite seq_length in NL. lia. }
    assert (CT : forall n s, count_occ Nat.eq_dec (map rep (seq s n)) a = length (filter (fun k => Nat.eqb (rep k) a) (seq s n))).
    { induction n as [|n IH]; intros s; auto. cbn [seq map filter]. destruct (Nat.eqb_spec (rep s) a) as [E|E].
      - rewrite count_occ_cons_eq by auto. cbn [length]. rewrite IH. auto.
      - rewrite count_occ_cons_neq by auto. apply IH. }
    rewrite CT.
    assert (P : Permutation (filter (fun k => Nat.eqb (rep k) a) (seq 0 (length origin))) (seq (nth a starts 0%nat) (nth a mult 0%nat))).
    { apply NoDup_Permutation; [apply NoDup_filter, seq_NoDup|apply seq_NoDup|]. intros k. rewrite filter_In, !in_seq, Nat.eqb_eq. split.
      - intros [K1 K2]. destruct (RC k ltac:(lia)) as (b & Hb & Hbk). apply IN in Hbk. rewrite (RP b k Hb Hbk) in K2. subst b. apply IN in Hbk. lia.
      - intros K. split; [lia|]. apply RP; auto. apply IN. lia. }
    rewrite (Permutation_length P), seq_length. auto.
Qed.
