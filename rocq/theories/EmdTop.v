(** EMD on matrices: from the result of the call to an optimal flow. *)
From Coq Require Import List ZArith Arith Bool Reals Lia Lra Permutation FinFun.
From Verif Require Import Num Outcome Base NNModel CalcModel EmdModel VecR Sums SpecEmd SpecCalc CalcProofs EmdInit EmdCert EmdMain EmdReal EmdRun
  Transport EmdThm EmdSym.
Import ListNotations.
Open Scope R_scope.

(** ** More fuel gives the same result *)
Lemma pivots_mono : forall N inner f st r k, pivots N f inner st = Done r -> pivots N (f + k) inner st = Done r.
Proof.
  induction f as [|f IH]; intros st r k H; [discriminate|]. cbn [pivots Nat.add] in *.
  destruct (pivot N inner st) as [[st'|]| | |]; cbn [obind] in *; try discriminate; auto.
Qed.

Lemma simplex_mono : forall f k src snk cost cap r, simplex f src snk cost cap = Done r -> simplex (f + k) src snk cost cap = Done r.
Proof.
  intros f k src snk cost cap r. unfold simplex. cbv zeta.
  destruct (pivots _ f _ _) as [st| | |] eqn:E; try discriminate. intros H. rewrite (pivots_mono _ _ _ _ _ k E). exact H.
Qed.

Lemma network_simplex_mono : forall f k w1 w2 c r, network_simplex f w1 w2 c = Done r -> network_simplex (f + k) w1 w2 c = Done r.
Proof.
  intros f k w1 w2 c r. unfold network_simplex. destruct (balance (map to_fp w1) (map to_fp w2)) as [s t].
  destruct (simplex f s t _ _) as [fl| | |] eqn:E; try discriminate. intros H. rewrite (simplex_mono _ k _ _ _ _ _ E). exact H.
Qed.

Lemma network_simplex_done : forall fuel w1 w2 c v plan, weights w1 -> weights w2 -> cost_matrix (length w1) (length w2) c ->
  network_simplex fuel w1 w2 c = Done (v, plan) -> exists X,
    length plan = length w1 /\ Forall (fun r => length r = length w2) plan /\
    (forall i j, (i < length w1)%nat -> (j < length w2)%nat -> mx plan i j = planR X i j) /\
    v = transport_cost (length w1) (length w2) (fun i j => of_fp (to_fp (mx c i j))) (planR X) /\ run w1 w2 (mx c) X.
Proof.
  intros fuel w1 w2 c v plan W1 W2 HC H.
  set (b := run_bound w1 w2 c).
  destruct (network_simplex_run w1 w2 c W1 W2 HC (fuel + S (Z.to_nat b))) as (v' & plan' & X & E & R); [fold b; lia|].
  rewrite (network_simplex_mono _ _ _ _ _ _ H) in E. injection E as <- <-. exists X. exact R.
Qed.

(** ** Rows *)
Lemma weights_weights : forall k p, pdd_like k p -> weights (weights_of p).
Proof.
  intros k p [H1 H2 H3 H4]. constructor.
  - unfold weights_of. destruct p; [congruence|discriminate].
  - unfold weights_of. apply Forall_map. exact H3.
  - unfold weights_of. rewrite map_length. rewrite <- H4. apply Sum_ext. intros i Hi. unfold vx, mx.
    rewrite (nth_indep _ 0 (nth 0 ([] : list R) 0)) by (now rewrite map_length). apply (map_nth (fun r => nth 0 r 0)).
Qed.

Lemma weights_vx : forall p i, (i < length p)%nat -> vx (weights_of p) i = mx p i 0.
Proof.
  intros p i Hi. unfold vx, mx, weights_of.
  rewrite (nth_indep _ 0 (nth 0 ([] : list R) 0)) by (now rewrite map_length). apply (map_nth (fun r => nth 0 r 0)).
Qed.

Lemma weights_len : forall p, length (weights_of p) = length p.
Proof. intros. apply map_length. Qed.

Lemma cheb_ge : forall (u v : list R) t, (t < length u)%nat -> length u = length v -> Rabs (nth t u 0 - nth t v 0) <= cheb u v.
Proof. intros u v t Ht Hl. destruct (proj1 (cheb_le u v (cheb u v) Hl) (Rle_refl _)) as [_ H]. apply H. auto. Qed.

Lemma fold_max_ex : forall l a, fold_left (fun s x : R => nmax s x) l a = a \/ In (fold_left (fun s x : R => nmax s x) l a) l.
Proof.
  induction l as [|b l IH]; intros a; [left; reflexivity|]. cbn [fold_left]. rewrite nmax_Rmax.
  destruct (IH (Rmax a b)) as [E|E]; [|right; right; exact E]. rewrite E. unfold Rmax. destruct (Rle_dec a b); auto. right. left. auto.
Qed.

Lemma cheb_spec : forall k (u v : list R), length u = k -> length v = k -> is_chebyshev k u v (cheb u v).
Proof.
  intros k u v H1 H2. split; [intros t Ht; apply cheb_ge; lia|].
  change (cheb u v) with (fold_left (fun s x : R => nmax s x) (map2 (fun a b : R => nabs (nsub a b)) u v) 0).
  destruct (fold_max_ex (map2 (fun a b => nabs (nsub a b)) u v) 0) as [E|E]; [left; exact E|right].
  apply (In_nth _ _ 0) in E as (t & Ht & E). rewrite map2_length in Ht. exists t. split; [lia|]. rewrite <- E.
  assert (Hl : length u = length v) by lia. clear - Ht Hl. revert v t Ht Hl.
  induction u as [|a u IH]; intros [|b v] t Ht Hl; simpl in Hl, Ht; try lia. destruct t; cbn [map2 nth]; [apply nabs_Rabs|].
  apply IH; lia.
Qed.

Lemma chebyshev_unique : forall k u v d d', is_chebyshev k u v d -> is_chebyshev k u v d' -> d = d'.
Proof.
  assert (H : forall k u v d d', is_chebyshev k u v d -> is_chebyshev k u v d' -> d <= d').
  { intros k u v d d' [A [E|(t & Ht & E)]] [A' B'].
    - destruct B' as [->|(t & Ht & ->)]; [lra|]. rewrite E. apply Rabs_pos.
    - rewrite E. auto. }
  intros. apply Rle_antisym; eauto.
Qed.

Section Args.
  Variables (k : nat) (p q : list (list R)).
  Hypothesis P : pdd_like k p.
  Hypothesis Q : pdd_like k q.

  Definition dm : list (list R) := map (fun u => map (fun v => cheb u v) (rows_of q)) (rows_of p).

  Lemma tl_len : forall r p', pdd_like k p' -> In r p' -> length (tl r) = k.
  Proof.
    intros r p' [_ H _ _] Hr. rewrite Forall_forall in H. specialize (H r Hr). destruct r; simpl in *; lia.
  Qed.

  Lemma width_pdd : forall p', pdd_like k p' -> width (rows_of p') = k.
  Proof.
    intros p' H. destruct p' as [|r p']; [destruct (pl_rows _ _ H); auto|]. apply (tl_len r (r :: p') H). left. auto.
  Qed.

  Lemma EMD_dm : forall fuel, EMD fuel p q = network_simplex fuel (weights_of p) (weights_of q) dm.
  Proof. intros fuel. unfold EMD, cdist_cheb. rewrite !width_pdd, Nat.eqb_refl by auto. reflexivity. Qed.

  Lemma dm_cheb : forall i j, (i < length p)%nat -> (j < length q)%nat -> mx dm i j = cheb (tl (nth i p [])) (tl (nth j q [])).
  Proof.
    intros i j Hi Hj. unfold mx, dm, rows_of. rewrite !map_map.
    rewrite (nth_indep _ [] ((fun r => map (fun v => cheb (tl r) v) (map (@tl R) q)) [])) by (now rewrite map_length).
    rewrite (map_nth (fun r => map (fun v => cheb (tl r) v) (map (@tl R) q))). rewrite map_map.
    rewrite (nth_indep _ 0 (cheb (tl (nth i p [])) (tl []))) by (now rewrite map_length).
    apply (map_nth (fun r => cheb (tl (nth i p [])) (tl r))).
  Qed.

  Lemma dm_dist : row_distance k p q (mx dm).
  Proof.
    intros i j Hi Hj. rewrite dm_cheb by auto. apply cheb_spec; [apply (tl_len _ p P) | apply (tl_len _ q Q)]; apply nth_In; auto.
  Qed.

  Lemma dm_unique : forall d, row_distance k p q d -> forall i j, (i < length p)%nat -> (j < length q)%nat -> d i j = mx dm i j.
  Proof. intros d H i j Hi Hj. eapply chebyshev_unique; [apply H | apply dm_dist]; auto. Qed.

  Lemma chebyshev_pos : forall k u v d, is_chebyshev k u v d -> 0 <= d.
  Proof. intros k' u v d [_ [->|(t & _ & ->)]]; [lra|apply Rabs_pos]. Qed.

  Lemma dm_matrix : cost_matrix (length (weights_of p)) (length (weights_of q)) dm.
  Proof.
    rewrite !weights_len. constructor.
    - unfold dm, rows_of. now rewrite !map_length.
    - unfold dm. apply Forall_forall. intros r Hr. apply in_map_iff in Hr as (u & <- & _). unfold rows_of. now rewrite !map_length.
    - intros i j Hi Hj. eapply chebyshev_pos. apply dm_dist; auto.
  Qed.

  (** The call returns. *)
  Lemma EMD_returns : exists v plan, exists F, forall fuel, (F <= fuel)%nat -> EMD fuel p q = Done (v, plan).
  Proof.
    set (b := run_bound (weights_of p) (weights_of q) dm).
    destruct (network_simplex_run (weights_of p) (weights_of q) dm (weights_weights k p P) (weights_weights k q Q) dm_matrix (S (Z.to_nat b)))
      as (v & plan & X & E & _); [fold b; lia|].
    exists v, plan, (S (Z.to_nat b)). intros fuel Hf. rewrite EMD_dm.
    replace fuel with (S (Z.to_nat b) + (fuel - S (Z.to_nat b)))%nat by lia. now apply network_simplex_mono.
  Qed.

  Variable d : nat -> nat -> R.
  Hypothesis D : row_distance k p q d.
  Notation n1 := (length p).
  Notation n2 := (length q).
  Notation w1 := (weights_of p).
  Notation w2 := (weights_of q).

  Lemma run_ext : forall c c' X, (forall i j, (i < length w1)%nat -> (j < length w2)%nat -> c i j = c' i j) -> run w1 w2 c X -> run w1 w2 c' X.
  Proof.
    intros c c' X E (ls & ld & ps & pd & big & K). exists ls, ld, ps, pd, big. eapply cert_ext; [| | | |exact K]; auto.
    intros i j Hi Hj. cbv beta. now rewrite E.
  Qed.

  Lemma EMD_done : forall fuel v plan, EMD fuel p q = Done (v, plan) -> exists X,
    length plan = n1 /\ Forall (fun r => length r = n2) plan /\
    (forall i j, (i < n1)%nat -> (j < n2)%nat -> mx plan i j = planR X i j) /\
    v = transport_cost n1 n2 (fun i j => of_fp (to_fp (d i j))) (planR X) /\ run w1 w2 d X.
  Proof.
    intros fuel v plan H. rewrite EMD_dm in H.
    destruct (network_simplex_done _ _ _ _ _ _ (weights_weights k p P) (weights_weights k q Q) dm_matrix H) as (X & H1 & H2 & H3 & H4 & H5).
    rewrite !weights_len in *. exists X. split; auto. split; auto. split; auto. split.
    - rewrite H4. apply cost_ext; auto. intros i j Hi Hj. now rewrite (dm_unique d D i j Hi Hj).
    - eapply run_ext; [|exact H5]. intros i j Hi Hj. rewrite weights_len in Hi, Hj. symmetry. now apply dm_unique.
  Qed.

  Lemma d_pos : forall i j, (i < n1)%nat -> (j < n2)%nat -> 0 <= d i j.
  Proof. intros i j Hi Hj. eapply chebyshev_pos. apply D; auto. Qed.
End Args.
