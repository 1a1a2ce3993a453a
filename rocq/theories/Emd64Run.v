(** The pivots of the 64-bit solver, and when it computes what the unbounded solver computes. *)
From Coq Require Import List ZArith Bool Lia Reals Lra.
From Verif Require Import Outcome EmdModel Emd64Model EmdArr EmdTree EmdOps EmdPath EmdSurgery EmdFlow EmdCycle EmdPivot EmdTerm EmdOpt EmdInit EmdCert
  EmdMain Emd64Proofs.
Import ListNotations.
Open Scope outcome_scope.
Open Scope Z_scope.

Lemma getZ_In : forall (l : list Z) i v, getZ l i = Done v -> In v l.
Proof.
  intros l i v. unfold getZ. destruct (_ <? 0); [discriminate|]. destruct (nth_error l _) eqn:E; [|discriminate].
  intros H. inversion H; subst. eapply nth_error_In; eauto.
Qed.

Section Net.
  Variable N : net.
  Notation e := (n_arcs N).
  Hypothesis HB : 1 <= block N <= e.
  Hypothesis He : 4 * e < int64_half.

  Lemma block_edges_eq : forall f, 0 <= f <= e -> block_edges64 N f = block_edges N f /\
    (forall i, In i (fst (block_edges N f)) -> 0 <= i < e) /\ 0 <= snd (block_edges N f) <= e.
  Proof.
    intros f Hf. assert (W : wrap (f + block N) = f + block N) by (apply wrap_id; w64; lia).
    unfold block_edges64, block_edges. rewrite W. cbv zeta. destruct (Z.leb_spec (f + block N) e) as [K|K].
    - split; [reflexivity|]. cbn [fst snd]. split; [|lia]. intros i Hi. apply arange_in in Hi. lia.
    - rewrite (wrap_id (f + block N - e)) by (w64; lia). split; [reflexivity|]. cbn [fst snd]. split; [|lia].
      intros i Hi. apply in_app_or in Hi. destruct Hi as [Hi|Hi]; apply arange_in in Hi; lia.
  Qed.

  Lemma n_blocks_eq : n_blocks64 N = n_blocks N.
  Proof.
    unfold n_blocks64, n_blocks. rewrite (wrap_id (e + block N)) by (w64; lia). now rewrite wrap_id by (w64; lia).
  Qed.

  Section Search.
    Variables pots flows : list Z.
    Hypothesis HR : forall i, 0 <= i < e -> reduced_cost64 N pots flows i = reduced_cost N pots flows i.

    Lemma best_edge_eq : forall js i c, (forall j, In j js -> 0 <= j < e) ->
      best_edge64 N pots flows i c js = best_edge N pots flows i c js.
    Proof.
      induction js as [|j js IH]; intros i c H; [reflexivity|]. cbn [best_edge64 best_edge].
      rewrite HR by (apply H; simpl; auto). destruct (reduced_cost N pots flows j); cbn [obind]; try reflexivity.
      destruct (a <? c); apply IH; intros; apply H; simpl; auto.
    Qed.

    Lemma find_entering_eq : forall k f, 0 <= f <= e -> find_entering64 N k pots flows f = find_entering N k pots flows f.
    Proof.
      induction k as [|k IH]; intros f Hf; [reflexivity|]. cbn [find_entering64 find_entering].
      destruct (block_edges_eq f Hf) as (-> & Hin & Hs). destruct (block_edges N f) as [inds f']. cbn [fst snd] in *.
      destruct inds as [|i0 js]; [reflexivity|]. rewrite HR by (apply Hin; simpl; auto).
      destruct (reduced_cost N pots flows i0) as [c0| | |]; cbn [obind]; try reflexivity.
      rewrite best_edge_eq by (intros; apply Hin; simpl; auto).
      destruct (best_edge N pots flows i0 c0 js) as [[i c]| | |]; cbn [obind]; try reflexivity.
      destruct (0 <=? c); [apply IH; auto|reflexivity].
    Qed.

    Lemma find_entering_edges_eq : forall f, 0 <= f <= e -> find_entering_edges64 N pots flows f = find_entering_edges N pots flows f.
    Proof. intros f Hf. unfold find_entering_edges64, find_entering_edges. rewrite n_blocks_eq. now apply find_entering_eq. Qed.
  End Search.

  Section Leaving.
    Variable flows : list Z.
    Hypothesis HF : Forall (fun f => 0 <= f <= FP) flows.
    Hypothesis HC : Forall (fun f => 0 <= f <= FP) (capac N).

    Lemma residual_eq : forall j s, residual64 N flows j s = residual N flows j s.
    Proof.
      intros j s. unfold residual64, residual. destruct (getZ (tails N) j); cbn [obind]; try reflexivity.
      destruct (a =? s); [|reflexivity]. destruct (getZ (capac N) j) as [c| | |] eqn:E1; cbn [obind]; try reflexivity.
      destruct (getZ flows j) as [f| | |] eqn:E2; cbn [obind]; try reflexivity. f_equal. apply wrap_id.
      apply getZ_In in E1, E2. rewrite Forall_forall in HF, HC. apply HF in E2. apply HC in E1. unfold FP in *. w64. lia.
    Qed.

    Lemma leaving_loop_eq : forall rest j s m, leaving_loop64 N flows j s m rest = leaving_loop N flows j s m rest.
    Proof.
      induction rest as [|[j' s'] rest IH]; intros j s m; [reflexivity|]. cbn [leaving_loop64 leaving_loop].
      rewrite residual_eq. destruct (residual N flows j' s'); cbn [obind]; try reflexivity. destruct (a <? m); apply IH.
    Qed.

    Lemma find_leaving_edge_eq : forall cycle, find_leaving_edge64 N flows cycle = find_leaving_edge N flows cycle.
    Proof.
      intros [|[j s] rest]; [reflexivity|]. cbn [find_leaving_edge64 find_leaving_edge]. rewrite residual_eq.
      destruct (residual N flows j s); cbn [obind]; try reflexivity. now rewrite leaving_loop_eq.
    Qed.
  End Leaving.

  (** States in which nothing is out of range. *)
  Record in_range (st : state) : Prop := {
    ir_pos : 0 <= pos st <= e;
    ir_flows : Forall (fun f => 0 <= f <= FP) (flows st);
    ir_size : Forall fits (size (tree st));
    ir_pots : Forall fits (potentials st);
    ir_rc : forall i, 0 <= i < e -> reduced_cost64 N (potentials st) (flows st) i = reduced_cost N (potentials st) (flows st) i
  }.
  Hypothesis HC : Forall (fun f => 0 <= f <= FP) (capac N).

  Lemma fp_fits : forall l, Forall (fun f => 0 <= f <= FP) l -> Forall fits l.
  Proof. intros l H. eapply Forall_impl; [|exact H]. intros a Ha. unfold FP in Ha. w64. lia. Qed.

  Lemma wts_id : forall ts, Forall fits (size ts) -> wts ts = ts.
  Proof. intros [pa sz nx la pv ed] H. unfold wts. cbn [parent size next_node last_node prev_node edge] in *. now rewrite map_wrap_id. Qed.

  Definition wst (st : state) : state :=
    {| flows := map wrap (flows st); potentials := map wrap (potentials st); tree := wts (tree st); pos := pos st |}.

  Lemma wst_id : forall st, in_range st -> wst st = st.
  Proof.
    intros [fl po ts ps] [_ h1 h2 h3 _]. unfold wst. cbn [flows potentials tree pos] in *.
    rewrite !map_wrap_id, wts_id; auto using fp_fits.
  Qed.

  Lemma pivot_map : forall fuel st, in_range st -> pivot64 N fuel st = om (option_map wst) (pivot N fuel st).
  Proof.
    intros fuel st H. pose proof H as [h1 h2 h3 h4 h5]. unfold pivot64, pivot. rewrite find_entering_edges_eq by auto.
    destruct (find_entering_edges N (potentials st) (flows st) (pos st)) as [[[[[i p] q] f]|]| | |]; cbn [obind om option_map]; try reflexivity.
    destruct (find_cycle fuel (tree st) i p q) as [[nodes edges]| | |]; cbn [obind om]; try reflexivity.
    rewrite find_leaving_edge_eq by auto.
    destruct (find_leaving_edge N (flows st) (combine edges nodes)) as [[[j s] t]| | |]; cbn [obind om]; try reflexivity.
    rewrite residual_eq by auto. destruct (residual N (flows st) j s) as [r| | |]; cbn [obind om]; try reflexivity.
    rewrite <- (map_wrap_id (flows st)) at 1 by auto using fp_fits. rewrite (augment_map N _ (flows st) r r eq_refl).
    destruct (augment N (flows st) r (combine edges nodes)) as [fl| | |]; cbn [obind om]; try reflexivity.
    destruct (i =? j).
    - cbn [om option_map]. unfold wst. cbn [flows potentials tree pos]. rewrite (map_wrap_id (potentials st)), wts_id by auto. reflexivity.
    - destruct (getZ (parent (tree st)) t) as [pt| | |]; cbn [obind om]; try reflexivity.
      destruct (if pt =? s then (s, t) else (t, s)) as [s' t']. destruct (if leaves_first edges i j then (q, p) else (p, q)) as [p' q'].
      rewrite <- (wts_id (tree st)) at 1 by auto. rewrite remove_edge_map.
      destruct (remove_edge fuel (tree st) s' t') as [ts1| | |]; cbn [obind om]; try reflexivity. rewrite make_root_map.
      destruct (make_root fuel ts1 q') as [ts2| | |]; cbn [obind om]; try reflexivity. rewrite add_edge_map.
      destruct (add_edge fuel ts2 i p' q') as [ts3| | |]; cbn [obind om]; try reflexivity.
      rewrite <- (map_wrap_id (potentials st)) at 1 by auto. rewrite update_map.
      destruct (update_potentials N fuel (potentials st) ts3 i p' q') as [po| | |]; cbn [obind om]; reflexivity.
  Qed.

  Lemma pivots_eq : forall inner fuel st, (forall st', reach N inner st st' -> in_range st') ->
    pivots64 N fuel inner st = pivots N fuel inner st.
  Proof.
    intros inner. induction fuel as [|fuel IH]; intros st H; [reflexivity|]. cbn [pivots64 pivots].
    rewrite pivot_map by (apply H; constructor). destruct (pivot N inner st) as [[st'|]| | |] eqn:E; cbn [om option_map obind]; try reflexivity.
    rewrite wst_id by (apply H; eapply reach_step; [exact E|constructor]). apply IH. intros st2 H2. apply H. eapply reach_step; eauto.
  Qed.
End Net.

(** * Bounds on the states of a run *)
Lemma earr_Forall : forall n l f (P : Z -> Prop), earr n l f -> (forall v, 0 <= v < n -> P (f v)) -> Forall P l.
Proof.
  intros n l f P [L A] H. apply Forall_forall. intros a Ha. apply (In_nth _ _ 0) in Ha. destruct Ha as (k & Hk & <-).
  rewrite (arr_0_get l f k A Hk). apply H. lia.
Qed.

Lemma narr_Forall : forall n l f (P : Z -> Prop), narr n l f -> (forall v, -1 <= v < n -> P (f v)) -> Forall P l.
Proof.
  intros n l f P [L A] H. apply Forall_forall. intros a Ha. apply (In_nth_error) in Ha. destruct Ha as (k & Hk).
  assert (Hk' : (k < length l)%nat) by (apply nth_error_Some; congruence).
  set (v := if Z.of_nat k =? n then -1 else Z.of_nat k).
  assert (Hv : -1 <= v < n) by (unfold v; destruct (Z.eqb_spec (Z.of_nat k) n); lia).
  destruct A as [_ A]. specialize (A v ltac:(lia)). specialize (H v Hv). unfold getZ in A.
  replace (if v <? 0 then v + Z.of_nat (length l) else v) with (Z.of_nat k) in A.
  2: { unfold v in *. destruct (Z.eqb_spec (Z.of_nat k) n); [|destruct (Z.ltb_spec (Z.of_nat k) 0); lia]. change (-1 <? 0) with true. cbv iota. lia. }
  destruct (Z.ltb_spec (Z.of_nat k) 0); [lia|]. rewrite Nat2Z.id, Hk in A. inversion A. congruence.
Qed.

Lemma rc_eq : forall N pots flows i c C P, getZ (costs N) i = Done c -> 0 <= c <= C -> Forall (fun p => Z.abs p <= P) pots ->
  C + 2 * P < int64_half -> reduced_cost64 N pots flows i = reduced_cost N pots flows i.
Proof.
  intros N pots flows i c C P Ec Hc HP HC. unfold reduced_cost64, reduced_cost. rewrite Ec. cbn [obind].
  destruct (getZ (tails N) i) as [t| | |]; cbn [obind]; try reflexivity.
  destruct (getZ pots t) as [pt| | |] eqn:E1; cbn [obind]; try reflexivity.
  destruct (getZ (heads N) i) as [h| | |]; cbn [obind]; try reflexivity.
  destruct (getZ pots h) as [ph| | |] eqn:E2; cbn [obind]; try reflexivity.
  destruct (getZ flows i) as [f| | |]; cbn [obind]; try reflexivity.
  apply getZ_In in E1, E2. rewrite Forall_forall in HP. apply HP in E1, E2. cbv zeta.
  rewrite wrap_add_l, (wrap_id (c - pt + ph)) by (w64; lia). rewrite wrap_id by (w64; lia). reflexivity.
Qed.

Lemma zsum_ge_len : forall l, Forall (fun a => 1 <= a) l -> Z.of_nat (length l) <= zsum l.
Proof. induction 1 as [|a l Ha H IH]; [simpl; lia|]. cbn [length zsum fold_right]. fold zsum. unfold zsum in *. lia. Qed.

Section Bounds.
  Variables src snk cost cap : list Z.
  Hypothesis B : balanced src snk cost cap.
  Notation N := (make_net src snk cost cap).
  Notation I := (inst_of src snk cost cap).
  Notation n := (ns I + nd I).
  Notation e := (ns I * nd I).
  Notation m := (e + n).
  Notation M := (faux_inf src snk cost cap).
  Hypothesis HM : 3 * M < int64_half.

  Lemma cap_pos : Forall (fun a => 1 <= a) cap.
  Proof.
    apply Forall_forall. intros a Ha. apply (In_nth _ _ 0) in Ha. destruct Ha as (k & Hk & <-).
    pose proof B as [_ _ _ _ _ _ _ Lp _ Hc]. rewrite Lp in Hk.
    assert (Hd : length snk <> 0%nat) by (intros E; rewrite E in Hk; lia).
    pose proof (Nat.div_mod k (length snk) Hd) as E. pose proof (Nat.mod_upper_bound k (length snk) Hd) as U.
    assert (k / length snk < length src)%nat by (apply Nat.div_lt_upper_bound; lia).
    replace k with (k / length snk * length snk + k mod length snk)%nat by lia. apply Hc; auto.
  Qed.

  Lemma e_len : e = Z.of_nat (length cap).
  Proof. rewrite (b_lcap _ _ _ _ B). cbn [ns nd inst_of]. lia. Qed.

  Lemma sums_bound : 3 * zsum cost <= M /\ 3 * zsum cap <= M /\ 3 * maxz src <= M /\ 3 * maxz snk <= M /\ 1 <= M /\ 0 <= zsum cost.
  Proof.
    pose proof (big_bound _ _ _ _ B) as [b1 b2]. cbn [big inst_of] in b1.
    assert (0 <= zsum cost) by (apply zsum_nonneg; apply B). unfold faux_inf in *. lia.
  Qed.

  Lemma e_bound : 1 <= e /\ 3 * e <= M /\ n <= e + 1.
  Proof.
    pose proof (zsum_ge_len cap cap_pos). pose proof sums_bound. rewrite e_len at 2.
    pose proof (ns_pos _ _ _ _ B). pose proof (nd_pos _ _ _ _ B). nia.
  Qed.

  Lemma zsum_nth : forall l k, Forall (fun a => 1 <= a) l -> (k < length l)%nat -> nth k l 0 <= zsum l.
  Proof.
    intros l k H. revert k. induction H as [|a l Ha H IH]; intros k Hk; [simpl in Hk; lia|].
    pose proof (zsum_ge_len l H). unfold zsum in *. cbn [fold_right]. destruct k; cbn [nth]; [lia|].
    specialize (IH k ltac:(simpl in Hk; lia)). lia.
  Qed.

  Lemma capac_bound : Forall (fun a => 0 <= a <= FP) (capac N).
  Proof.
    cbn [capac make_net]. apply Forall_app. split.
    - apply Forall_forall. intros a Ha. apply (In_nth _ _ 0) in Ha. destruct Ha as (k & Hk & <-).
      pose proof B as [_ _ Ps _ _ Ht _ Lp _ Hc]. rewrite Lp in Hk.
      assert (Hd : length snk <> 0%nat) by (intros E; rewrite E in Hk; lia).
      pose proof (Nat.div_mod k (length snk) Hd) as E. pose proof (Nat.mod_upper_bound k (length snk) Hd) as U.
      assert (K : (k / length snk < length src)%nat) by (apply Nat.div_lt_upper_bound; lia).
      replace k with (k / length snk * length snk + k mod length snk)%nat by lia. destruct (Hc _ _ K U) as (h1 & h2 & _).
      pose proof (zsum_nth src _ Ps K). lia.
    - apply Forall_forall. intros a Ha. apply in_map_iff in Ha. destruct Ha as (_ & <- & _). unfold FP. lia.
  Qed.

  Lemma inv_in_range : forall st F T x pi, Inv I st F T x pi -> in_range N st.
  Proof.
    intros st F T x pi [Hr Hx Hpi Hp HT HF]. pose proof (good_init _ _ _ _ B) as G. pose proof (netrep_init _ _ _ _ B) as NR.
    pose proof sums_bound as (s1 & s2 & s3 & s4 & s5 & s6). pose proof e_bound as (e1 & e2 & e3).
    pose proof (ns_pos _ _ _ _ B) as p1. pose proof (nd_pos _ _ _ _ B) as p2.
    pose proof NR as [_ NE _ _ _ NC NP].
    assert (Hsum : lsum (cst I) (arange 0 e) = zsum cost).
    { pose proof (b_lcost _ _ _ _ B) as Lc. replace e with (0 + Z.of_nat (length cost)) by (rewrite Lc; cbn [ns nd inst_of]; lia).
      rewrite <- (lsum_nthz cost 0). apply lsum_ext. intros a Ha. cbn [cst inst_of]. now rewrite Z.sub_0_r. }
    assert (Hone : forall a, 0 <= a < e -> 0 <= cst I a <= zsum cost).
    { intros a Ha. split; [apply (g_cst _ G); auto|]. rewrite <- Hsum. apply lsum_ge_one; [|apply arange_in; lia].
      intros b Hb. apply arange_in in Hb. apply (g_cst _ G); auto. }
    assert (HP : Forall (fun p => Z.abs p <= M + zsum cost) (potentials st)).
    { eapply earr_Forall; [exact Hpi|]. intros v Hv.
      destruct (pi_close I G F T x pi HT HF (zsum cost) (fun a Ha => proj2 (Hone a Ha)) v Hv) as (D & C1 & C2 & _).
      rewrite Hsum in C2. cbn [big inst_of] in C1. lia. }
    constructor.
    - rewrite NE. exact Hp.
    - eapply earr_Forall; [exact Hx|]. intros v Hv. pose proof (f_cap _ _ _ _ HF v Hv) as [f1 f2]. split; [exact f1|].
      eapply Z.le_trans; [exact f2|]. pose proof capac_bound as K. rewrite Forall_forall in K.
      apply K. apply (getZ_In _ v). apply (earr_get m _ _ v NP). lia.
    - destruct Hr as [_ r2 _ _ _ _]. eapply narr_Forall; [exact r2|]. intros v Hv.
      pose proof HT as [[Hok _] Tl Tn Tr _]. destruct (find_node T v) as (g & ts & E); [apply Tr; exact Hv|].
      assert (Ep : pre T = before g ++ pre (Node v ts) ++ after g) by (rewrite E at 1; apply pre_plug).
      assert (Es : fsz F v = Z.of_nat (length (pre (Node v ts)))).
      { rewrite E in Hok. apply ok_plug_inner in Hok. now apply ok_size_pos in Hok. }
      assert (L : (length (pre T) <= length (arange (-1) n))%nat).
      { apply NoDup_incl_length; auto. intros y Hy. apply Tr in Hy. unfold inr in Hy. apply arange_in. lia. }
      rewrite Ep, !app_length, arange_length in L. rewrite Es. w64. lia.
    - eapply Forall_impl; [|exact HP]. intros a Ha. cbv beta in Ha. w64. lia.
    - intros i Hi. rewrite NE in Hi.
      assert (Ec : getZ (costs N) i = Done (cst I i)).
      { rewrite (earr_get m _ _ i NC) by lia. f_equal. unfold cost_. destruct (Z.ltb_spec i e); lia. }
      apply (rc_eq N _ _ i _ (zsum cost) (M + zsum cost) Ec (Hone i Hi) HP). w64. lia.
  Qed.
End Bounds.

(** * Setting up *)
Lemma sum64_from : forall l s, fold_left (fun s a => wrap (s + a)) l s = match l with [] => s | _ => wrap (s + zsum l) end.
Proof.
  induction l as [|a l IH]; intros s; [reflexivity|]. cbn [fold_left]. rewrite IH. unfold zsum. cbn [fold_right].
  destruct l as [|b l]; [cbn [fold_right]; f_equal; lia|]. rewrite wrap_add_l. f_equal. lia.
Qed.

Lemma sum64_eq : forall l, fits (zsum l) -> sum64 l = zsum l.
Proof. intros [|a l] H; [reflexivity|]. unfold sum64. rewrite sum64_from. now apply wrap_id. Qed.

Lemma balance64_eq : forall a b, Forall (fun x => 0 <= x) a -> Forall (fun x => 0 <= x) b ->
  zsum a <= FP -> zsum b <= FP -> Forall (fun x => x <= FP) a -> Forall (fun x => x <= FP) b -> balance64 a b = balance a b.
Proof.
  intros a b Pa Pb Ha Hb Ma Mb. pose proof (zsum_nonneg a Pa) as A0. pose proof (zsum_nonneg b Pb) as B0. unfold FP in *.
  unfold balance64, balance. cbv zeta. rewrite !sum64_eq by (w64; lia). rewrite (wrap_id (zsum b - zsum a)) by (w64; lia).
  assert (Hadd : forall l d, Forall (fun x => 0 <= x) l -> Forall (fun x => x <= 100000000) l -> 0 <= d <= 100000000 -> add_at_max64 l d = add_at_max l d).
  { intros l d H0 H1 Hd. unfold add_at_max64, add_at_max. f_equal. apply wrap_id.
    assert (0 <= nth (argmax l) l 0 <= 100000000); [|w64; lia].
    destruct (Nat.lt_ge_cases (argmax l) (length l)) as [L|L]; [|rewrite nth_overflow by auto; lia].
    rewrite Forall_forall in H0, H1. split; [apply H0|apply H1]; now apply nth_In. }
  destruct (Z.ltb_spec 0 (zsum b - zsum a)); [rewrite Hadd by (auto; lia); reflexivity|].
  destruct (Z.ltb_spec (zsum b - zsum a) 0); [|reflexivity].
  rewrite (wrap_id (- (zsum b - zsum a))) by (w64; lia). rewrite Hadd by (auto; lia). reflexivity.
Qed.

Section Setup.
  Variables src snk cost cap : list Z.
  Hypothesis B : balanced src snk cost cap.
  Notation M := (faux_inf src snk cost cap).
  Hypothesis HM : M < int64_half.

  Lemma faux_inf_eq : faux_inf64 src snk cost cap = M.
  Proof.
    pose proof (sums_bound _ _ _ _ B) as (s1 & s2 & s3 & s4 & s5 & s6).
    assert (0 <= zsum cap) by (pose proof (zsum_ge_len cap (cap_pos _ _ _ _ B)); lia).
    unfold faux_inf64. rewrite !sum64_eq by (w64; lia). apply wrap_id. unfold faux_inf in *. w64. lia.
  Qed.

  Lemma src_fits : Forall (fun a => wrap (- a) = - a) src.
  Proof.
    pose proof B as [_ _ Ps _ _ Ht _ _ _ _]. apply Forall_forall. intros a Ha. apply (In_nth _ _ 0) in Ha. destruct Ha as (k & Hk & <-).
    pose proof (zsum_nth src k Ps Hk). rewrite Forall_forall in Ps. pose proof (Ps _ (nth_In src 0 Hk)). apply wrap_id. unfold FP in *. w64. lia.
  Qed.

  Lemma opp_eq : map (fun a => wrap (- a)) src = map Z.opp src.
  Proof. apply map_ext_in. intros a Ha. pose proof src_fits as H. rewrite Forall_forall in H. now apply H. Qed.

  Lemma n_eq : wrap (Z.of_nat (length src) + Z.of_nat (length snk)) = Z.of_nat (length src) + Z.of_nat (length snk).
  Proof. pose proof (e_bound _ _ _ _ B) as (e1 & e2 & e3). cbn [ns nd inst_of] in *. apply wrap_id. w64. lia. Qed.
  Lemma e_eq : wrap (Z.of_nat (length src) * Z.of_nat (length snk)) = Z.of_nat (length src) * Z.of_nat (length snk).
  Proof. pose proof (e_bound _ _ _ _ B) as (e1 & e2 & e3). cbn [ns nd inst_of] in *. apply wrap_id. w64. lia. Qed.

  Lemma make_net_eq : make_net64 src snk cost cap = make_net src snk cost cap.
  Proof. unfold make_net64, make_net. now rewrite faux_inf_eq, opp_eq, n_eq, e_eq. Qed.

  Lemma init_state_eq : init_state64 src snk cost cap = init_state src snk cost cap.
  Proof.
    unfold init_state64, init_state. rewrite faux_inf_eq, opp_eq, n_eq, e_eq.
    replace (wrap (- M)) with (- M); [reflexivity|]. symmetry. apply wrap_id.
    pose proof (sums_bound _ _ _ _ B) as (_ & _ & _ & _ & s5 & _). w64. lia.
  Qed.

  Theorem simplex64_eq : 3 * M < int64_half -> forall fuel, simplex64 fuel src snk cost cap = simplex fuel src snk cost cap.
  Proof.
    intros HM3 fuel. unfold simplex64, simplex. cbv zeta. rewrite make_net_eq, init_state_eq. rewrite pivots_eq; [reflexivity| | | |].
    - exact (nr_B _ _ (netrep_init _ _ _ _ B)).
    - pose proof (e_bound _ _ _ _ B) as (e1 & e2 & e3). rewrite (nr_e _ _ (netrep_init _ _ _ _ B)). w64. lia.
    - apply (capac_bound _ _ _ _ B).
    - intros st H. destruct (reachable_inv _ _ _ _ B st H) as (F & T & x & pi & HI). eapply inv_in_range; eauto.
  Qed.

  (** If every reduced cost at the start comes out as not negative, nothing is moved. *)
  Lemma all_nonneg_none : forall N pots fl, 1 <= block N <= n_arcs N -> 4 * n_arcs N < int64_half ->
    (forall i, 0 <= i < n_arcs N -> exists r, reduced_cost64 N pots fl i = Done r /\ 0 <= r) ->
    forall k f, 0 <= f <= n_arcs N -> find_entering64 N k pots fl f = Done None.
  Proof.
    intros N0 pots fl HB He HR. 
    assert (HB' : forall js i c, 0 <= c -> (forall j, In j js -> 0 <= j < n_arcs N0) ->
      exists i' c', best_edge64 N0 pots fl i c js = Done (i', c') /\ 0 <= c').
    { induction js as [|j js IH]; intros i c Hc Hj; [exists i, c; auto|]. cbn [best_edge64].
      destruct (HR j) as (r & -> & Hr); [apply Hj; simpl; auto|]. cbn [obind].
      destruct (r <? c); apply IH; auto; intros; apply Hj; simpl; auto. }
    induction k as [|k IH]; intros f Hf; [reflexivity|]. cbn [find_entering64].
    destruct (block_edges_eq N0 HB He f Hf) as (-> & Hin & Hs). unfold block_edges in *.
    assert (Hne : fst (block_edges N0 f) <> []).
    { unfold block_edges. intros E. apply (f_equal (@length Z)) in E. destruct (f + block N0 <=? n_arcs N0) eqn:K; cbn [fst length] in E.
      - rewrite arange_length in E. apply Z.leb_le in K. lia.
      - rewrite app_length, !arange_length in E. apply Z.leb_gt in K. lia. }
    unfold block_edges in Hne. destruct (if f + block N0 <=? n_arcs N0 then _ else _) as [inds f']. cbn [fst snd] in *.
    destruct inds as [|i0 js]; [congruence|]. destruct (HR i0) as (r & -> & Hr); [apply Hin; simpl; auto|]. cbn [obind].
    destruct (HB' js i0 r Hr) as (i' & c' & -> & Hc'); [intros; apply Hin; simpl; auto|]. cbn [obind].
    destruct (Z.leb_spec 0 c'); [|lia]. apply IH. exact Hs.
  Qed.

  Theorem simplex64_stuck : forall cm, Forall (fun c => c <= cm) cost -> 4 * Z.of_nat (length cost) < int64_half ->
    int64_half + cm < 2 * M ->
    forall fuel, simplex64 (S fuel) src snk cost cap = Done (map (fun _ => 0) cost).
  Proof.
    intros cm Hcm Hl Hbig fuel. unfold simplex64. cbv zeta. rewrite make_net_eq, init_state_eq. cbn [pivots64]. unfold pivot64.
    pose proof (netrep_init _ _ _ _ B) as NR. pose proof (good_init _ _ _ _ B) as G.
    pose proof (inv_init _ _ _ _ B) as [_ Hx Hpi _ _ _].
    assert (Lc : n_arcs (make_net src snk cost cap) = Z.of_nat (length cost)).
    { rewrite (b_lcost _ _ _ _ B). cbn [n_arcs make_net]. lia. }
    unfold find_entering_edges64. rewrite all_nonneg_none; [| | | |].
    - cbn [obind flows init_state]. f_equal. rewrite firstn_app, map_length, Nat.sub_diag, firstn_O, app_nil_r.
      apply firstn_all2. now rewrite map_length.
    - exact (nr_B _ _ NR).
    - rewrite Lc. exact Hl.
    - intros i Hi. pose proof NR as [_ NE _ NT NH NC _]. rewrite NE in Hi.
      pose proof (ns_pos _ _ _ _ B) as p1. pose proof (nd_pos _ _ _ _ B) as p2.
      set (I := inst_of src snk cost cap) in *. destruct (arc_real I G i Hi) as (a1 & a2 & a3).
      unfold reduced_cost64. rewrite (earr_get _ _ _ i NC) by lia. cbn [obind]. rewrite (earr_get _ _ _ i NT) by lia. cbn [obind].
      rewrite (earr_get _ _ _ (tl_ I i) Hpi) by lia. cbn [obind].
      rewrite (earr_get _ _ _ i NH) by lia. cbn [obind]. rewrite a3, (earr_get _ _ _ (hd_ I i) Hpi) by lia. cbn [obind].
      rewrite (earr_get _ _ _ i Hx) by lia. cbn [obind].
      assert (X0 : x0 src snk cost cap i = 0) by (unfold x0; fold I; destruct (Z.ltb_spec i (ns I * nd I)); lia).
      assert (P1 : pi0 src snk cost cap (tl_ I i) = M).
      { unfold pi0. fold I. destruct (Z.eqb_spec (tl_ I i) (-1)); [lia|]. destruct (Z.ltb_spec (tl_ I i) (ns I)); [reflexivity|lia]. }
      assert (P2 : pi0 src snk cost cap (hd_ I i) = - M).
      { unfold pi0. fold I. destruct (Z.eqb_spec (hd_ I i) (-1)); [lia|]. destruct (Z.ltb_spec (hd_ I i) (ns I)); [lia|reflexivity]. }
      rewrite X0, P1, P2. change (0 =? 0) with true. cbv zeta iota. rewrite wrap_add_l. eexists. split; [reflexivity|].
      assert (Ec : cost_ I i = nthz cost i) by (unfold cost_; destruct (Z.ltb_spec i (ns I * nd I)); [reflexivity|lia]).
      assert (HIn : In (nthz cost i) cost).
      { unfold nthz. apply nth_In. rewrite NE in Lc. lia. }
      rewrite Ec. rewrite Forall_forall in Hcm. pose proof (Hcm _ HIn) as C1.
      pose proof (b_cost _ _ _ _ B) as Pc. rewrite Forall_forall in Pc. pose proof (Pc _ HIn) as C2.
      rewrite (wrap_eq _ (nthz cost i - M + - M + int64_size) (-1)) by lia.
      rewrite wrap_id; w64; lia.
    - cbn [pos init_state]. pose proof (nr_B _ _ NR). lia.
  Qed.
End Setup.
