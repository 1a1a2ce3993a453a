(** EMD with rounded operations for matrices close to exact ones. *)
From Coq Require Import List ZArith Arith Bool Reals Lia Lra Psatz Permutation FinFun.
From Verif Require Import CalcProofs CalcProofs2 Num Outcome Base NNModel CalcModel EmdModel VecR Sums SpecEmd SpecEmd64 EmdInit EmdMain EmdReal EmdRun Transport EmdThm EmdSym EmdTop
  Emd64Model Emd64Proofs Emd64Run Emd64Real EmdNear RoundModel SpecRound RoundSum RoundProofs RoundCalc RoundCollapse RoundEmdModel RoundEmd RoundEmdTop.
Import ListNotations.
Open Scope R_scope.

Section Args.
  Variables (ar : arith) (u eta : R) (cast : R -> Z).
  Hypothesis EA : emd_arithmetic u eta ar cast.
  Variables (k m1 m2 : nat) (p q p' q' : list (list R)) (d : nat -> nat -> R) (w del dmax : R).
  Hypothesis P : pdd_like k p.
  Hypothesis Q : pdd_like k q.
  Hypothesis M1 : multiples m1 (map (fun r => nth 0 r 0) p).
  Hypothesis M2 : multiples m2 (map (fun r => nth 0 r 0) q).
  Hypothesis CP : close_matrices w del p p'.
  Hypothesis CQ : close_matrices w del q q'.
  Hypothesis D : row_distance k p q d.
  Hypothesis DM : below_cap (length p) (length q) (fun _ _ => dmax) d.
  Hypothesis SZ : emd_size u eta w del dmax m1 m2 (length p) (length q).
  Let FL := ea_float _ _ _ _ EA.

  Definition dm_r : list (list R) := map (fun x => map (fun y => @cheb R (num_of ar) x y) (rows_of q')) (rows_of p').

  Lemma close_tl : forall r' p0 p0', pdd_like k p0 -> close_matrices w del p0 p0' -> In r' p0' -> length (tl r') = k.
  Proof.
    intros r' p0 p0' H C I. apply (In_nth _ _ []) in I as (i & Hi & Ei). pose proof (F2_len _ _ _ _ _ C) as L.
    destruct (F2_nth _ _ _ _ _ [] [] C i ltac:(lia)) as (L1 & _ & F). cbv beta in *. rewrite Ei in *. apply F2_len in F.
    pose proof (tl_len k (nth i p0 []) p0 H ltac:(apply nth_In; lia)). unfold vec in *. lia.
  Qed.

  Lemma width_close : forall p0 p0', pdd_like k p0 -> close_matrices w del p0 p0' -> width (rows_of p0') = k.
  Proof.
    intros p0 p0' H C. destruct p0' as [|r p0']; [inversion C; subst; destruct (pl_rows _ _ H); auto|]. apply (close_tl r p0 (r :: p0') H C). left. auto.
  Qed.

  Lemma EMD_r_dm : forall fuel, EMD_r ar cast fuel p' q' = network_simplex_r ar cast fuel (weights_of p') (weights_of q') dm_r.
  Proof. intros fuel. unfold EMD_r, cdist_r. rewrite (width_close p p' P CP), (width_close q q' Q CQ), Nat.eqb_refl. reflexivity. Qed.

  Lemma dm_r_cheb : forall i j, (i < length p')%nat -> (j < length q')%nat -> mx dm_r i j = @cheb R (num_of ar) (tl (nth i p' [])) (tl (nth j q' [])).
  Proof.
    intros i j Hi Hj. unfold mx, dm_r, rows_of. rewrite !map_map.
    rewrite (nth_indep _ [] ((fun r => map (fun v => @cheb R (num_of ar) (tl r) v) (map (@tl R) q')) [])) by (now rewrite map_length).
    rewrite (map_nth (fun r => map (fun v => @cheb R (num_of ar) (tl r) v) (map (@tl R) q'))). rewrite map_map.
    rewrite (nth_indep _ 0 (@cheb R (num_of ar) (tl (nth i p' [])) (tl []))) by (now rewrite map_length).
    apply (map_nth (fun r => @cheb R (num_of ar) (tl (nth i p' [])) (tl r))).
  Qed.

  Lemma weights_close : forall p0 p0', close_matrices w del p0 p0' -> Forall2 (fun x x' => Rabs (x' - x) <= w * x) (weights_of p0) (weights_of p0').
  Proof.
    intros p0 p0' C. unfold weights_of. induction C as [|r r' p0 p0' (_ & H & _) C IH]; cbn; constructor; auto.
  Qed.

  Lemma emd_rounded : exists v plan F, forall fuel, (F <= fuel)%nat -> EMD_r ar cast fuel p' q' = Done (v, plan) /\
    emd_within (length p) (length q) (fun i => mx p i 0) (fun j => mx q j 0) d (rounded_accuracy (length p) (length q) u w del dmax) v.
  Proof.
    pose proof (ea_u _ _ _ _ EA) as Hu. pose proof (ea_eta _ _ _ _ EA) as He. pose proof (ea_cast _ _ _ _ EA) as HT. pose proof (ea_mul _ _ _ _ EA) as HM. destruct SZ as [S1 S2 S3 S4 S5 S6 S7 S8 S9]. pose proof (weights_len p) as Lp. pose proof (weights_len q) as Lq.
    pose proof (F2_len _ _ _ _ _ CP) as LP. pose proof (F2_len _ _ _ _ _ CQ) as LQ. unfold vec in *. pose proof (fl_u _ _ _ FL) as u0.
    assert (NE : forall i j, (i < length p)%nat -> (j < length q)%nat -> 0 <= mx dm_r i j /\ Rabs (mx dm_r i j - d i j) <= 2 * del + 3 * u * (d i j + 2 * del)).
    { intros i j Hi Hj. rewrite dm_r_cheb by lia.
      apply (cheb_near ar u eta FL ltac:(lra) k (tl (nth i p [])) (tl (nth j q []))); [lra|apply (tl_len k _ p P); apply nth_In; auto|apply (tl_len k _ q Q); apply nth_In; auto|apply D; auto| |].
      - apply (F2_nth _ _ _ _ _ [] [] CP i Hi).
      - apply (F2_nth _ _ _ _ _ [] [] CQ j Hj). }
    assert (CM : cost_matrix (length (weights_of p)) (length (weights_of q)) dm_r).
    { rewrite Lp, Lq. constructor.
      - unfold dm_r, rows_of. rewrite !map_length. lia.
      - unfold dm_r. apply Forall_forall. intros r Hr. apply in_map_iff in Hr as (x & <- & _). unfold rows_of. rewrite !map_length. lia.
      - intros i j Hi Hj. apply NE; auto. }
    destruct (solve_near ar u eta cast FL Hu He HT HM m1 m2 w del dmax (weights_of p) (weights_of q) (weights_of p') (weights_of q') d dm_r
      (weights_weights k p P) (weights_weights k q Q) M1 M2 S3 S4 S1 S5 S6 (weights_close p p' CP) (weights_close q q' CQ)) as (v & plan & F & H).
    - rewrite Lp, Lq. intros i j Hi Hj. split; [eapply chebyshev_pos; apply D; auto|apply DM; auto].
    - exact S2.
    - exact CM.
    - rewrite Lp, Lq. intros i j Hi Hj. destruct (NE i j Hi Hj) as [_ X]. eapply Rle_trans; [exact X|]. specialize (DM i j Hi Hj). cbv beta in DM.
      apply Rplus_le_compat_l. apply Rmult_le_compat_l; lra.
    - rewrite Lp, Lq. exact S9.
    - rewrite Lp, Lq. exact S7.
    - rewrite Lp, Lq. exact S8.
    - exists v, plan, F. intros fuel Hf. destruct (H fuel Hf) as [E X]. split; [rewrite EMD_r_dm; exact E|]. rewrite Lp, Lq in X.
      destruct X as [X1 X2].
      assert (CE : forall Y, coupling (length p) (length q) (fun i => mx p i 0) (fun j => mx q j 0) Y <-> coupling (length p) (length q) (vx (weights_of p)) (vx (weights_of q)) Y).
      { intros Y. unfold coupling. split; intros (A & B & C); (split; [exact A|split]); intros i Hi; [rewrite B by auto; symmetry; apply weights_vx; auto|rewrite C by auto; symmetry; apply weights_vx; auto|rewrite B by auto; apply weights_vx; auto|rewrite C by auto; apply weights_vx; auto]. }
      split; [intros Y HY; apply X1; apply CE; exact HY|]. destruct X2 as (Y & HY & X2). exists Y. split; [apply CE; exact HY|exact X2].
  Qed.
End Args.
