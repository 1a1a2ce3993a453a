(** What dual variables say about a transport plan: optimality among plans with the same row
    and column sums, maximality of the shipped mass, stability. *)
From Coq Require Import Reals ZArith Bool Lia Lra List.
From Verif Require Import Sums.
Open Scope R_scope.

Section Cert.
  Variables n1 n2 : nat.
  Variables A B : nat -> Z.
  Variables C U X : nat -> nat -> Z.
  Variables ls ld ps pd : nat -> Z.
  Variable big : Z.

  (** [X] is a plan with entries at most [U], [ls] and [ld] are what remains of [A] and [B],
      and [ps], [pd] are dual variables. *)
  Record slack (ps pd : nat -> Z) : Prop := {
    s_lo : forall i j, (i < n1)%nat -> (j < n2)%nat -> (X i j < U i j)%Z -> (ps i - pd j <= C i j)%Z;
    s_hi : forall i j, (i < n1)%nat -> (j < n2)%nat -> (0 < X i j)%Z -> (C i j <= ps i - pd j)%Z
  }.

  Record cert : Prop := {
    c_x : forall i j, (i < n1)%nat -> (j < n2)%nat -> (0 <= X i j <= U i j)%Z;
    c_row : forall i, (i < n1)%nat -> (ZSum n2 (fun j => X i j) + ls i = A i)%Z;
    c_col : forall j, (j < n2)%nat -> (ZSum n1 (fun i => X i j) + ld j = B j)%Z;
    c_ls : forall i, (i < n1)%nat -> (0 <= ls i)%Z;
    c_ld : forall j, (j < n2)%nat -> (0 <= ld j)%Z;
    c_pls : forall i, (i < n1)%nat -> (0 < ls i)%Z -> ps i = big;
    c_pld : forall j, (j < n2)%nat -> (0 < ld j)%Z -> pd j = (- big)%Z;
    c_slack : slack ps pd;
    c_C : forall i j, (i < n1)%nat -> (j < n2)%nat -> (0 <= C i j)%Z;
    c_big : (ZSum n1 (fun i => ZSum n2 (fun j => C i j)) < 2 * big)%Z;
    c_bal : ZSum n1 A = ZSum n2 B
  }.

  Definition rowZ (i : nat) : R := Sum n2 (fun j => IZR (X i j)).
  Definition colZ (j : nat) : R := Sum n1 (fun i => IZR (X i j)).
  Definition rowR (Y : nat -> nat -> R) (i : nat) : R := Sum n2 (fun j => Y i j).
  Definition colR (Y : nat -> nat -> R) (j : nat) : R := Sum n1 (fun i => Y i j).
  Definition massR (Y : nat -> nat -> R) : R := Sum n1 (fun i => Sum n2 (fun j => Y i j)).
  Definition costR (Y : nat -> nat -> R) : R := Sum n1 (fun i => Sum n2 (fun j => IZR (C i j) * Y i j)).
  Definition capped (Y : nat -> nat -> R) : Prop :=
    forall i j, (i < n1)%nat -> (j < n2)%nat -> 0 <= Y i j <= IZR (U i j).
  Notation XR := (fun i j => IZR (X i j)).

  Lemma weigh : forall (p q : nat -> R) (Z1 Z2 : nat -> nat -> R),
    Sum n1 (fun i => Sum n2 (fun j => (p i - q j) * (Z1 i j - Z2 i j))) =
    Sum n1 (fun i => p i * (rowR Z1 i - rowR Z2 i)) - Sum n2 (fun j => q j * (colR Z1 j - colR Z2 j)).
  Proof.
    intros p q Z1 Z2.
    transitivity (Sum n1 (fun i => Sum n2 (fun j => p i * (Z1 i j - Z2 i j))) -
                  Sum n1 (fun i => Sum n2 (fun j => q j * (Z1 i j - Z2 i j)))).
    - rewrite <- Sum_minus. apply Sum_ext. intros i Hi. rewrite <- Sum_minus. apply Sum_ext. intros j Hj. ring.
    - f_equal.
      + apply Sum_ext. intros i Hi. rewrite Sum_scal, Sum_minus. reflexivity.
      + rewrite Sum_swap. apply Sum_ext. intros j Hj. rewrite Sum_scal, Sum_minus. reflexivity.
  Qed.

  Section With.
    Hypothesis K : cert.

    Lemma dual : forall p q Y, slack p q -> capped Y ->
      Sum n1 (fun i => IZR (p i) * (rowR Y i - rowZ i)) - Sum n2 (fun j => IZR (q j) * (colR Y j - colZ j))
      <= costR Y - costR XR.
    Proof.
      intros p q Y [Hlo Hhi] HY. unfold costR. rewrite <- Sum_minus.
      change rowZ with (rowR XR). change colZ with (colR XR). rewrite <- weigh.
      apply Sum_le. intros i Hi. rewrite <- Sum_minus. apply Sum_le. intros j Hj.
      specialize (Hlo i j Hi Hj). specialize (Hhi i j Hi Hj). specialize (HY i j Hi Hj).
      pose proof (c_x K i j Hi Hj) as [x1 x2].
      destruct (Z_lt_ge_dec (X i j) (U i j)) as [L | L].
      - specialize (Hlo L). apply IZR_le in Hlo. rewrite minus_IZR in Hlo.
        destruct (Z_lt_ge_dec 0 (X i j)) as [L' | L'].
        + specialize (Hhi L'). apply IZR_le in Hhi. rewrite minus_IZR in Hhi.
          replace (IZR (p i) - IZR (q j)) with (IZR (C i j)) by lra. lra.
        + replace (X i j) with 0%Z by lia. nra.
      - replace (X i j) with (U i j) in * by lia.
        destruct (Z_lt_ge_dec 0 (U i j)) as [L' | L'].
        + specialize (Hhi L'). apply IZR_le in Hhi. rewrite minus_IZR in Hhi. nra.
        + replace (U i j) with 0%Z in * by lia. assert (Y i j = 0) by lra. rewrite H. lra.
    Qed.

    (** Optimal among plans with the same row and column sums. *)
    Theorem cert_opt : forall Y, capped Y ->
      (forall i, (i < n1)%nat -> rowR Y i = rowZ i) -> (forall j, (j < n2)%nat -> colR Y j = colZ j) ->
      costR XR <= costR Y.
    Proof.
      intros Y HY H1 H2. pose proof (dual ps pd Y (c_slack K) HY) as D.
      rewrite (Sum_zero n1) in D by (intros i Hi; rewrite H1 by auto; ring).
      rewrite (Sum_zero n2) in D by (intros j Hj; rewrite H2 by auto; ring). lra.
    Qed.

    Lemma count_interval : forall k lo hi,
      ZSum k (fun t => if ((lo <=? Z.of_nat t) && (Z.of_nat t <? hi))%Z then 1 else 0)%Z =
      Z.max 0 (Z.min hi (Z.of_nat k) - Z.max lo 0).
    Proof.
      induction k as [|k IH]; intros lo hi; cbn [ZSum]; [lia|]. rewrite IH.
      destruct (Z.leb_spec lo (Z.of_nat k)), (Z.ltb_spec (Z.of_nat k) hi); cbn [andb]; lia.
    Qed.

    Definition crosses (k i j : nat) : Z :=
      if (X i j <? U i j)%Z
      then if ((pd j + big <=? Z.of_nat k) && (Z.of_nat k <? ps i + big))%Z then 1%Z else 0%Z
      else 0%Z.

    Lemma crosses_nonneg : forall k i j, (0 <= crosses k i j)%Z.
    Proof. intros k i j. unfold crosses. destruct (X i j <? U i j)%Z; [|lia]. destruct (_ && _)%bool; lia. Qed.

    (** A level that no unsaturated arc crosses. *)
    Lemma level : exists th, (- big <= th < big)%Z /\
      forall i j, (i < n1)%nat -> (j < n2)%nat -> (th < ps i)%Z -> (pd j <= th)%Z -> X i j = U i j.
    Proof.
      pose proof (c_big K) as Hb.
      assert (HC : (0 <= ZSum n1 (fun i => ZSum n2 (fun j => C i j)))%Z).
      { apply ZSum_nonneg. intros i Hi. apply ZSum_nonneg. intros j Hj. apply (c_C K); auto. }
      destruct (ZSum_small (Z.to_nat (2 * big)) (fun k => ZSum n1 (fun i => ZSum n2 (fun j => crosses k i j)))) as (k & Hk & E).
      - intros k Hk. apply ZSum_nonneg. intros i Hi. apply ZSum_nonneg. intros j Hj. apply crosses_nonneg.
      - rewrite ZSum_swap.
        assert (Q : (ZSum n1 (fun i => ZSum (Z.to_nat (2 * big)) (fun k => ZSum n2 (fun j => crosses k i j))) <=
                     ZSum n1 (fun i => ZSum n2 (fun j => C i j)))%Z); [|lia].
        apply ZSum_le. intros i Hi. rewrite ZSum_swap. apply ZSum_le. intros j Hj. unfold crosses.
        destruct (Z.ltb_spec (X i j) (U i j)) as [L|L].
        + rewrite count_interval. pose proof (s_lo _ _ (c_slack K) i j Hi Hj L). pose proof (c_C K i j Hi Hj). lia.
        + rewrite ZSum_zero by auto. apply (c_C K); auto.
      - exists (Z.of_nat k - big)%Z. split; [lia|]. intros i j Hi Hj H1 H2.
        destruct (Z_lt_ge_dec (X i j) (U i j)) as [L|L]; [|pose proof (c_x K i j Hi Hj); lia]. exfalso.
        pose proof (ZSum_ge_one n2 (fun j => crosses k i j) j (fun j _ => crosses_nonneg k i j) Hj) as E1.
        pose proof (ZSum_ge_one n1 (fun i => ZSum n2 (fun j => crosses k i j)) i
          (fun i _ => ZSum_nonneg n2 _ (fun j _ => crosses_nonneg k i j)) Hi) as E2.
        cbv beta in E1, E2, E.
        assert (E3 : crosses k i j = 1%Z); [|lia]. unfold crosses.
        destruct (Z.ltb_spec (X i j) (U i j)); [|lia]. destruct (Z.leb_spec (pd j + big) (Z.of_nat k)); [|lia].
        destruct (Z.ltb_spec (Z.of_nat k) (ps i + big)); [|lia]. reflexivity.
    Qed.

    Lemma mass_left : massR XR = Sum n1 (fun i => IZR (A i)) - Sum n1 (fun i => IZR (ls i)).
    Proof.
      unfold massR. rewrite <- Sum_minus. apply Sum_ext. intros i Hi. rewrite <- (c_row K i Hi), plus_IZR, IZR_ZSum. lra.
    Qed.

    (** No plan below the capacities and the marginals ships more. *)
    Theorem cert_ship : forall Y, capped Y ->
      (forall i, (i < n1)%nat -> rowR Y i <= IZR (A i)) -> (forall j, (j < n2)%nat -> colR Y j <= IZR (B j)) ->
      massR Y <= massR XR.
    Proof.
      intros Y HY H1 H2. destruct level as (th & Hth & Hsat).
      set (s := fun i => if (th <? ps i)%Z then 1 else 0). set (t := fun j => if (th <? pd j)%Z then 1 else 0).
      assert (Hs : forall i, s i = 1 /\ (th < ps i)%Z \/ s i = 0 /\ (ps i <= th)%Z).
      { intros i. unfold s. destruct (Z.ltb_spec th (ps i)); auto. }
      assert (Ht : forall j, t j = 1 /\ (th < pd j)%Z \/ t j = 0 /\ (pd j <= th)%Z).
      { intros j. unfold t. destruct (Z.ltb_spec th (pd j)); auto. }
      rewrite mass_left.
      (* what stays at the sources of Y *)
      assert (E1 : Sum n1 (fun i => s i * (IZR (A i) - rowR Y i)) <= Sum n1 (fun i => IZR (A i)) - massR Y).
      { change (massR Y) with (Sum n1 (rowR Y)). rewrite <- Sum_minus. apply Sum_le. intros i Hi.
        specialize (H1 i Hi). destruct (Hs i) as [[-> _] | [-> _]]; lra. }
      assert (E2 : Sum n2 (fun j => t j * (IZR (B j) - colR Y j)) >= 0).
      { apply Rle_ge, Sum_nonneg. intros j Hj. specialize (H2 j Hj). destruct (Ht j) as [[-> _] | [-> _]]; lra. }
      assert (E3 : Sum n1 (fun i => IZR (ls i)) = Sum n1 (fun i => s i * IZR (ls i))).
      { apply Sum_ext. intros i Hi. destruct (Hs i) as [[-> _] | [-> Hp]]; [lra|].
        destruct (Z_lt_ge_dec 0 (ls i)) as [L|L].
        - pose proof (c_pls K i Hi L). lia.
        - pose proof (c_ls K i Hi). replace (ls i) with 0%Z by lia. lra. }
      assert (E4 : Sum n2 (fun j => t j * IZR (ld j)) = 0).
      { apply Sum_zero. intros j Hj. destruct (Ht j) as [[-> Hp] | [-> _]]; [|lra].
        destruct (Z_lt_ge_dec 0 (ld j)) as [L|L].
        - pose proof (c_pld K j Hj L). lia.
        - pose proof (c_ld K j Hj). replace (ld j) with 0%Z by lia. lra. }
      assert (E5 : Sum n1 (fun i => Sum n2 (fun j => (s i - t j) * (Y i j - IZR (X i j)))) <= 0).
      { rewrite <- (Sum_zero n1 (fun _ => 0)) by auto. apply Sum_le. intros i Hi.
        rewrite <- (Sum_zero n2 (fun _ => 0)) by auto. apply Sum_le. intros j Hj.
        specialize (HY i j Hi Hj). destruct (Hs i) as [[-> Hi'] | [-> Hi']], (Ht j) as [[-> Hj'] | [-> Hj']]; try lra.
        - rewrite (Hsat i j Hi Hj Hi' Hj'). lra.
        - assert (X i j = 0%Z).
          { pose proof (c_x K i j Hi Hj). pose proof (s_hi _ _ (c_slack K) i j Hi Hj). pose proof (c_C K i j Hi Hj). lia. }
          rewrite H. lra. }
      rewrite weigh in E5.
      assert (R1 : Sum n1 (fun i => s i * (rowR Y i - rowR XR i)) =
                   Sum n1 (fun i => s i * IZR (ls i)) - Sum n1 (fun i => s i * (IZR (A i) - rowR Y i))).
      { rewrite <- Sum_minus. apply Sum_ext. intros i Hi. rewrite <- (c_row K i Hi), plus_IZR, IZR_ZSum. unfold rowR. ring. }
      assert (R2 : Sum n2 (fun j => t j * (colR Y j - colR XR j)) =
                   Sum n2 (fun j => t j * IZR (ld j)) - Sum n2 (fun j => t j * (IZR (B j) - colR Y j))).
      { rewrite <- Sum_minus. apply Sum_ext. intros j Hj. rewrite <- (c_col K j Hj), plus_IZR, IZR_ZSum. unfold colR. ring. }
      rewrite R1, R2 in E5. lra.
    Qed.

    (** * Bounded dual variables *)
    Variable D : Z.
    Hypothesis near_s : forall i, (i < n1)%nat -> (Z.abs (ps i - big) <= D \/ Z.abs (ps i + big) <= D)%Z.
    Hypothesis near_d : forall j, (j < n2)%nat -> (Z.abs (pd j - big) <= D \/ Z.abs (pd j + big) <= D)%Z.
    Hypothesis C_D : forall i j, (i < n1)%nat -> (j < n2)%nat -> (C i j <= D)%Z.
    Hypothesis D_big : (0 <= D /\ 3 * D < 2 * big)%Z.

    Definition shift (p : Z) : Z := if (0 <? p)%Z then (p - big + 3 * D)%Z else (p + big)%Z.

    Lemma shift_slack : slack (fun i => shift (ps i)) (fun j => shift (pd j)).
    Proof.
      pose proof (c_slack K) as [Hlo Hhi]. constructor; intros i j Hi Hj L.
      - specialize (Hlo i j Hi Hj L). pose proof (near_s i Hi). pose proof (near_d j Hj). pose proof (c_C K i j Hi Hj).
        pose proof (C_D i j Hi Hj). unfold shift. destruct (Z.ltb_spec 0 (ps i)), (Z.ltb_spec 0 (pd j)); lia.
      - specialize (Hhi i j Hi Hj L). pose proof (near_s i Hi). pose proof (near_d j Hj). pose proof (c_C K i j Hi Hj).
        pose proof (C_D i j Hi Hj). unfold shift. destruct (Z.ltb_spec 0 (ps i)), (Z.ltb_spec 0 (pd j)); lia.
    Qed.

    Lemma shift_bound_s : forall i, (i < n1)%nat -> (Z.abs (shift (ps i)) <= 4 * D)%Z.
    Proof. intros i Hi. pose proof (near_s i Hi). unfold shift. destruct (Z.ltb_spec 0 (ps i)); lia. Qed.
    Lemma shift_bound_d : forall j, (j < n2)%nat -> (Z.abs (shift (pd j)) <= 4 * D)%Z.
    Proof. intros j Hj. pose proof (near_d j Hj). unfold shift. destruct (Z.ltb_spec 0 (pd j)); lia. Qed.

    (** Almost optimal among plans with nearby row and column sums. *)
    Theorem cert_stable : forall Y, capped Y ->
      costR XR <= costR Y + 4 * IZR D *
        (Sum n1 (fun i => Rabs (rowR Y i - rowZ i)) + Sum n2 (fun j => Rabs (colR Y j - colZ j))).
    Proof.
      intros Y HY. pose proof (dual _ _ Y shift_slack HY) as E.
      assert (B1 : - (4 * IZR D * Sum n1 (fun i => Rabs (rowR Y i - rowZ i))) <=
                   Sum n1 (fun i => IZR (shift (ps i)) * (rowR Y i - rowZ i))).
      { rewrite <- Sum_scal. replace (- Sum n1 _) with (Sum n1 (fun i => -1 * (4 * IZR D * Rabs (rowR Y i - rowZ i))))
          by (rewrite Sum_scal; lra).
        apply Sum_le. intros i Hi. pose proof (shift_bound_s i Hi) as Sb. apply IZR_le in Sb. rewrite abs_IZR, mult_IZR in Sb.
        pose proof (Rabs_pos (rowR Y i - rowZ i)). pose proof (Rle_abs (- (IZR (shift (ps i)) * (rowR Y i - rowZ i)))) as Q.
        rewrite Rabs_Ropp, Rabs_mult in Q. nra. }
      assert (B2 : Sum n2 (fun j => IZR (shift (pd j)) * (colR Y j - colZ j)) <=
                   4 * IZR D * Sum n2 (fun j => Rabs (colR Y j - colZ j))).
      { rewrite <- Sum_scal. apply Sum_le. intros j Hj. pose proof (shift_bound_d j Hj) as Sb. apply IZR_le in Sb.
        rewrite abs_IZR, mult_IZR in Sb. pose proof (Rabs_pos (colR Y j - colZ j)).
        pose proof (Rle_abs (IZR (shift (pd j)) * (colR Y j - colZ j))) as Q. rewrite Rabs_mult in Q. nra. }
      lra.
    Qed.
  End With.
End Cert.
