(** HelmholtzProofs2.v -- the factorisation, its pivots, and the solution of the system. *)
From Coq Require Import Reals ZArith List Arith Bool Lia Lra.
From Verif Require Import Base Fld SparseModel RPoly StencilModel StencilModel2 LegMatrixModel HelmholtzModel HelmholtzProofs.
Import ListNotations.
Local Open Scope R_scope.

Section LU.
  Variable M : nat.
  Variable D : diags.
  Variables al be : R.
  Definition h0 i := al * dA0 D i + be * dB0 D i.
  Definition h2 i := al * dA2 D i + be * dB2 D i.
  Definition h4 i := al * dA4 D i.
  Definition hm i := be * dBm D i.

  Definition lu_ok (s : lu) (n : nat) : Prop :=
    (l_d0 s 0%nat = h0 0%nat /\ l_d0 s 1%nat = h0 1%nat) /\
    (l_d1 s 0%nat = h2 0%nat /\ l_d1 s 1%nat = h2 1%nat) /\
    (l_d2 s 0%nat = h4 0%nat /\ l_d2 s 1%nat = h4 1%nat) /\
    (forall i, (2 <= i < n)%nat ->
       l_L s (i - 2)%nat = hm (i - 2)%nat / l_d0 s (i - 2)%nat /\
       l_d0 s i = h0 i - l_L s (i - 2)%nat * l_d1 s (i - 2)%nat /\
       ((i < M - 2)%nat -> l_d1 s i = h2 i - l_L s (i - 2)%nat * l_d2 s (i - 2)%nat) /\
       ((i < M - 4)%nat -> l_d2 s i = h4 i - l_L s (i - 2)%nat * l_d2 s (i - 2)%nat)).

  Lemma lu_factor_ok : (2 <= M)%nat -> lu_ok (lu_factor M D al be) M.
  Proof.
    intros HM. unfold lu_factor.
    match goal with |- lu_ok (for_up _ _ _ ?s) _ => set (s0 := s) end.
    assert (H : lu_ok (for_up (M - 2) 2 (lu_step M D al be) s0) (2 + (M - 2))).
    { apply (for_up_inv (fun i s => lu_ok s i)).
      - unfold lu_ok, s0. cbn [l_d0 l_d1 l_d2 l_L]. repeat split; try (upds; reflexivity); intros; lia.
      - intros i s Hi ((P0 & P1) & (Q0 & Q1) & (R0 & R1) & H). unfold lu_ok, lu_step. cbn [l_d0 l_d1 l_d2 l_L].
        assert (E1 : forall j, j <> i -> (if Nat.ltb i (M - 2) then upd (l_d1 s) i (al * dA2 D i + be * dB2 D i - upd (l_L s) (i - 2) (be * dBm D (i - 2)%nat / l_d0 s (i - 2)%nat) (i - 2)%nat * l_d2 s (i - 2)%nat) else l_d1 s) j = l_d1 s j)
          by (intros j Hj; destruct (Nat.ltb i (M - 2)); [apply upd_other; exact Hj|reflexivity]).
        assert (E2 : forall j, j <> i -> (if Nat.ltb i (M - 4) then upd (l_d2 s) i (al * dA4 D i - upd (l_L s) (i - 2) (be * dBm D (i - 2)%nat / l_d0 s (i - 2)%nat) (i - 2)%nat * l_d2 s (i - 2)%nat) else l_d2 s) j = l_d2 s j)
          by (intros j Hj; destruct (Nat.ltb i (M - 4)); [apply upd_other; exact Hj|reflexivity]).
        split; [split; rewrite upd_other by lia; assumption|].
        split; [split; rewrite E1 by lia; assumption|].
        split; [split; rewrite E2 by lia; assumption|].
        intros k Hk. destruct (Nat.eq_dec k i) as [->|Hne].
        + rewrite E1, E2 by lia. rewrite !(upd_same (l_L s)), upd_same. rewrite upd_other by lia.
          split; [reflexivity|]. split; [reflexivity|].
          split; intros Hlt; (replace (Nat.ltb i _) with true by (symmetry; apply Nat.ltb_lt; lia)); rewrite upd_same; reflexivity.
        + rewrite !E1, !E2 by lia. rewrite !(upd_other (l_L s)), !(upd_other (l_d0 s)) by lia.
          destruct (H k ltac:(lia)) as (A1 & A2 & A3 & A4). auto. }
    replace (2 + (M - 2))%nat with M in H by lia. exact H.
  Qed.

  (** the matrix *)
  Definition hrow (k j : nat) : R := brow (hm (k - 2)%nat) (h0 k) (h2 k) (h4 k) k j.

  Lemma lu_solves f u0 : (4 <= M)%nat ->
    let s := lu_factor M D al be in
    (forall k, (k < M)%nat -> l_d0 s k <> 0) ->
    let r := backward M s (forward M (l_L s) f (fun _ => 0)) u0 in
    forall k, (k < M)%nat -> rsum M (fun j => hrow k j * r j) = f k.
  Proof.
    intros HM s Hp r k Hk.
    pose proof (lu_factor_ok ltac:(lia)) as ((P0 & P1) & (Q0 & Q1) & (R0 & R1) & H). fold s in P0, P1, Q0, Q1, R0, R1, H.
    destruct (forward_spec M (l_L s) f (fun _ => 0) ltac:(lia)) as (Y0 & Y1 & Y).
    destruct (backward_spec M s (forward M (l_L s) f (fun _ => 0)) u0 HM Hp) as (U & _). fold r in U.
    set (y := forward M (l_L s) f (fun _ => 0)) in *.
    unfold hrow. rewrite brow_sum by exact Hk.
    destruct (Nat.leb_spec 2 k) as [H2|H2].
    - destruct (H k ltac:(lia)) as (A1 & A2 & A3 & A4).
      pose proof (U k Hk) as U1. pose proof (U (k - 2)%nat ltac:(lia)) as U2. pose proof (Y k ltac:(lia)) as Y2.
      replace (k - 2 + 2)%nat with k in U2 by lia. replace (k - 2 + 4)%nat with (k + 2)%nat in U2 by lia.
      replace (Nat.ltb k M) with true in U2 by (symmetry; apply Nat.ltb_lt; lia).
      rewrite <- Y2, <- U1, <- U2.
      assert (HL : hm (k - 2)%nat = l_L s (k - 2)%nat * l_d0 s (k - 2)%nat) by (rewrite A1; field; apply Hp; lia).
      rewrite HL. replace (h0 k) with (l_d0 s k + l_L s (k - 2)%nat * l_d1 s (k - 2)%nat) by (rewrite A2; ring).
      destruct (Nat.ltb_spec (k + 2) M) as [H3|H3].
      + rewrite (tail_step M (k + 2)) by lia. replace (k + 2 + 2)%nat with (k + 4)%nat by lia.
        rewrite A3 by lia. destruct (Nat.lt_ge_cases (k + 4) M) as [H4|H4].
        * rewrite A4 by lia. ring.
        * rewrite (tail_ge M (k + 4)) by lia. ring.
      + rewrite !tail_ge by lia. ring.
    - assert (Hc : (k = 0 \/ k = 1)%nat) by lia. pose proof (U k Hk) as U1.
      destruct Hc as [-> | ->].
      + rewrite Y0 in U1. rewrite <- U1, P0, Q0, R0. ring.
      + rewrite Y1 in U1. rewrite <- U1, P1, Q1, R1. ring.
  Qed.

  (** pivots are non-zero for matrices with a dominant diagonal; [sg] is a sign.  The first two
      rows may instead be decoupled from the rows below *)
  Variables (sg : R) (p q : nat -> R).
  Definition good i : Prop :=
    0 <= q i /\ (sg * h0 i > p i + q i \/ (sg * h0 i >= p i + q i /\ p i > 0)) /\
    ((i < M - 2)%nat -> sg * h2 i >= - q i) /\ ((i < M - 4)%nat -> sg * h4 i >= 0).
  Lemma pivots : (2 <= M)%nat -> sg <> 0 ->
    (forall i, (i < 2)%nat -> (0 <= p i /\ good i) \/ (h0 i <> 0 /\ hm i = 0)) ->
    (forall i, (2 <= i < M)%nat -> good i) ->
    (forall i, (2 <= i < M)%nat -> 0 <= p i /\ (hm (i - 2)%nat = 0 \/ sg * hm (i - 2)%nat = - p i)) ->
    forall i, (i < M)%nat -> l_d0 (lu_factor M D al be) i <> 0.
  Proof.
    intros HM Hs H01 Hg Hl. set (s := lu_factor M D al be).
    pose proof (lu_factor_ok HM) as ((P0 & P1) & (Q0 & Q1) & (R0 & R1) & H). fold s in P0, P1, Q0, Q1, R0, R1, H.
    assert (HI : forall i, (i < M)%nat ->
      (sg * l_d0 s i > q i /\ 0 <= q i /\ ((i < M - 2)%nat -> sg * l_d1 s i >= - q i) /\ ((i < M - 4)%nat -> sg * l_d2 s i >= 0))
      \/ (l_d0 s i <> 0 /\ hm i = 0)).
    { intros i. induction i as [i IH] using lt_wf_ind. intros Hi.
      destruct (Nat.lt_ge_cases i 2) as [H2|H2].
      - destruct (H01 i H2) as [(Hp & Hq & A & B & C)|(A & B)].
        + left. assert (Hc : (i = 0 \/ i = 1)%nat) by lia.
          destruct Hc as [-> | ->]; rewrite ?P0, ?P1, ?Q0, ?Q1, ?R0, ?R1; repeat split; auto; lra.
        + right. assert (Hc : (i = 0 \/ i = 1)%nat) by lia.
          destruct Hc as [-> | ->]; rewrite ?P0, ?P1; auto.
      - left. destruct (H i ltac:(lia)) as (A1 & A2 & A3 & A4).
        destruct (Hg i ltac:(lia)) as (Gq & G0 & G1 & G2). destruct (Hl i ltac:(lia)) as (Hp & Hh).
        assert (HL0 : hm (i - 2)%nat = 0 -> l_L s (i - 2)%nat = 0) by (intros E; rewrite A1, E; unfold Rdiv; ring).
        assert (HLp : (hm (i - 2)%nat = 0) \/
          (0 <= - l_L s (i - 2)%nat /\ - l_L s (i - 2)%nat * q (i - 2)%nat <= p i /\
           (p i > 0 -> - l_L s (i - 2)%nat * q (i - 2)%nat < p i) /\
           sg * l_d1 s (i - 2)%nat >= - q (i - 2)%nat /\ ((i - 2 < M - 4)%nat -> sg * l_d2 s (i - 2)%nat >= 0))).
        { destruct Hh as [Hh|Hh]; [left; exact Hh|].
          destruct (IH (i - 2)%nat ltac:(lia) ltac:(lia)) as [(B0 & Bq & B1 & B2)|(B0 & B1)]; [|left; exact B1].
          right. set (d := l_d0 s (i - 2)%nat) in *. set (Q := q (i - 2)%nat) in *.
          assert (Hd : d <> 0) by (intros E; rewrite E in B0; lra).
          assert (EL : - l_L s (i - 2)%nat = p i / (sg * d)).
          { rewrite A1. replace (hm (i - 2)%nat) with (- p i / sg) by (replace (- p i) with (sg * hm (i - 2)%nat); field; exact Hs).
            field. split; assumption. }
          assert (Hpos : 0 < sg * d) by lra.
          assert (Hlt1 : / (sg * d) * Q < 1).
          { apply (Rmult_lt_reg_l (sg * d)); [exact Hpos|].
            replace (sg * d * (/ (sg * d) * Q)) with Q by (field; split; assumption). lra. }
          rewrite EL. repeat split.
          - apply Rmult_le_pos; [exact Hp|]. left. apply Rinv_0_lt_compat. exact Hpos.
          - unfold Rdiv. rewrite Rmult_assoc. rewrite <- (Rmult_1_r (p i)) at 2.
            apply Rmult_le_compat_l; [exact Hp|]. lra.
          - intros Hp0. unfold Rdiv. rewrite Rmult_assoc. rewrite <- (Rmult_1_r (p i)) at 2.
            apply Rmult_lt_compat_l; lra.
          - apply B1; lia.
          - exact B2. }
        repeat split; [| exact Gq | |].
        + rewrite A2. destruct HLp as [E|(L0 & L1 & L1' & L2 & _)].
          * rewrite (HL0 E). destruct G0 as [G0|[G0 G0']]; nra.
          * assert (- l_L s (i - 2)%nat * (sg * l_d1 s (i - 2)%nat) >= - l_L s (i - 2)%nat * (- q (i - 2)%nat))
              by (apply Rmult_ge_compat_l; lra).
            destruct G0 as [G0|[G0 G0']]; [nra|]. specialize (L1' G0'). nra.
        + intros Hlt. rewrite A3 by exact Hlt. specialize (G1 Hlt). destruct HLp as [E|(L0 & _ & _ & _ & L3)].
          * rewrite (HL0 E). nra.
          * specialize (L3 ltac:(lia)).
            assert (0 <= - l_L s (i - 2)%nat * (sg * l_d2 s (i - 2)%nat)) by (apply Rmult_le_pos; lra). nra.
        + intros Hlt. rewrite A4 by exact Hlt. specialize (G2 Hlt). destruct HLp as [E|(L0 & _ & _ & _ & L3)].
          * rewrite (HL0 E). nra.
          * specialize (L3 ltac:(lia)).
            assert (0 <= - l_L s (i - 2)%nat * (sg * l_d2 s (i - 2)%nat)) by (apply Rmult_le_pos; lra). nra. }
    intros i Hi. destruct (HI i Hi) as [(A & B & _)|(A & _)]; [|exact A]. intros E. rewrite E in A. lra.
  Qed.
End LU.
