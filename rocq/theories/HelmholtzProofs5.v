(** HelmholtzProofs5.v -- the Helmholtz solver applied to the Dirichlet and Neumann matrices. *)
From Coq Require Import Reals ZArith List Arith Bool Lia Lra.
From Verif Require Import Base Fld SparseModel SparseSpec SparseProofs RPoly StencilModel StencilModel2 LegMatrixModel LegMatrixProofs5 LegMatrixProofs6
  ChebMatrixModel ChebMatrixProofs2 HelmholtzModel HelmholtzSpec HelmholtzProofs HelmholtzProofs2 HelmholtzProofs3 HelmholtzProofs4.
Import ListNotations.
Local Open Scope R_scope.

(** what the pivots need to know about the squared norms of the Chebyshev polynomials *)
Definition norms (h : nat -> R) : Prop := h 0%nat = PI /\ h 1%nat = PI / 2 /\ forall i, h i >= PI / 2.

(** a common sign *)
Lemma signs al be ca cb : ca > 0 -> cb > 0 -> al * be <= 0 -> al <> 0 \/ be <> 0 ->
  exists sg e t, sg <> 0 /\ sg * al * ca = - e /\ sg * be * cb = t /\ e >= 0 /\ t >= 0 /\ (al <> 0 -> e > 0) /\ (be <> 0 -> t > 0).
Proof.
  intros Ha Hb Hab Hn.
  destruct (Rtotal_order al 0) as [H|[H|H]].
  - exists 1, (- al * ca), (be * cb). assert (Hbe : be >= 0) by nra.
    assert (be <> 0 -> be > 0) by (intros; destruct (Rtotal_order be 0) as [|[|]]; lra).
    repeat split; try lra; try nra; intros; nra.
  - subst al. destruct (Rtotal_order be 0) as [H|[H|H]].
    + exists (-1), 0, (- be * cb). repeat split; try lra; intros; nra.
    + lra.
    + exists 1, 0, (be * cb). repeat split; try lra; intros; nra.
  - exists (-1), (al * ca), (- be * cb). assert (be <= 0) by nra.
    assert (be <> 0 -> be < 0) by (intros; destruct (Rtotal_order be 0) as [|[|]]; lra).
    repeat split; try lra; try nra; intros; nra.
Qed.

Ltac ppos := repeat (lra || apply Rmult_lt_0_compat).

Section Dirichlet.
  Variables (N : nat) (h : nat -> R) (ca cb : R).
  Let A := scaled ca (c_ASDSD N).
  Let B := scaled cb (c_BSDSD h N).
  Definition dD : diags :=
    mkDiags (fun i => -2 * PI * (INR i + 1) * (INR i + 2) * ca) (fun i => -4 * PI * (INR i + 1) * ca) (fun i => -4 * PI * (INR i + 1) * ca)
            (fun i => - h 1%nat * cb) (fun i => (h i + h (i + 2)%nat) * cb) (fun i => - h 1%nat * cb).
  Lemma d_keys : (7 <= N)%nat -> helmholtz_keys A B = Some dD.
  Proof.
    intros HN. unfold helmholtz_keys, A. unfold c_ASDSD.
    rewrite !key_fromkeys by (apply zin; [lia|reflexivity]). reflexivity.
  Qed.
  Lemma d_keys_none : (N <= 6)%nat -> helmholtz_keys A B = None.
  Proof.
    intros HN. unfold helmholtz_keys, A, c_ASDSD.
    assert (E : key (scaled ca (dmat (N - 2) (N - 2) (fromkeys (zarange 0 (Z.of_nat N - 2)) (fun z =>
      if Z.eqb z 0 then arr (N - 2) (fun i => -2 * PI * (INR i + 1) * (INR i + 2))
      else if Z.eqb z 2 then arr (N - 4) (fun i => -4 * PI * (INR i + 1))
      else arr (N - (Z.to_nat z + 2)) (fun i => -4 * PI * (INR i + 1)))))) 4 = None).
    { apply key_fromkeys_none. apply znotin. lia. }
    rewrite E. destruct (key _ 0); [destruct (key _ 2)|]; reflexivity.
  Qed.
  Lemma d_rows : sm_rows RFld A = (N - 2)%nat.
  Proof. reflexivity. Qed.
  Lemma d_row al be k j : (k < N - 2)%nat -> (j < N - 2)%nat ->
    al * mat_entry RFld A k j + be * mat_entry RFld B k j = hrow dD al be k j.
  Proof.
    intros Hk Hj. unfold A, B. rewrite !scaled_entry, ASDSD_row, BSDSD_row by assumption.
    rewrite <- !Rmult_assoc, brow_lin. unfold hrow, h0, h2, h4, hm, dD. cbn [dA0 dA2 dA4 dBm dB0 dB2].
    apply brow_eq; [intros _|..]; ring.
  Qed.
  Lemma d_pivots al be : norms h -> (4 <= N)%nat -> ca > 0 -> cb > 0 -> al * be <= 0 -> al <> 0 \/ be <> 0 ->
    forall i, (i < N - 2)%nat -> l_d0 (lu_factor (N - 2) dD al be) i <> 0.
  Proof.
    intros (N0 & N1 & Nh) HN Ha Hb Hab Hn i Hi. pose proof PI_RGT_0 as HP.
    destruct (signs al be ca cb Ha Hb Hab Hn) as (sg & e & t & Hsg & He & Ht & Ge & Gt & Se & St).
    assert (P : forall k, 0 <= INR k) by apply pos_INR.
    assert (Q0 : forall k, sg * h0 dD al be k = e * (2 * PI * (INR k + 1) * (INR k + 2)) + t * (h k + h (k + 2)%nat)).
    { intros k. unfold h0, dD. cbn [dA0 dB0]. rewrite <- Ht. replace e with (- (sg * al * ca)) by lra. ring. }
    assert (Q2 : forall k, sg * h2 dD al be k = e * (4 * PI * (INR k + 1)) - t * (PI / 2)).
    { intros k. unfold h2, dD. cbn [dA2 dB2]. rewrite <- Ht, N1. replace e with (- (sg * al * ca)) by lra. ring. }
    assert (Q4 : forall k, sg * h4 dD al k = e * (4 * PI * (INR k + 1))).
    { intros k. unfold h4, dD. cbn [dA4]. replace e with (- (sg * al * ca)) by lra. ring. }
    assert (Qm : forall k, sg * hm dD be k = - (t * (PI / 2))).
    { intros k. unfold hm, dD. cbn [dBm]. rewrite <- Ht, N1. ring. }
    assert (Z2 : forall k, 0 <= e * (2 * PI * (INR k + 1) * (INR k + 2)) /\ (e > 0 -> 0 < e * (2 * PI * (INR k + 1) * (INR k + 2)))).
    { intros k. specialize (P k). assert (0 < 2 * PI * (INR k + 1) * (INR k + 2)) by ppos.
      split; [apply Rmult_le_pos; lra|intros; apply Rmult_lt_0_compat; lra]. }
    assert (Z4 : forall k, 0 <= e * (4 * PI * (INR k + 1))).
    { intros k. specialize (P k). assert (0 < 4 * PI * (INR k + 1)) by ppos. apply Rmult_le_pos; lra. }
    set (p := fun k => if Nat.ltb k 2 then 0 else t * (PI / 2)).
    assert (Ht2 : 0 <= t * (PI / 2)) by (apply Rmult_le_pos; lra).
    assert (Hh : forall k, t * (h k + h (k + 2)%nat) >= t * (PI / 2) + t * (PI / 2)).
    { intros k. rewrite <- Rmult_plus_distr_l. apply Rmult_ge_compat_l; [lra|]. pose proof (Nh k). pose proof (Nh (k + 2)%nat). lra. }
    assert (Hp : t > 0 -> t * (PI / 2) > 0) by (intros; apply Rmult_lt_0_compat; lra).
    assert (Hor : e > 0 \/ t > 0) by (destruct Hn; [left|right]; auto).
    assert (G : forall k, good (N - 2) dD al be sg p (fun _ => t * (PI / 2)) k).
    { intros k. unfold good. rewrite Q0, Q2, Q4. split; [exact Ht2|].
      destruct (Z2 k) as (Z2a & Z2b). specialize (Z4 k). specialize (Hh k). split; [|split; intros _; lra].
      unfold p. destruct (Nat.ltb k 2).
      - left. destruct Hor as [Ho|Ho]; [specialize (Z2b Ho)|specialize (Hp Ho)]; lra.
      - destruct Hor as [Ho|Ho]; [left; specialize (Z2b Ho)|right; specialize (Hp Ho)]; lra. }
    apply (pivots (N - 2) dD al be sg p (fun _ => t * (PI / 2))); try assumption; try lia.
    - intros k Hk. left. split; [|apply G]. unfold p. destruct (Nat.ltb k 2); lra.
    - intros k Hk. apply G.
    - intros k Hk. unfold p. destruct (Nat.ltb_spec k 2); [lia|]. split; [exact Ht2|]. right. apply Qm.
  Qed.
  Lemma helmholtz_dirichlet_ok im al be f u0 : norms h -> (7 <= N)%nat -> ca > 0 -> cb > 0 -> al * be <= 0 -> al <> 0 \/ be <> 0 ->
    exists u, helmholtz4 im false A B al be f u0 = Some u /\
      solves (N - 2) (fun k j => al * mat_entry RFld A k j + be * mat_entry RFld B k j) f u.
  Proof.
    intros Hh HN Ha Hb Hab Hn. unfold helmholtz4. rewrite d_keys, d_rows by exact HN.
    eexists. split; [reflexivity|]. intros k Hk. unfold row_solved.
    assert (E : lu_line im false (N - 2) dD al be = lu_factor (N - 2) dD al be) by (destruct im; reflexivity).
    rewrite E. unfold solve_helmholtz_1D.
    rewrite <- (lu_solves (N - 2) dD al be f u0 ltac:(lia) (d_pivots al be Hh ltac:(lia) Ha Hb Hab Hn) k Hk).
    apply rsum_ext. intros j Hj. rewrite d_row by assumption. reflexivity.
  Qed.
  Lemma helmholtz_dirichlet_small im al be f u0 : (N <= 6)%nat -> helmholtz4 im false A B al be f u0 = None.
  Proof. intros HN. unfold helmholtz4. rewrite d_keys_none by exact HN. reflexivity. Qed.
End Dirichlet.

(** ** Neumann: the unknowns of the factorisation are u_0 and k^2 u_k *)
Section NeumannLU.
  Variables (M : nat) (D : diags) (al be z0 : R) (h : nat -> R) (ca cb : R).
  Hypothesis HA0 : forall i, (1 <= i)%nat -> dA0 D i = -2 * PI * (INR i + 1) / (INR i + 2) * ca.
  Hypothesis Hz0 : al * dA0 D 0%nat + be * dB0 D 0%nat = z0.
  Hypothesis HA2 : forall i, dA2 D i = -4 * PI * (INR i + 1) / (INR i + 2) ^ 2 * ca.
  Hypothesis HA4 : forall i, dA4 D i = -4 * PI * (INR i + 1) / (INR i + 2) ^ 2 * ca.
  Hypothesis HBm0 : dBm D 0%nat = 0.
  Hypothesis HBm : forall i, (1 <= i)%nat -> dBm D i = - (h (i + 2)%nat / (INR i + 2) ^ 2) * cb.
  Hypothesis HB0 : forall i, (1 <= i)%nat -> dB0 D i = (h i / INR i ^ 2 + INR i ^ 2 * h (i + 2)%nat / (INR i + 2) ^ 4) * cb.
  Hypothesis HB2 : forall i, dB2 D i = - (INR i ^ 2 * h (i + 2)%nat / (INR i + 2) ^ 4) * cb.

  Lemma n_pivots : norms h -> (2 <= M)%nat -> ca > 0 -> cb > 0 -> al * be <= 0 -> al <> 0 \/ be <> 0 -> z0 <> 0 ->
    forall i, (i < M)%nat -> l_d0 (lu_factor M D al be) i <> 0.
  Proof.
    intros (N0 & N1 & Nh) HM Ha Hb Hab Hn Hz i Hi. pose proof PI_RGT_0 as HP.
    destruct (signs al be ca cb Ha Hb Hab Hn) as (sg & e & t & Hsg & He & Ht & Ge & Gt & Se & St).
    assert (P : forall k, 0 <= INR k) by apply pos_INR.
    assert (P1 : forall k, (1 <= k)%nat -> 1 <= INR k) by (intros k Hk; change 1 with (INR 1); apply le_INR; exact Hk).
    set (p := fun k => t * (h k / INR k ^ 2)).
    set (q := fun k => t * (INR k ^ 2 * h (k + 2)%nat / (INR k + 2) ^ 4)).
    assert (Q0 : forall k, (1 <= k)%nat -> sg * h0 D al be k = e * (2 * PI * (INR k + 1) / (INR k + 2)) + p k + q k).
    { intros k Hk. unfold h0, p, q. rewrite HA0, HB0 by exact Hk. rewrite <- Ht. replace e with (- (sg * al * ca)) by lra.
      unfold Rdiv. ring. }
    assert (Q2 : forall k, sg * h2 D al be k = e * (4 * PI * (INR k + 1) / (INR k + 2) ^ 2) - q k).
    { intros k. unfold h2, q. rewrite HA2, HB2. rewrite <- Ht. replace e with (- (sg * al * ca)) by lra. unfold Rdiv. ring. }
    assert (Q4 : forall k, sg * h4 D al k = e * (4 * PI * (INR k + 1) / (INR k + 2) ^ 2)).
    { intros k. unfold h4. rewrite HA4. replace e with (- (sg * al * ca)) by lra. unfold Rdiv. ring. }
    assert (X : forall a b, 0 <= a -> 0 < b -> 0 <= a / b).
    { intros a b Ha' Hb'. unfold Rdiv. apply Rmult_le_pos; [exact Ha'|]. left. apply Rinv_0_lt_compat. exact Hb'. }
    assert (Z2 : forall k, 0 <= e * (2 * PI * (INR k + 1) / (INR k + 2)) /\ (e > 0 -> 0 < e * (2 * PI * (INR k + 1) / (INR k + 2)))).
    { intros k. specialize (P k). assert (0 < 2 * PI * (INR k + 1)) by ppos.
      assert (0 < 2 * PI * (INR k + 1) / (INR k + 2)) by (apply Rdiv_lt_0_compat; lra).
      split; [apply Rmult_le_pos; lra|intros; apply Rmult_lt_0_compat; lra]. }
    assert (Z4 : forall k, 0 <= e * (4 * PI * (INR k + 1) / (INR k + 2) ^ 2)).
    { intros k. specialize (P k). assert (0 < 4 * PI * (INR k + 1)) by ppos.
      apply Rmult_le_pos; [lra|]. apply X; [lra|]. apply pow_lt. lra. }
    assert (Hp : forall k, (1 <= k)%nat -> 0 <= p k /\ (t > 0 -> p k > 0)).
    { intros k Hk. unfold p. pose proof (Nh k). specialize (P1 k Hk).
      assert (0 < h k / INR k ^ 2) by (apply Rdiv_lt_0_compat; [lra|apply pow_lt; lra]).
      split; [apply Rmult_le_pos; lra|intros; apply Rmult_lt_0_compat; lra]. }
    assert (Hq : forall k, 0 <= q k).
    { intros k. unfold q. pose proof (Nh (k + 2)%nat). specialize (P k). apply Rmult_le_pos; [lra|]. apply X.
      - apply Rmult_le_pos; [apply pow_le; lra|lra].
      - apply pow_lt. lra. }
    assert (Hor : e > 0 \/ t > 0) by (destruct Hn; [left|right]; auto).
    assert (G : forall k, (1 <= k)%nat -> good M D al be sg p q k).
    { intros k Hk. unfold good. rewrite Q0, Q2, Q4 by exact Hk. split; [apply Hq|].
      destruct (Z2 k) as (Z2a & Z2b). specialize (Z4 k). destruct (Hp k Hk) as (Hp1 & Hp2). split; [|split; intros _; lra].
      destruct Hor as [Ho|Ho]; [left; specialize (Z2b Ho)|right; specialize (Hp2 Ho)]; lra. }
    apply (pivots M D al be sg p q); try assumption; try lia.
    - intros k Hk. destruct (Nat.eq_dec k 0) as [->|Hne].
      + right. split; [unfold h0; rewrite Hz0; exact Hz|]. unfold hm. rewrite HBm0. ring.
      + left. split; [apply Hp; lia|apply G; lia].
    - intros k Hk. apply G. lia.
    - intros k Hk. split; [apply Hp; lia|]. destruct (Nat.eq_dec k 2) as [->|Hne].
      + left. change (2 - 2)%nat with 0%nat. unfold hm. rewrite HBm0. ring.
      + right. unfold hm, p. rewrite HBm by lia. replace (k - 2 + 2)%nat with k by lia.
        rewrite minus_INR by lia. change (INR 2) with 2. replace (INR k - 2 + 2) with (INR k) by ring. rewrite <- Ht. ring.
  Qed.
End NeumannLU.
