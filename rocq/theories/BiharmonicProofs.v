(** BiharmonicProofs.v -- the elimination of one half (even or odd coefficients). *)
From Coq Require Import Reals ZArith List Arith Bool Lia Lra.
From Verif Require Import Base Fld SparseModel RPoly StencilModel StencilModel2 LegMatrixModel HelmholtzModel HelmholtzProofs BiharmonicModel.
Import ListNotations.
Local Open Scope R_scope.

Section Half.
  Variables (M odd : nat) (a b c : R) (D : bdiags).
  Let h := half odd.
  (** the half matrix *)
  Definition Hb (k j : nat) : R :=
    if Nat.eqb j k then a * h (sii D) k + b * h (aii D) k + c * h (bii D) k
    else if Nat.eqb j (k + 1) then a * h (siu D) k + b * h (aiu D) k + c * h (biu D) k
    else if Nat.eqb j (k + 2) then a * h (siuu D) k + c * h (biuu D) k
    else if Nat.leb (k + 3) j then far a odd k j
    else if Nat.eqb (j + 1) k then b * h (ail D) j + c * h (bil D) j
    else if Nat.eqb (j + 2) k then c * h (bill D) j else 0.

  Lemma on_range_in lo g x i : (lo <= i < M)%nat -> on_range M lo g x i = g i (x i).
  Proof. intros [H1 H2]. unfold on_range. apply Nat.leb_le in H1. apply Nat.ltb_lt in H2. rewrite H1, H2. reflexivity. Qed.
  Lemma on_range_out lo g x i : (i < lo)%nat -> on_range M lo g x i = x i.
  Proof. intros H1. unfold on_range. apply Nat.leb_gt in H1. rewrite H1. reflexivity. Qed.

  Definition lower0 (l1 : nat -> R) (U : nat -> nat -> R) r j := if Nat.leb 2 r then l1 (r - 2)%nat * U (r - 2)%nat j else 0.
  Definition inv (kk : nat) (s : bst) : Prop := exists U : nat -> nat -> R,
    (forall j, (j < M)%nat -> U 0%nat j = Hb 0 j) /\
    (forall r j, (1 <= r < kk)%nat -> (r <= j < M)%nat -> U r j = Hb r j - m0 s (r - 1)%nat * U (r - 1)%nat j - lower0 (m1 s) U r j) /\
    (forall r, (1 <= r < kk)%nat -> m0 s (r - 1)%nat = (Hb r (r - 1)%nat - lower0 (m1 s) U r (r - 1)%nat) / v0 s (r - 1)%nat) /\
    (forall r, (2 <= r <= kk)%nat -> (r < M)%nat -> m1 s (r - 2)%nat = Hb r (r - 2)%nat / v0 s (r - 2)%nat) /\
    (forall r, (r < kk)%nat -> v0 s r = U r r /\ ((r + 1 < M)%nat -> v1 s r = U r (r + 1)%nat) /\ ((r + 2 < M)%nat -> v2 s r = U r (r + 2)%nat)) /\
    (forall j, (kk - 1 <= j < M)%nat -> k0 s j = U (kk - 1)%nat j) /\
    ((kk < M)%nat -> forall j, (kk - 1 <= j < M)%nat -> k1 s j = Hb kk j - lower0 (m1 s) U kk j) /\
    ((kk + 1 < M)%nat -> forall j, (kk - 1 <= j < M)%nat -> k2 s j = Hb (kk + 1) j).

  Lemma init_rows j : (5 <= M)%nat -> (j < M)%nat ->
    k0 (bh_init M odd a b c D) j = Hb 0 j /\ k1 (bh_init M odd a b c D) j = Hb 1 j /\ k2 (bh_init M odd a b c D) j = Hb 2 j.
  Proof.
    intros HM Hj. unfold bh_init. cbn [k0 k1 k2].
    do 5 (destruct j as [|j]; [rewrite !on_range_out by lia; unfold Hb; cbn [Nat.eqb Nat.add Nat.leb]; upds; repeat split; reflexivity|]).
    rewrite !on_range_in by lia. unfold Hb. cbn [Nat.eqb Nat.add Nat.leb]. repeat split; reflexivity.
  Qed.

  Lemma inv_init : (5 <= M)%nat -> inv 1 (bh_init M odd a b c D).
  Proof.
    intros HM. set (s := bh_init M odd a b c D). exists (fun r j => Hb r j).
    assert (R : forall j, (j < M)%nat -> k0 s j = Hb 0 j /\ k1 s j = Hb 1 j /\ k2 s j = Hb 2 j) by (intros; apply init_rows; assumption).
    split; [intros; reflexivity|]. split; [intros; lia|]. split; [intros; lia|]. split; [intros; lia|].
    split.
    { intros r Hr. assert (r = 0%nat) as -> by lia. cbn [Nat.add].
      assert (E0 : v0 s 0%nat = k0 s 0%nat) by (unfold s, bh_init; cbn [v0 k0]; apply upd_same).
      assert (E1 : v1 s 0%nat = k0 s 1%nat) by (unfold s, bh_init; cbn [v1 k0]; apply upd_same).
      assert (E2 : v2 s 0%nat = k0 s 2%nat) by (unfold s, bh_init; cbn [v2 k0]; apply upd_same).
      rewrite E0, E1, E2. repeat split; intros; apply R; lia. }
    split; [intros j Hj; apply R; lia|]. split.
    - intros _ j Hj. unfold lower0. cbn [Nat.leb]. rewrite Rminus_0_r. apply R; lia.
    - intros _ j Hj. apply R; lia.
  Qed.

  (** the new third row *)
  Lemma row_fill kk x j : (5 <= M)%nat -> (kk < M - 2)%nat -> (kk <= j < M)%nat ->
    (let c2 := upd x kk (c * h (bill D) kk) in
     let c2 := upd c2 (kk + 1) (b * h (ail D) (kk + 1)%nat + c * h (bil D) (kk + 1)%nat) in
     let c2 := upd c2 (kk + 2) (a * h (sii D) (kk + 2)%nat + b * h (aii D) (kk + 2)%nat + c * h (bii D) (kk + 2)%nat) in
     let c2 := if Nat.ltb kk (M - 3) then upd c2 (kk + 3) (a * h (siu D) (kk + 2)%nat + b * h (aiu D) (kk + 2)%nat + c * h (biu D) (kk + 2)%nat) else c2 in
     let c2 := if Nat.ltb kk (M - 4) then upd c2 (kk + 4) (a * h (siuu D) (kk + 2)%nat + c * h (biuu D) (kk + 2)%nat) else c2 in
     (if Nat.ltb kk (M - 5) then on_range M (kk + 5) (fun i _ => far a odd (kk + 2) i) c2 else c2) j) = Hb (kk + 2) j.
  Proof.
    intros HM Hk Hj. cbv zeta. unfold Hb.
    destruct (Nat.lt_ge_cases j (kk + 5)) as [H5|H5].
    - replace ((if Nat.ltb kk (M - 5) then on_range M (kk + 5) (fun i _ => far a odd (kk + 2) i) _ else _) j)
        with ((if Nat.ltb kk (M - 4) then upd (if Nat.ltb kk (M - 3) then upd (upd (upd (upd x kk (c * h (bill D) kk)) (kk + 1) (b * h (ail D) (kk + 1)%nat + c * h (bil D) (kk + 1)%nat)) (kk + 2) (a * h (sii D) (kk + 2)%nat + b * h (aii D) (kk + 2)%nat + c * h (bii D) (kk + 2)%nat)) (kk + 3) (a * h (siu D) (kk + 2)%nat + b * h (aiu D) (kk + 2)%nat + c * h (biu D) (kk + 2)%nat) else upd (upd (upd x kk (c * h (bill D) kk)) (kk + 1) (b * h (ail D) (kk + 1)%nat + c * h (bil D) (kk + 1)%nat)) (kk + 2) (a * h (sii D) (kk + 2)%nat + b * h (aii D) (kk + 2)%nat + c * h (bii D) (kk + 2)%nat)) (kk + 4) (a * h (siuu D) (kk + 2)%nat + c * h (biuu D) (kk + 2)%nat) else if Nat.ltb kk (M - 3) then upd (upd (upd (upd x kk (c * h (bill D) kk)) (kk + 1) (b * h (ail D) (kk + 1)%nat + c * h (bil D) (kk + 1)%nat)) (kk + 2) (a * h (sii D) (kk + 2)%nat + b * h (aii D) (kk + 2)%nat + c * h (bii D) (kk + 2)%nat)) (kk + 3) (a * h (siu D) (kk + 2)%nat + b * h (aiu D) (kk + 2)%nat + c * h (biu D) (kk + 2)%nat) else upd (upd (upd x kk (c * h (bill D) kk)) (kk + 1) (b * h (ail D) (kk + 1)%nat + c * h (bil D) (kk + 1)%nat)) (kk + 2) (a * h (sii D) (kk + 2)%nat + b * h (aii D) (kk + 2)%nat + c * h (bii D) (kk + 2)%nat)) j)
        by (destruct (Nat.ltb kk (M - 5)); [rewrite on_range_out by lia; reflexivity|reflexivity]).
      assert (Hc : (j = kk \/ j = kk + 1 \/ j = kk + 2 \/ j = kk + 3 \/ j = kk + 4)%nat) by lia.
      destruct Hc as [->|[->|[->|[->| ->]]]];
        repeat match goal with
               | |- context [Nat.eqb ?x ?y] => destruct (Nat.eqb_spec x y); try lia
               | |- context [Nat.leb ?x ?y] => destruct (Nat.leb_spec x y); try lia
               | |- context [Nat.ltb ?x ?y] => destruct (Nat.ltb_spec x y); try lia
               end; upds; reflexivity.
    - replace (Nat.ltb kk (M - 5)) with true by (symmetry; apply Nat.ltb_lt; lia). rewrite on_range_in by lia.
      repeat match goal with
             | |- context [Nat.eqb ?x ?y] => destruct (Nat.eqb_spec x y); try lia
             | |- context [Nat.leb ?x ?y] => destruct (Nat.leb_spec x y); try lia
             end. reflexivity.
  Qed.

  Lemma inv_step kk s : (5 <= M)%nat -> (1 <= kk < M)%nat -> inv kk s -> inv (S kk) (bh_step M odd a b c D kk s).
  Proof.
    intros HM Hk (U & I0 & I1 & I2 & I3 & I4 & I5 & I6 & I7).
    set (s' := bh_step M odd a b c D kk s).
    exists (fun r j => if Nat.eqb r kk then k0 s' j else U r j).
    assert (Em0 : forall r, r <> (kk - 1)%nat -> m0 s' r = m0 s r) by (intros r Hr; unfold s', bh_step; cbn [m0]; apply upd_other; exact Hr).
    assert (Em1 : forall r, r <> (kk - 1)%nat -> m1 s' r = m1 s r).
    { intros r Hr. unfold s', bh_step; cbn [m1]. destruct (Nat.ltb kk (M - 1)); [apply upd_other; exact Hr|reflexivity]. }
    assert (Em0k : m0 s' (kk - 1)%nat = k1 s (kk - 1)%nat / v0 s (kk - 1)%nat) by (unfold s', bh_step; cbn [m0]; apply upd_same).
    assert (Em1k : (kk < M - 1)%nat -> m1 s' (kk - 1)%nat = k2 s (kk - 1)%nat / v0 s (kk - 1)%nat).
    { intros H. unfold s', bh_step; cbn [m1]. apply Nat.ltb_lt in H. rewrite H. apply upd_same. }
    assert (Ev0 : forall r, r <> kk -> v0 s' r = v0 s r) by (intros r Hr; unfold s', bh_step; cbn [v0]; apply upd_other; exact Hr).
    assert (Ev1 : forall r, r <> kk -> v1 s' r = v1 s r).
    { intros r Hr. unfold s', bh_step; cbn [v1]. destruct (Nat.ltb kk (M - 1)); [apply upd_other; exact Hr|reflexivity]. }
    assert (Ev2 : forall r, r <> kk -> v2 s' r = v2 s r).
    { intros r Hr. unfold s', bh_step; cbn [v2]. destruct (Nat.ltb kk (M - 2)); [apply upd_other; exact Hr|reflexivity]. }
    assert (Ec0 : forall j, (kk <= j < M)%nat -> k0 s' j = k1 s j - m0 s' (kk - 1)%nat * k0 s j).
    { intros j Hj. unfold s', bh_step. cbn [k0 m0]. rewrite !on_range_in by exact Hj. reflexivity. }
    assert (Ec1 : forall j, (kk < M - 1)%nat -> (kk <= j < M)%nat -> k1 s' j = k2 s j - m1 s' (kk - 1)%nat * k0 s j).
    { intros j H Hj. unfold s', bh_step. cbn [k1 m1]. apply Nat.ltb_lt in H. rewrite H. rewrite !on_range_in by exact Hj. reflexivity. }
    assert (EU : forall r j, r <> kk -> (if Nat.eqb r kk then k0 s' j else U r j) = U r j) by (intros r j Hr; destruct (Nat.eqb_spec r kk); [contradiction|reflexivity]).
    assert (EUk : forall j, (if Nat.eqb kk kk then k0 s' j else U kk j) = k0 s' j) by (intros; rewrite Nat.eqb_refl; reflexivity).
    assert (Elow : forall r j, (r <= kk)%nat -> lower0 (m1 s') (fun r j => if Nat.eqb r kk then k0 s' j else U r j) r j = lower0 (m1 s) U r j).
    { intros r j Hr. unfold lower0. destruct (Nat.leb_spec 2 r); [|reflexivity]. rewrite EU by lia. rewrite Em1 by lia. reflexivity. }
    split; [intros j Hj; rewrite EU by lia; apply I0; exact Hj|].
    split.
    { intros r j Hr Hj. rewrite Elow by lia. destruct (Nat.eq_dec r kk) as [->|Hne].
      - rewrite EUk, (EU (kk - 1)%nat) by lia. rewrite Ec0, I6, I5 by lia. ring.
      - rewrite !EU by lia. rewrite Em0 by lia. apply I1; lia. }
    split.
    { intros r Hr. rewrite Elow by lia. destruct (Nat.eq_dec r kk) as [->|Hne].
      - rewrite Em0k. rewrite Ev0 by lia. rewrite I6 by lia. reflexivity.
      - rewrite Em0, Ev0 by lia. apply I2. lia. }
    split.
    { intros r Hr HrM. destruct (Nat.eq_dec r (S kk)) as [->|Hne].
      - replace (S kk - 2)%nat with (kk - 1)%nat by lia. rewrite Em1k, Ev0 by lia. rewrite I7 by lia.
        replace (kk + 1)%nat with (S kk) by lia. reflexivity.
      - rewrite Em1, Ev0 by lia. apply I3; lia. }
    split.
    { intros r Hr. destruct (Nat.eq_dec r kk) as [->|Hne].
      - rewrite EUk. rewrite Nat.eqb_refl. unfold s' at 1 3 5. unfold bh_step. cbn [v0 v1 v2]. repeat split.
        + rewrite upd_same. reflexivity.
        + intros H. replace (Nat.ltb kk (M - 1)) with true by (symmetry; apply Nat.ltb_lt; lia). rewrite upd_same. reflexivity.
        + intros H. replace (Nat.ltb kk (M - 2)) with true by (symmetry; apply Nat.ltb_lt; lia). rewrite upd_same. reflexivity.
      - rewrite Ev0, Ev1, Ev2 by exact Hne. rewrite !EU by exact Hne. apply I4. lia. }
    split.
    { intros j Hj. replace (S kk - 1)%nat with kk by lia. rewrite EUk. reflexivity. }
    split.
    { intros HS j Hj. rewrite Ec1 by lia. rewrite I7, I5 by lia. replace (kk + 1)%nat with (S kk) by lia. f_equal.
      unfold lower0. destruct (Nat.leb_spec 2 (S kk)); [|lia]. replace (S kk - 2)%nat with (kk - 1)%nat by lia.
      rewrite EU by lia. reflexivity. }
    intros HS j Hj. replace (S kk + 1)%nat with (kk + 2)%nat by lia. unfold s', bh_step. cbn [k2].
    replace (Nat.ltb kk (M - 2)) with true by (symmetry; apply Nat.ltb_lt; lia).
    apply (row_fill kk _ j); lia.
  Qed.

  Lemma lu_inv : (5 <= M)%nat -> inv M (bh_lu M odd a b c D).
  Proof.
    intros HM. unfold bh_lu. replace M with (1 + (M - 1))%nat at 1 by lia.
    apply (for_up_inv (fun i s => inv i s)); [apply inv_init; exact HM|]. intros i s Hi H. apply inv_step; try assumption; lia.
  Qed.
End Half.
