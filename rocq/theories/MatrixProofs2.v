(** MatrixProofs2.v -- tables of inner products of derivatives of Legendre polynomials, with weights
    1, 1+x and (1+x)^2. *)
From Coq Require Import Reals Lra Lia List Arith ZArith.
From Verif Require Import Base Fld RPoly StencilModel StencilSpec StencilProofs MatrixSpec MatrixProofs.
Import ListNotations.
Local Open Scope R_scope.

Definition w0 : poly := [1].
Definition w1 : poly := [1; 1].
Definition w2 : poly := [1; 2; 1].
Lemma w0_val x : peval w0 x = 1. Proof. simpl. ring. Qed.
Lemma w1_val x : peval w1 x = 1 + x. Proof. simpl. ring. Qed.
Lemma w2_val x : peval w2 x = (1 + x) ^ 2. Proof. simpl. ring. Qed.
Lemma w1_der x : peval (pderiv w1) x = 1. Proof. simpl. ring. Qed.
Lemma w2_der x : peval (pderiv w2) x = 2 * (1 + x). Proof. simpl. ring. Qed.

Definition v1 (n : nat) : R := INR n * (INR n + 1) / 2.
Definition v2 (n : nat) : R := vL 2 (INR n).
Definition v3 (n : nat) : R := vL 3 (INR n).
Lemma legr1 n : peval (pderiv (legL n)) 1 = v1 n.
Proof. exact (legL_right n 1 ltac:(lia)). Qed.
Lemma legl1 n : peval (pderiv (legL n)) (-1) = - (-1) ^ n * v1 n.
Proof. pose proof (legL_left n 1 ltac:(lia)) as H. unfold deriv_at in H. cbn [dn] in H. rewrite H. unfold v1. cbn [vL pow]. ring. Qed.
Lemma legr2 n : peval (dn 2 (legL n)) 1 = v2 n.
Proof. exact (legL_right n 2 ltac:(lia)). Qed.
Lemma legl2 n : peval (dn 2 (legL n)) (-1) = (-1) ^ n * v2 n.
Proof. pose proof (legL_left n 2 ltac:(lia)) as H. unfold deriv_at in H. rewrite H. unfold v2. ring. Qed.
Lemma legr3 n : peval (dn 3 (legL n)) 1 = v3 n.
Proof. exact (legL_right n 3 ltac:(lia)). Qed.
Lemma legl3 n : peval (dn 3 (legL n)) (-1) = - (-1) ^ n * v3 n.
Proof. pose proof (legL_left n 3 ltac:(lia)) as H. unfold deriv_at in H. rewrite H. unfold v3. ring. Qed.

(** weighted products as plain ones *)
Lemma ip_mul_l w p q : ip (pmul w p) q = ip p (pmul w q).
Proof. apply pint_ext. intros x. rewrite !peval_pmul. ring. Qed.
Lemma ip_w0 p q : ip (pmul w0 p) q = ip p q.
Proof. apply ip_ext; [|reflexivity]. intros x. rewrite peval_pmul, w0_val. ring. Qed.
Lemma deglt_pmul k e w p : length w = S k -> deglt e p -> deglt (k + e) (pmul w p).
Proof.
  intros L H. revert k L. induction w as [|a w IH]; intros k L; [discriminate|].
  cbn [length] in L. assert (Lw : length w = k) by lia. clear L. destruct w as [|b w].
  - cbn [pmul]. eapply deglt_ext with (p := pscale a p).
    + intros x. rewrite peval_padd, peval_pX. simpl. ring.
    + apply deglt_pscale. eapply deglt_mono; [|exact H]. lia.
  - cbn [length] in Lw. destruct k as [|k]; [lia|].
    change (pmul (a :: b :: w) p) with (padd (pscale a p) (pX (pmul (b :: w) p))).
    apply deglt_padd.
    + apply deglt_pscale. eapply deglt_mono; [|exact H]. lia.
    + apply deglt_pX. apply IH. cbn [length]. lia.
Qed.
Lemma deglt_pmul' d e w p : (0 < length w)%nat -> deglt e p -> (length w + e = S d)%nat -> deglt d (pmul w p).
Proof.
  intros Hw H E. destruct (length w) as [|k] eqn:L; [lia|].
  replace d with (k + e)%nat by lia. apply deglt_pmul; assumption.
Qed.

Definition T11 (n m : nat) : R := v1 (Nat.min n m) * (1 + (-1) ^ (n + m)).
Lemma t11_le n m : (n <= m)%nat -> ip (pderiv (legL m)) (pderiv (legL n)) = v1 n * (1 + (-1) ^ (n + m)).
Proof.
  intros H. rewrite ip_parts, legr, legl, legr1, legl1, leg_orthd by (apply (deglt_leg_dn 2); lia).
  rewrite pow_add. ring.
Qed.
Lemma t11 n m : ip (pderiv (legL n)) (pderiv (legL m)) = T11 n m.
Proof.
  unfold T11. destruct (Nat.le_ge_cases n m) as [H|H].
  - rewrite ip_comm, t11_le, Nat.min_l by exact H. reflexivity.
  - rewrite t11_le, Nat.min_r, Nat.add_comm by exact H. reflexivity.
Qed.

Definition T02 (n m : nat) : R := if Nat.leb m n then 0 else (v1 m - v1 n) * (1 + (-1) ^ (n + m)).
Lemma t02 n m : ip (legL n) (dn 2 (legL m)) = T02 n m.
Proof.
  unfold T02. destruct (Nat.leb_spec m n).
  - apply leg_orthd, deglt_leg_dn. lia.
  - rewrite ip_comm. change (dn 2 (legL m)) with (pderiv (pderiv (legL m))).
    rewrite ip_parts, legr, legl, legr1, legl1, t11. unfold T11. rewrite Nat.min_r, !pow_add by lia. ring.
Qed.

Lemma t04_diag k : ip (legL k) (dn 4 (legL (k + 4))) =
  2 * (v3 (k + 4) - v1 k * v2 (k + 4) + v2 k * v1 (k + 4) - v3 k).
Proof.
  rewrite ip_comm. change (dn 4 (legL (k + 4))) with (pderiv (dn 3 (legL (k + 4)))).
  rewrite ip_parts. change (dn 3 (legL (k + 4))) with (pderiv (dn 2 (legL (k + 4)))).
  rewrite ip_parts. change (dn 2 (legL (k + 4))) with (pderiv (dn 1 (legL (k + 4)))).
  rewrite ip_parts. change (dn 1 (legL (k + 4))) with (pderiv (legL (k + 4))).
  rewrite ip_parts. rewrite leg_orthd by (apply (deglt_leg_dn 4); lia).
  change (pderiv (pderiv (legL (k + 4)))) with (dn 2 (legL (k + 4))).
  change (pderiv (pderiv (pderiv (legL k)))) with (dn 3 (legL k)).
  change (pderiv (pderiv (legL k))) with (dn 2 (legL k)).
  change (pderiv (dn 2 (legL (k + 4)))) with (dn 3 (legL (k + 4))).
  rewrite !legr, !legl, !legr1, !legl1, !legr2, !legl2, !legr3, !legl3.
  rewrite !pow_add. replace ((-1) ^ 4) with 1 by (simpl; ring).
  assert (E : (-1) ^ k * (-1) ^ k = 1) by (rewrite <- pow_add; replace (k + k)%nat with (2 * k)%nat by lia; rewrite pow_1_even; reflexivity).
  set (z := (-1) ^ k) in *. clearbody z.
  generalize (v3 (k + 4)) (v2 (k + 4)) (v1 (k + 4)) (v3 k) (v2 k) (v1 k). intros a3 a2 a1 b3 b2 b1.
  replace (2 * (a3 - b1 * a2 + b2 * a1 - b3)) with ((1 + z * z) * (a3 - b1 * a2 + b2 * a1 - b3)) by (rewrite E; ring). ring.
Qed.

(** weight 1 + x *)
Definition T11w1 (n m : nat) : R := 2 * v1 (Nat.min n m).
Lemma t11w1_le n m : (n <= m)%nat -> ip (pderiv (legL m)) (pmul w1 (pderiv (legL n))) = 2 * v1 n.
Proof.
  intros H. rewrite ip_parts, !peval_pmul, legr, legr1, !w1_val.
  rewrite leg_orthd; [ring|]. apply deglt_mono with (d := pred (S n)); [simpl; lia|].
  apply deglt_pderiv. apply deglt_pmul' with (e := n); [simpl; lia|apply (deglt_leg_dn 1); lia|simpl; lia].
Qed.
Lemma t11w1 n m : ip (pmul w1 (pderiv (legL n))) (pderiv (legL m)) = T11w1 n m.
Proof.
  unfold T11w1. destruct (Nat.le_ge_cases n m) as [H|H].
  - rewrite ip_comm, t11w1_le, Nat.min_l by exact H. reflexivity.
  - rewrite ip_mul_l, t11w1_le, Nat.min_r by exact H. reflexivity.
Qed.
Definition T01w1 (n m : nat) : R :=
  if Nat.ltb m n then 0 else if Nat.eqb m n then 2 * INR n / (2 * INR n + 1) else 2.
Lemma xLn n : exists q, deglt n q /\ forall x, x * peval (pderiv (legL n)) x = INR n * peval (legL n) x + peval q x.
Proof.
  destruct n as [|n].
  - exists []. split; [exists []; split; [simpl; lia|reflexivity]|]. intros x. simpl. ring.
  - exists (pderiv (legL n)). split; [apply (deglt_leg_dn 1); lia|]. intros x. destruct (leg_AB n x) as [_ B].
    rewrite S_INR. lra.
Qed.
Lemma t01w1 n m : ip (pmul w1 (legL n)) (pderiv (legL m)) = T01w1 n m.
Proof.
  unfold T01w1. destruct (Nat.ltb_spec m n); [|destruct (Nat.eqb_spec m n) as [->|]].
  - rewrite ip_mul_l. apply leg_orthd. apply deglt_mono with (d := S m); [lia|].
    apply deglt_pmul' with (e := m); [simpl; lia|apply (deglt_leg_dn 1); lia|simpl; lia].
  - rewrite ip_mul_l. destruct (xLn n) as (q & Hq & E).
    rewrite (ip_ext _ (legL n) _ (padd (padd (pderiv (legL n)) q) (pscale (INR n) (legL n)))); [|reflexivity|].
    2: { intros x. rewrite peval_pmul, !peval_padd, peval_pscale, w1_val. specialize (E x). lra. }
    rewrite ip_padd_r, ip_pscale_r, t00_eq, leg_orthd.
    + pose proof (pos_INR n). field. lra.
    + apply deglt_padd; [apply (deglt_leg_dn 1); lia|exact Hq].
  - rewrite ip_comm, ip_parts, !peval_pmul, !legr, !w1_val, leg_orthd; [ring|].
    apply deglt_mono with (d := pred (S (S n))); [simpl; lia|]. apply deglt_pderiv.
    apply deglt_pmul' with (e := S n); [simpl; lia|apply (deglt_leg_dn 0); lia|simpl; lia].
Qed.
Definition T02w1 (n m : nat) : R := 2 * v1 m - T01 n m - T11w1 n m.
Lemma t02w1 n m : ip (pmul w1 (legL n)) (dn 2 (legL m)) = T02w1 n m.
Proof.
  rewrite ip_comm. change (dn 2 (legL m)) with (pderiv (pderiv (legL m))). rewrite ip_parts, !peval_pmul, legr, legr1, !w1_val.
  rewrite (ip_ext _ (pderiv (legL m)) _ (padd (legL n) (pmul w1 (pderiv (legL n))))); [|reflexivity|].
  2: { intros x. rewrite pderiv_pmul, peval_padd, peval_pmul, w1_der. ring. }
  rewrite ip_padd_r, (ip_comm _ (legL n)), t01, (ip_comm _ (pmul _ _)), t11w1. unfold T02w1. ring.
Qed.

(** weight (1 + x)^2 *)
Lemma leg_ode n x : peval (pderiv (pmul [-1; 0; 1] (pderiv (legL n)))) x = INR n * (INR n + 1) * peval (legL n) x.
Proof.
  destruct n as [|n].
  - simpl. ring.
  - transitivity (peval (pderiv (pscale (INR n + 1) (padd (pX (legL (S n))) (pscale (-1) (legL n))))) x).
    + apply peq_deriv. intros y. rewrite peval_pmul, peval_pscale, peval_padd, peval_pX, peval_pscale.
      pose proof (leg_C n y) as C. replace (peval [-1; 0; 1] y) with (y * y - 1) by (simpl; ring). rewrite C. ring.
    + rewrite pderiv_pscale, pderiv_padd, pderiv_pX, pderiv_pscale, S_INR. destruct (leg_AB n x) as [_ B].
      replace (peval (pderiv (legL n)) x) with (x * peval (pderiv (legL (S n))) x - (INR n + 1) * peval (legL (S n)) x) by lra. ring.
Qed.
Definition T11w2 (n m : nat) : R :=
  4 * v1 (Nat.min n m) - if Nat.eqb n m then 2 * INR n * (INR n + 1) / (2 * INR n + 1) else 0.
Lemma t11w2_le n m : (n <= m)%nat -> ip (pderiv (legL m)) (pmul w2 (pderiv (legL n))) =
  4 * v1 n - if Nat.eqb n m then 2 * INR n * (INR n + 1) / (2 * INR n + 1) else 0.
Proof.
  intros H. rewrite ip_parts, !peval_pmul, legr, legr1, !w2_val.
  destruct (Nat.eqb_spec n m) as [<-|N].
  - rewrite (ip_ext _ (legL n) _ (padd (pscale (INR n * (INR n + 1)) (legL n)) (pderiv (pmul (pscale 2 w1) (pderiv (legL n)))))); [|reflexivity|].
    2: { intros x. rewrite peval_padd, peval_pscale, <- leg_ode, <- pderiv_padd. apply peq_deriv. intros y.
         rewrite peval_padd, !peval_pmul, peval_pscale, w1_val, w2_val. simpl. ring. }
    rewrite ip_padd_r, ip_pscale_r, t00_eq, leg_orthd.
    + pose proof (pos_INR n). field. lra.
    + apply deglt_mono with (d := pred (S n)); [simpl; lia|]. apply deglt_pderiv.
      apply deglt_pmul' with (e := n); [simpl; lia|apply (deglt_leg_dn 1); lia|simpl; lia].
  - rewrite leg_orthd; [ring|]. apply deglt_mono with (d := pred (S (S n))); [simpl; lia|].
    apply deglt_pderiv. apply deglt_pmul' with (e := n); [simpl; lia|apply (deglt_leg_dn 1); lia|simpl; lia].
Qed.
Lemma t11w2 n m : ip (pmul w2 (pderiv (legL n))) (pderiv (legL m)) = T11w2 n m.
Proof.
  unfold T11w2. destruct (Nat.le_ge_cases n m) as [H|H].
  - rewrite ip_comm, t11w2_le, Nat.min_l by exact H. reflexivity.
  - rewrite ip_mul_l, t11w2_le, Nat.min_r by exact H. rewrite Nat.eqb_sym. destruct (Nat.eqb_spec n m) as [->|]; reflexivity.
Qed.
Definition T02w2 (n m : nat) : R := 4 * v1 m - 2 * T01w1 n m - T11w2 n m.
Lemma t02w2 n m : ip (pmul w2 (legL n)) (dn 2 (legL m)) = T02w2 n m.
Proof.
  rewrite ip_comm. change (dn 2 (legL m)) with (pderiv (pderiv (legL m))). rewrite ip_parts, !peval_pmul, legr, legr1, !w2_val.
  rewrite (ip_ext _ (pderiv (legL m)) _ (padd (pscale 2 (pmul w1 (legL n))) (pmul w2 (pderiv (legL n))))); [|reflexivity|].
  2: { intros x. rewrite pderiv_pmul, peval_padd, peval_pscale, !peval_pmul, w2_der, w1_val. ring. }
  rewrite ip_padd_r, ip_pscale_r, !(ip_comm _ (pmul _ _)), t01w1, t11w2. unfold T02w2. ring.
Qed.
