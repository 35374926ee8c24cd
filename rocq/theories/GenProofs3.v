(** GenProofs3.v -- the test functions Phi_k of the Legendre family are dual to the k'th derivatives, for every k. *)
From Coq Require Import Reals ZArith List Bool Arith Lia Lra.
From Verif Require Import Base Fld SparseModel SparseSpec RPoly StencilModel StencilSpec StencilProofs StencilProofs8 MatrixProofs JacobiModel JacobiProofs2 JacobiProofs3 GenModel GenSpec GenProofs GenProofs2.
Import ListNotations.
Local Open Scope R_scope.
Notation rsum := (gsum 0 Rplus).

Lemma ip_form : is_form ip.
Proof.
  split; [intros; apply ip_ext; auto|]. split; [intros; apply ip_padd_l|]. split; [intros; apply ip_pscale_l|]. split; [intros; apply ip_padd_r|].
  split; [intros; apply ip_pscale_r|]. intros. apply ip_pX.
Qed.
(** Jacobi polynomials with parameters 0, 0 are the Legendre polynomials *)
Lemma jac_leg n x : peval (jacP 0 0 n) x = peval (legL n) x.
Proof.
  enough (peval (jacP 0 0 n) x = peval (legL n) x /\ peval (jacP 0 0 (S n)) x = peval (legL (S n)) x) by tauto.
  induction n as [|n [H1 H2]].
  - split; [reflexivity|]. cbn. field.
  - split; [exact H2|]. unfold jacP, legL in *. cbn [three_term] in *. pose proof (pos_INR n). rewrite !peval_padd, !peval_pscale, !peval_pX.
    rewrite H1. cbn [three_term] in H2. rewrite H2. field. repeat split; lra.
Qed.
Lemma jacQ_leg n x : peval (jacQ (fun _ => 1) 0 0 n) x = peval (legL n) x.
Proof. unfold jacQ. rewrite peval_pscale, jac_leg. ring. Qed.
Lemma powers_ext P P' A : (forall n x, peval (P n) x = peval (P' n) x) -> powers P A -> powers P' A.
Proof. intros E [H1 H2]. split; [|exact H2]. intros q j x. rewrite <- E, H1. apply sum_ext. intros i _. rewrite E. reflexivity. Qed.
Lemma dpowers_ext P P' k A : (forall n x, peval (P n) x = peval (P' n) x) -> dpowers P k A -> dpowers P' k A.
Proof.
  intros E (H0 & H1 & H2). split; [|split; [|exact H2]].
  - intros j x H. rewrite <- (peq_dn k _ _ (E j)). auto.
  - intros q j x H. rewrite <- (peq_dn k _ _ (E j)), H1 by exact H. apply sum_ext. intros i _. rewrite (peq_dn k _ _ (E (k + i)%nat)). reflexivity.
Qed.
Lemma integrates_ext P P' B : (forall n x, peval (P n) x = peval (P' n) x) -> integrates P B -> integrates P' B.
Proof. intros E [H1 H2]. split; [|exact H2]. intros l j x. rewrite <- E, (H1 l). apply sum_ext. intros i _. rewrite (peq_dn l _ _ (E i)). reflexivity. Qed.
Definition leg_Ax := jac_Ax (fun _ => 1) 0 0.
Definition leg_am := jac_am (fun _ => 1) 0 0.
Definition leg_bm := jac_bm (fun _ => 1) 0 0.
Lemma leg_powers : powers legL leg_Ax.
Proof. apply (powers_ext _ _ _ jacQ_leg). apply jac_powers; lra || (intros; lra). Qed.
Lemma leg_dpowers k : (0 < k)%nat -> dpowers legL k (leg_am k).
Proof. intros H. apply (dpowers_ext _ _ _ _ jacQ_leg). apply jac_dpowers; lra || lia || (intros; lra). Qed.
Lemma leg_integrates : integrates legL leg_bm.
Proof. apply (integrates_ext _ _ _ jacQ_leg). apply jac_integrates; lra || (intros; lra). Qed.

(** ** combinations of L_m, L_(m+2), .. *)
Definition comb2 (m r : nat) (c : nat -> R) : poly := pcomb r c (fun i => legL (m + 2 * i)).
Lemma comb2_eval m r c x : peval (comb2 m r c) x = rsum r (fun i => c i * peval (legL (m + 2 * i)) x). Proof. apply peval_comb. Qed.
Lemma comb2_end m r c : rsum r c = 0 -> peval (comb2 m r c) 1 = 0 /\ peval (comb2 m r c) (-1) = 0.
Proof.
  intros H. split; rewrite comb2_eval.
  - rewrite (sum_ext r _ c); [exact H|]. intros i _. rewrite legr. ring.
  - rewrite (sum_ext r _ (fun i => (-1) ^ m * c i)); [rewrite sum_scal, H; ring|]. intros i _. rewrite legl, pow_add, pow_mult.
    replace ((-1) ^ 2) with 1 by ring. rewrite pow1. ring.
Qed.
Lemma comb2_deriv0 m r c x : peval (pderiv (comb2 m (S r) c)) x =
  rsum (S r) c * peval (pderiv (legL (m + 2 * r))) x - rsum r (fun i => rsum (S i) c * (2 * INR (m + 2 * i) + 3) * peval (legL (m + 1 + 2 * i)) x).
Proof.
  change (peval (pderiv (comb2 m (S r) c)) x) with (deriv_at 1 (comb2 m (S r) c) x). unfold comb2. rewrite deriv_at_pcomb.
  induction r as [|r IH]; [cbn [gsum]; unfold deriv_at; cbn [dn]; ring|].
  cbn [gsum] in *. rewrite IH. unfold deriv_at. cbn [dn].
  assert (peval (pderiv (legL (m + 2 * r))) x = peval (pderiv (legL (m + 2 * S r))) x - (2 * INR (m + 2 * r) + 3) * peval (legL (m + 1 + 2 * r)) x) as E.
  { replace (m + 2 * S r)%nat with (S (S (m + 2 * r))) by lia. replace (m + 1 + 2 * r)%nat with (S (m + 2 * r)) by lia. rewrite leg_diff. ring. }
  rewrite E. ring.
Qed.
Lemma comb2_deriv m r c x : rsum (S r) c = 0 -> peval (pderiv (comb2 m (S r) c)) x =
  - peval (comb2 (m + 1) r (fun i => rsum (S i) c * (2 * INR (m + 2 * i) + 3))) x.
Proof. intros H. rewrite comb2_deriv0, comb2_eval, H. ring. Qed.
(** the coefficients c' of the functions with one derivative less *)
Lemma dual_step k r (c c' : nat -> nat -> R) : (forall m, rsum (S r) (c m) = 0) ->
  (forall m i, (i < r)%nat -> rsum (S i) (c m) * (2 * INR (m + 2 * i) + 3) = c' (m + 1)%nat i) ->
  (forall n m, ip (dn k (legL n)) (comb2 m r (c' m)) = if (n =? m + k)%nat then 1 else 0) ->
  forall n m, ip (dn (S k) (legL n)) (comb2 m (S r) (c m)) = if (n =? m + S k)%nat then 1 else 0.
Proof.
  intros H0 H1 H2 n m. cbn [dn]. rewrite ip_parts. destruct (comb2_end m (S r) (c m) (H0 m)) as [-> ->].
  rewrite (ip_ext (dn k (legL n)) (dn k (legL n)) (pderiv (comb2 m (S r) (c m))) (pscale (-1) (comb2 (m + 1) r (c' (m + 1)%nat)))).
  - rewrite ip_pscale_r, H2. replace (m + 1 + k)%nat with (m + S k)%nat by lia. destruct (_ =? _)%nat; ring.
  - reflexivity.
  - intros x. rewrite comb2_deriv by apply H0. rewrite peval_pscale, !comb2_eval.
    rewrite (sum_ext r (fun i => rsum (S i) (c m) * (2 * INR (m + 2 * i) + 3) * _) (fun i => c' (m + 1)%nat i * peval (legL (m + 1 + 2 * i)) x)); [ring|].
    intros i Hi. rewrite H1 by exact Hi. reflexivity.
Qed.

(** ** the coefficients of Phi_k *)
Fixpoint bn (k i : nat) : nat := match i, k with O, _ => 1 | S i, O => 0 | S i, S k => bn k i + bn k (S i) end%nat.
Lemma bn_high k : forall i, (k < i)%nat -> bn k i = 0%nat.
Proof. induction k as [|k IH]; intros [|i] H; try lia; [reflexivity|]. cbn [bn]. rewrite !IH by lia. reflexivity. Qed.
Lemma bn_absorb k : forall i, (S i * bn (S k) (S i) = S k * bn k i)%nat.
Proof.
  induction k as [|k IH]; intros i.
  - destruct i as [|i]; [reflexivity|]. cbn [bn]. lia.
  - change (bn (S (S k)) (S i)) with (bn (S k) i + bn (S k) (S i))%nat. specialize (IH i) as E. destruct i as [|i].
    + change (bn (S k) 0) with 1%nat. replace (bn k 0) with 1%nat in E by (destruct k; reflexivity). lia.
    + specialize (IH i). change (bn (S k) (S i)) with (bn k i + bn k (S i))%nat in *. nia.
Qed.
(** (x+2)(x+4) .. (x+2n) *)
Fixpoint pr (x : R) (n : nat) : R := match n with O => 1 | S n => pr x n * (x + 2 * INR (S n)) end.
Lemma pr_front n : forall x, pr (x - 2) (S n) = x * pr x n.
Proof. induction n as [|n IH]; intros x; [cbn; ring|]. change (pr (x - 2) (S (S n))) with (pr (x - 2) (S n) * (x - 2 + 2 * INR (S (S n)))). rewrite IH. cbn [pr]. rewrite !S_INR. ring. Qed.
Lemma pr_pos n x : 0 < x -> 0 < pr x n.
Proof. intros H. induction n as [|n IH]; cbn [pr]; [lra|]. pose proof (pos_INR (S n)). apply Rmult_lt_0_compat; lra. Qed.
Definition pc (k m i : nat) : R :=
  let x := 2 * INR m + 2 * INR i + 1 in
  (-1) ^ i * INR (bn k i) * (x + 2 * INR i) * (2 * INR m + 2 * INR k + 1) / (2 * x * pr x k).
Lemma pc_partial k m i : rsum (S i) (pc (S k) m) =
  (-1) ^ i * INR (bn k i) * (2 * INR m + 2 * INR (S k) + 1) / (2 * pr (2 * INR m + 2 * INR i + 1) (S k)).
Proof.
  induction i as [|i IH].
  - cbn [gsum]. unfold pc. replace (bn (S k) 0) with 1%nat by reflexivity. replace (bn k 0) with 1%nat by (destruct k; reflexivity).
    rewrite Rplus_0_l. cbn [INR pow]. pose proof (pos_INR m). pose proof (pr_pos (S k) (2 * INR m + 2 * 0 + 1) ltac:(lra)).
    field. split; lra.
  - change (rsum (S (S i)) (pc (S k) m)) with (rsum (S i) (pc (S k) m) + pc (S k) m (S i)). rewrite IH. unfold pc.
    set (x := 2 * INR m + 2 * INR (S i) + 1). replace (2 * INR m + 2 * INR i + 1) with (x - 2) by (unfold x; rewrite S_INR; ring).
    rewrite pr_front. cbn [pr pow]. pose proof (pos_INR m). pose proof (pos_INR i). pose proof (pos_INR k).
    assert (0 < x) as Hx by (unfold x; rewrite S_INR; lra). pose proof (pr_pos k x Hx) as Hp.
    pose proof (f_equal INR (bn_absorb k i)) as A. rewrite !mult_INR in A. change (bn (S k) (S i)) with (bn k i + bn k (S i))%nat in *. rewrite !plus_INR in *.
    set (B0 := INR (bn k i)) in *. set (B1 := INR (bn k (S i))) in *. set (p := pr x k) in *. set (kk := INR (S k)) in *. set (ii := INR (S i)) in *.
    assert (0 < kk) by (unfold kk; rewrite S_INR; lra).
    assert (B0 * (x + 2 * kk) + B1 * x = (B0 + B1) * (x + 2 * ii)) as E by lra.
    replace (-1 * (-1) ^ i * (B0 + B1) * (x + 2 * ii)) with (- (-1) ^ i * ((B0 + B1) * (x + 2 * ii))) by ring. rewrite <- E.
    field. repeat split; lra.
Qed.
Theorem pc_dual k : forall n m, ip (dn k (legL n)) (comb2 m (S k) (pc k m)) = if (n =? m + k)%nat then 1 else 0.
Proof.
  induction k as [|k IH].
  - intros n m. cbn [dn]. rewrite (ip_ext _ (legL n) _ (pscale ((2 * INR m + 1) / 2) (legL m))).
    + rewrite ip_pscale_r, t00. unfold T00. rewrite Nat.add_0_r. destruct (Nat.eqb_spec n m) as [->|]; [|ring]. pose proof (pos_INR m). field. lra.
    + reflexivity.
    + intros x. rewrite comb2_eval, peval_pscale. cbn [gsum]. unfold pc. cbn [bn pr pow INR]. rewrite Nat.mul_0_r, Nat.add_0_r. pose proof (pos_INR m). field. lra.
  - apply (dual_step k (S k) (pc (S k)) (pc k)); [| |exact IH].
    + intros m. rewrite pc_partial, bn_high by lia. cbn [INR]. unfold Rdiv. ring.
    + intros m i Hi. rewrite pc_partial. unfold pc.
      replace (2 * INR (m + 1) + 2 * INR i + 1) with (2 * INR m + 2 * INR i + 1 + 2) by (rewrite plus_INR; cbn [INR]; ring).
      set (x := 2 * INR m + 2 * INR i + 1). replace (pr x (S k)) with ((x + 2) * pr (x + 2) k) by (rewrite <- pr_front; f_equal; ring).
      pose proof (pos_INR m). pose proof (pos_INR i). assert (0 < x) by (unfold x; lra). pose proof (pr_pos k (x + 2) ltac:(lra)).
      rewrite !plus_INR, mult_INR, !S_INR. cbn [INR]. replace (2 * (INR m + (0 + 1 + 1) * INR i) + 3) with (x + 2 + 2 * INR i) by (unfold x; ring).
      unfold Rdiv. replace (2 * (INR m + 1) + 2 * INR k + 1) with (2 * INR m + 2 * (INR k + 1) + 1) by ring.
      replace (2 * ((x + 2) * pr (x + 2) k)) with (2 * (x + 2) * pr (x + 2) k) by ring. ring.
Qed.
