(** GenProofs6.v -- the functions Phi_k are dual to the k'th derivatives, for every family with a matrix b (Q_j = sum_i b_ij Q_i'). *)
From Coq Require Import Reals ZArith List Bool Arith Lia Lra.
From Verif Require Import Base Fld SparseModel SparseSpec RPoly StencilProofs StencilProofs8 JacobiModel JacobiProofs2 JacobiProofs3 JacobiProofs4 GenModel GenSpec GenProofs GenProofs2.
Import ListNotations.
Local Open Scope R_scope.
Notation rsum := (gsum 0 Rplus).

Lemma sum_first n (f : nat -> R) : rsum (S n) f = f 0%nat + rsum n (fun i => f (S i)).
Proof. induction n as [|n IH]; [cbn; ring|]. change (rsum (S (S n)) f) with (rsum (S n) f + f (S n)). rewrite IH. cbn [gsum]. ring. Qed.
(** ** in one step: the coefficients are row m+k of the matrix b^k, divided by the norms *)
Definition phi_of (P : nat -> poly) (bm : nat -> mat) (h : nat -> R) (k m : nat) : poly :=
  pcomb (m + 2 * k + 1) (fun j => bm k (m + k)%nat j / h j) P.
Section General.
Variables (f : poly -> poly -> R) (P : nat -> poly) (bm : nat -> mat) (h : nat -> R) (k : nat).
Hypothesis F : is_form f.
Hypothesis HB : integrates P bm.
Hypothesis H0 : forall i x, (i < k)%nat -> deriv_at k (P i) x = 0.
Hypothesis HO : forall i j, f (P i) (P j) = if (i =? j)%nat then h i else 0.
Hypothesis Hh : forall i, h i <> 0.
Hypothesis HL : forall j, bm k (j + k)%nat j <> 0.
Lemma phi_row j m : f (P j) (phi_of P bm h k m) = bm k (m + k)%nat j.
Proof.
  unfold phi_of. rewrite (f_pcomb_r f F). destruct HB as [_ Bd]. destruct (Nat.lt_ge_cases j (m + 2 * k + 1)) as [Hj|Hj].
  - rewrite (sum_one _ j); [rewrite HO, Nat.eqb_refl; field; apply Hh|exact Hj|].
    intros i _ Hi. rewrite HO. destruct (Nat.eqb_spec j i); [congruence|ring].
  - rewrite sum_0; [symmetry; apply Bd; lia|]. intros i Hi. rewrite HO. destruct (Nat.eqb_spec j i); [lia|ring].
Qed.
Theorem dual_general dim : dual f P (phi_of P bm h k) k dim.
Proof.
  intros n m _. revert n. apply (well_founded_induction Wf_nat.lt_wf). intros n IH. destruct (Nat.lt_ge_cases n k) as [Hn|Hn].
  - destruct (Nat.eqb_spec n (m + k)); [lia|]. rewrite (f_val_l f F _ 0 (fun _ => 0) P); [reflexivity|]. intros x. exact (H0 n x Hn).
  - replace n with ((n - k) + k)%nat in * by lia. set (j := (n - k)%nat) in *. clearbody j. clear n Hn.
    pose proof (phi_row j m) as E. destruct HB as [HI Bd].
    rewrite (f_val_l f F (P j) (j + k + 1) (fun i => bm k i j) (fun i => dn k (P i))) in E by (intros x; apply (HI k j x)).
    replace (j + k + 1)%nat with (S (j + k)) in E by lia. cbn [gsum] in E.
    rewrite (sum_ext (j + k) _ (fun i => if (i =? m + k)%nat then bm k (m + k)%nat j else 0)) in E.
    2:{ intros i Hi. rewrite IH by lia. destruct (Nat.eqb_spec i (m + k)) as [->|]; ring. }
    pose proof (HL j) as NZ. destruct (Nat.eqb_spec (j + k) (m + k)) as [Q|Q].
    + assert (j = m) by lia. subst j. rewrite sum_0 in E.
      * apply (Rmult_eq_reg_l (bm k (m + k)%nat m)); [lra|exact NZ].
      * intros i Hi. destruct (Nat.eqb_spec i (m + k)); [lia|reflexivity].
    + apply (Rmult_eq_reg_l (bm k (j + k)%nat j)); [|exact NZ]. rewrite Rmult_0_r. destruct (Nat.lt_ge_cases (m + k) (j + k)) as [L|L].
      * rewrite (sum_one _ (m + k)%nat) in E; [rewrite Nat.eqb_refl in E; lra|exact L|].
        intros i _ Hi. destruct (Nat.eqb_spec i (m + k)); [congruence|reflexivity].
      * rewrite sum_0 in E; [|intros i Hi; destruct (Nat.eqb_spec i (m + k)); [lia|reflexivity]].
        rewrite (Bd k (m + k)%nat j) in E by lia. lra.
Qed.
End General.

(** ** Jacobi polynomials: the hypotheses on b hold *)
Lemma matpow_corner A q : (forall i j, (1 < Z.abs (i - j))%Z -> A i j = 0) -> forall j, (forall t, (t < q)%nat -> A (j + Z.of_nat t + 1)%Z (j + Z.of_nat t)%Z <> 0) ->
  matpow A q (j + Z.of_nat q)%Z j <> 0.
Proof.
  intros HA. induction q as [|q IH]; intros j H.
  - cbn [matpow]. unfold delta. destruct (Z.eq_dec _ _); [lra|lia].
  - rewrite (matpow_S A HA). unfold mat_step.
    rewrite (matpow_band A HA q (j + Z.of_nat (S q))%Z j) by lia. rewrite (matpow_band A HA q (j + Z.of_nat (S q) + 1)%Z j) by lia.
    replace (j + Z.of_nat (S q) - 1)%Z with (j + Z.of_nat q)%Z by lia.
    rewrite !Rmult_0_r, !Rplus_0_r. apply Rmult_integral_contrapositive. split.
    + pose proof (H q ltac:(lia)) as N. replace (j + Z.of_nat (S q))%Z with (j + Z.of_nat q + 1)%Z by lia. exact N.
    + apply IH. intros t Ht. apply H. lia.
Qed.
Lemma coef_b_corner a b (i : Z) : -1 < a -> -1 < b -> (0 <= i)%Z -> coef_b_s a b (i + 1) i <> 0.
Proof.
  intros Ha Hb Hi. unfold coef_b_s, delta.
  destruct (Z.eq_dec (i + 1) (i + 1)); [|lia]. destruct (Z.eq_dec (i + 1) (i - 1)); [lia|]. destruct (Z.eq_dec (i + 1) i); [lia|].
  rewrite !Rmult_0_r, Rmult_1_r, Rminus_0_r, Rplus_0_r. destruct (Z.eqb_spec (i + 1) 1) as [E|E].
  - apply Rmult_integral_contrapositive. split; [lra|]. apply Rinv_neq_0_compat. lra.
  - assert (2 <= IZR (i + 1)) by (apply IZR_le; lia). apply Rmult_integral_contrapositive. split; [nra|]. apply Rinv_neq_0_compat.
    apply Rmult_integral_contrapositive. split; lra.
Qed.
Lemma jac_corner g a b k j : -1 < a -> -1 < b -> (forall n, g n <> 0) -> jac_bm g a b k (j + k)%nat j <> 0.
Proof.
  intros Ha Hb Hg. unfold jac_bm, pmat_b. destruct (Nat.ltb_spec (j + k) k); [lia|].
  apply Rmult_integral_contrapositive. split.
  - apply Rmult_integral_contrapositive. split; [apply Hg|apply Rinv_neq_0_compat, Hg].
  - rewrite Nat2Z.inj_add. apply matpow_corner; [intros; apply coef_b_s_band; assumption|]. intros t _. apply coef_b_corner; auto. lia.
Qed.
Lemma jac_dual f g a b h k dim : is_form f -> -1 < a -> -1 < b -> (forall n, g n <> 0) -> (0 < k)%nat ->
  (forall i j, f (jacQ g a b i) (jacQ g a b j) = if (i =? j)%nat then h i else 0) -> (forall i, h i <> 0) ->
  dual f (jacQ g a b) (phi_of (jacQ g a b) (jac_bm g a b) h k) k dim.
Proof.
  intros F Ha Hb Hg Hk HO Hh. apply dual_general; auto.
  - apply jac_integrates; auto.
  - intros i x Hi. destruct (jac_dpowers g a b Ha Hb Hg k ltac:(lia)) as (Z & _). apply Z, Hi.
  - intros j. apply jac_corner; auto.
Qed.

(** ** from k to k+1, with a symmetric family: combinations of Q_m, Q_(m+2), .. *)
Definition comb2P (P : nat -> poly) (m r : nat) (c : nat -> R) : poly := pcomb r c (fun i => P (m + 2 * i)%nat).
Section Step.
Variables (f : poly -> poly -> R) (P : nat -> poly) (b : mat) (k : nat).
Hypothesis F : is_form f.
Hypothesis HP0 : forall x, deriv_at 1 (P 0%nat) x = 0.
Hypothesis HB : forall j x, peval (P j) x = rsum (j + 2) (fun i => b i j * deriv_at 1 (P i) x).
Hypothesis Bd : forall i j, (i <> S j)%nat -> (j <> S i)%nat -> b i j = 0.
Hypothesis HL : forall j, b (S j) j <> 0.
Lemma b_dn j x : deriv_at k (P j) x = rsum (j + 2) (fun i => b i j * deriv_at (S k) (P i) x).
Proof.
  assert (E : forall y, peval (P j) y = peval (pcomb (j + 2) (fun i => b i j) (fun i => dn 1 (P i))) y).
  { intros y. rewrite peval_comb. apply HB. }
  rewrite (peq_dn k _ _ E x : deriv_at k (P j) x = deriv_at k _ x), deriv_at_pcomb. apply sum_ext. intros i _. f_equal.
  unfold deriv_at. rewrite <- dn_add. f_equal. f_equal. lia.
Qed.
Lemma dn_P0 x : deriv_at (S k) (P 0%nat) x = 0.
Proof.
  assert (E : forall y, peval (dn 1 (P 0%nat)) y = peval [] y) by (intros y; rewrite (HP0 y : peval (dn 1 (P 0%nat)) y = 0); reflexivity).
  pose proof (peq_dn k _ _ E x) as Q. unfold deriv_at in *. rewrite <- dn_add in Q. replace (k + 1)%nat with (S k) in Q by lia. rewrite Q.
  exact (deriv_at_pcomb k 0 (fun _ => 0) P x).
Qed.
Lemma dual_stepP (psi chi : nat -> poly) :
  (forall n m, f (dn k (P n)) (psi m) = if (n =? m + k)%nat then 1 else 0) ->
  (forall m x, peval (chi m) x = b (m + S k)%nat (m + k)%nat * peval (psi m) x + b (m + S k)%nat (m + S (S k))%nat * peval (psi (m + 2)%nat) x) ->
  forall n m, f (dn (S k) (P n)) (chi m) = if (n =? m + S k)%nat then 1 else 0.
Proof.
  intros HD HC n m. revert n. apply (well_founded_induction Wf_nat.lt_wf). intros n IH. destruct n as [|j].
  - destruct (Nat.eqb_spec 0 (m + S k)); [lia|]. rewrite (f_val_l f F _ 0 (fun _ => 0) P); [reflexivity|]. intros x. exact (dn_P0 x).
  - assert (E : f (dn k (P j)) (chi m) = b (m + S k)%nat j).
    { rewrite (f_val_r f F (chi m) 2 (fun i => match i with O => b (m + S k)%nat (m + k)%nat | _ => b (m + S k)%nat (m + S (S k))%nat end)
                 (fun i => match i with O => psi m | _ => psi (m + 2)%nat end)) by (intros x; rewrite HC; cbn [gsum]; ring).
      cbn [gsum]. rewrite !HD. destruct (Nat.eqb_spec j (m + k)) as [E1|E1]; destruct (Nat.eqb_spec j (m + 2 + k)) as [E2|E2]; try lia.
      - rewrite E1. ring.
      - rewrite E2. replace (m + 2 + k)%nat with (m + S (S k))%nat by lia. ring.
      - rewrite (Bd (m + S k)%nat j) by lia. ring. }
    rewrite (f_val_l f F (dn k (P j)) (j + 2) (fun i => b i j) (fun i => dn (S k) (P i))) in E by (intros x; apply b_dn).
    replace (j + 2)%nat with (S (S j)) in E by lia. cbn [gsum] in E. rewrite (IH j) in E by lia. rewrite (Bd j j) in E by lia.
    rewrite (sum_ext j _ (fun i => if (i =? m + S k)%nat then b (m + S k)%nat j else 0)) in E.
    2:{ intros i Hi. rewrite IH by lia. destruct (Nat.eqb_spec i (m + S k)) as [->|]; ring. }
    pose proof (HL j) as NZ. destruct (Nat.eqb_spec (S j) (m + S k)) as [Q|Q].
    + rewrite sum_0 in E by (intros i Hi; destruct (Nat.eqb_spec i (m + S k)); [lia|reflexivity]). rewrite <- Q in E.
      apply (Rmult_eq_reg_l (b (S j) j)); [lra|exact NZ].
    + apply (Rmult_eq_reg_l (b (S j) j)); [|exact NZ]. rewrite Rmult_0_r. destruct (Nat.lt_ge_cases (m + S k) j) as [L|L].
      * rewrite (sum_one _ (m + S k)%nat) in E; [rewrite Nat.eqb_refl in E; lra|exact L|].
        intros i _ Hi. destruct (Nat.eqb_spec i (m + S k)); [congruence|reflexivity].
      * rewrite sum_0 in E by (intros i Hi; destruct (Nat.eqb_spec i (m + S k)); [lia|reflexivity]).
        rewrite (Bd (m + S k) j) in E by lia. lra.
Qed.
(** the same for coefficients *)
Lemma comb_step (c c' : nat -> nat -> R) r :
  (forall n m, f (dn k (P n)) (comb2P P m r (c m)) = if (n =? m + k)%nat then 1 else 0) ->
  (forall m i, (i < S r)%nat -> c' m i = (if (i <? r)%nat then b (m + S k)%nat (m + k)%nat * c m i else 0) +
                                (match i with O => 0 | S i => b (m + S k)%nat (m + S (S k))%nat * c (m + 2)%nat i end)) ->
  forall n m, f (dn (S k) (P n)) (comb2P P m (S r) (c' m)) = if (n =? m + S k)%nat then 1 else 0.
Proof.
  intros HD HC. apply (dual_stepP (fun m => comb2P P m r (c m)) (fun m => comb2P P m (S r) (c' m)) HD).
  intros m x. unfold comb2P. rewrite !peval_comb.
  rewrite (sum_ext (S r) _ (fun i => (if (i <? r)%nat then b (m + S k)%nat (m + k)%nat * c m i else 0) * peval (P (m + 2 * i)%nat) x +
                             (match i with O => 0 | S i => b (m + S k)%nat (m + S (S k))%nat * c (m + 2)%nat i end) * peval (P (m + 2 * i)%nat) x)).
  2:{ intros i Hi. rewrite HC by exact Hi. ring. }
  rewrite sum_add. f_equal.
  - cbn [gsum]. rewrite Nat.ltb_irrefl. rewrite Rmult_0_l, Rplus_0_r. rewrite <- sum_scal. apply sum_ext. intros i Hi.
    destruct (Nat.ltb_spec i r); [ring|lia].
  - rewrite sum_first. rewrite Rmult_0_l, Rplus_0_l, <- sum_scal. apply sum_ext. intros i Hi.
    replace (m + 2 * S i)%nat with (m + 2 + 2 * i)%nat by lia. ring.
Qed.
End Step.
