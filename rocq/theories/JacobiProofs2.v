(** JacobiProofs2.v -- derivatives of any order, boundary values, matrix powers. *)
From Coq Require Import Reals Lra Lia ZArith List Arith.
From Verif Require Import Base Fld SparseModel RPoly JacobiModel JacobiProofs.
Import ListNotations.
Local Open Scope R_scope.

Lemma rf_front k : forall x, rf x (S k) = x * rf (x + 1) k.
Proof.
  induction k as [|k IH]; intros x; [simpl; ring|].
  change (rf x (S (S k))) with (rf x (S k) * (x + INR (S k))). rewrite IH, S_INR. simpl. ring.
Qed.
Lemma dn_swap k p : dn k (pderiv p) = pderiv (dn k p).
Proof. induction k as [|k IH]; simpl; [reflexivity|]. rewrite IH. reflexivity. Qed.
Lemma deriv_at_S k p x : deriv_at (S k) p x = deriv_at k (pderiv p) x.
Proof. unfold deriv_at. rewrite dn_swap. reflexivity. Qed.

Lemma jac_deriv k : forall a b n x, -1 < a -> -1 < b ->
  deriv_at k (jacP a b (n + k)) x = psi a b (n + k) k * peval (jacP (a + INR k) (b + INR k) n) x.
Proof.
  induction k as [|k IH]; intros a b n x Ha Hb.
  - rewrite Nat.add_0_r. unfold deriv_at, psi. cbn [dn rf INR pow]. rewrite !Rplus_0_r. field.
  - rewrite deriv_at_S. replace (n + S k)%nat with (S (n + k)) by lia.
    rewrite (peq_dn k _ (pscale ((INR (n + k) + a + b + 2) / 2) (jacP (a + 1) (b + 1) (n + k)))).
    2: { intros y. rewrite peval_pscale. apply deriv_jac; auto. }
    rewrite deriv_at_pscale, IH by lra.
    replace (a + INR (S k)) with (a + 1 + INR k) by (rewrite S_INR; ring).
    replace (b + INR (S k)) with (b + 1 + INR k) by (rewrite S_INR; ring).
    unfold psi. rewrite rf_front. replace (INR (S (n + k)) + a + b + 1) with (INR (n + k) + a + b + 2) by (rewrite S_INR; ring).
    replace (INR (n + k) + (a + 1) + (b + 1) + 1) with (INR (n + k) + a + b + 2 + 1) by ring.
    cbn [pow]. field. apply pow_nonzero. lra.
Qed.
(** the k'th derivative of P_n vanishes for k > n *)
Lemma deriv_at_const m c x : deriv_at (S m) [c] x = 0.
Proof.
  rewrite deriv_at_S. rewrite (peq_dn m _ []); [apply deriv_at_nil|]. intros y. simpl. ring.
Qed.
Lemma jac_deriv_high a b n k x : -1 < a -> -1 < b -> (n < k)%nat -> deriv_at k (jacP a b n) x = 0.
Proof.
  intros Ha Hb H. replace k with (S (k - S n) + n)%nat by lia.
  assert (forall m p y, deriv_at (m + n) p y = deriv_at m (dn n p) y) as E.
  { intros m p y. unfold deriv_at. f_equal. induction m as [|m IH]; simpl; [reflexivity|]. rewrite IH. reflexivity. }
  rewrite E. rewrite (peq_dn _ _ [psi a b n n]); [apply deriv_at_const|].
  intros y. pose proof (jac_deriv n a b 0 y Ha Hb) as D. cbn [Nat.add] in D. rewrite P0 in D. unfold deriv_at in D. rewrite D. simpl. ring.
Qed.

(** P_n(1) = binomial(n + a, n) *)
Lemma binomial_shift m : forall y, binomial_nat (y + 1) m * (y + 1 - INR m) = binomial_nat y m * (y + 1).
Proof.
  induction m as [|m IH]; intros y; cbn [binomial_nat].
  - simpl. ring.
  - pose proof (pos_INR m). rewrite S_INR.
    replace (binomial_nat (y + 1) m * (y + 1 - INR m) / (INR m + 1) * (y + 1 - (INR m + 1)))
      with (binomial_nat (y + 1) m * (y + 1 - INR m) * (y - INR m) / (INR m + 1)) by (field; lra).
    rewrite IH. field. lra.
Qed.
Lemma jac_one a b n : -1 < a -> -1 < b -> peval (jacP a b n) 1 = binomial_nat (INR n + a) n.
Proof.
  intros Ha Hb.
  assert (forall n, peval (jacP a b n) 1 = binomial_nat (INR n + a) n /\
                    peval (jacP a b (S n)) 1 = binomial_nat (INR (S n) + a) (S n)) as H; [|apply H].
  assert (forall m, binomial_nat (INR (S m) + a) (S m) = binomial_nat (INR m + a) m * (INR m + a + 1) / (INR m + 1)) as HB.
  { intros m. cbn [binomial_nat]. pose proof (pos_INR m). rewrite S_INR.
    replace (INR m + 1 + a) with (INR m + a + 1) by ring.
    pose proof (binomial_shift m (INR m + a)) as E.
    replace (INR m + a + 1 - INR m) with (a + 1) in * by ring. rewrite E. reflexivity. }
  clear n. induction n as [|n [IH1 IH2]].
  - rewrite P0, P1. split; [reflexivity|]. rewrite HB. simpl. field.
  - split; [exact IH2|]. rewrite PSS, IH1, IH2, (HB (S n)), HB. unfold Aq, Bq, Cq. cbv zeta.
    pose proof (pos_INR n). rewrite !S_INR. field. lra.
Qed.
Lemma jac_reflect a b n x : -1 < a -> -1 < b -> peval (jacP a b n) (- x) = (-1) ^ n * peval (jacP b a n) x.
Proof.
  intros Ha Hb.
  assert (forall n, peval (jacP a b n) (- x) = (-1) ^ n * peval (jacP b a n) x /\
     peval (jacP a b (S n)) (- x) = (-1) ^ (S n) * peval (jacP b a (S n)) x) as H; [|apply H].
  clear n. induction n as [|n [IH1 IH2]].
  - rewrite !P0, !P1. split; simpl; field.
  - split; [exact IH2|]. rewrite !PSS, IH1, IH2. rewrite <- !tech_pow_Rmult. unfold Aq, Bq, Cq. cbv zeta.
    pose proof (pos_INR n). field. lra.
Qed.

Lemma bnd_right_ok a b k i : -1 < a -> -1 < b -> deriv_at k (jacP a b i) 1 = bnd_right a b k i.
Proof.
  intros Ha Hb. unfold bnd_right, binomial. destruct (Z.ltb_spec (Z.of_nat i - Z.of_nat k) 0) as [H|H].
  - rewrite jac_deriv_high by (auto; lia). ring.
  - replace (Z.to_nat (Z.of_nat i - Z.of_nat k)) with (i - k)%nat by lia.
    replace i with (i - k + k)%nat at 1 by lia. pose proof (pos_INR k). rewrite jac_deriv, jac_one by (auto; lra).
    replace (i - k + k)%nat with i by lia.
    replace (INR (i - k) + (a + INR k)) with (INR i + a) by (rewrite minus_INR by lia; ring).
    unfold psi. destruct k; [simpl; field|]. unfold Rdiv. ring.
Qed.
Lemma bnd_left_ok a b k i : -1 < a -> -1 < b -> deriv_at k (jacP a b i) (-1) = bnd_left a b k i.
Proof.
  intros Ha Hb. unfold bnd_left, binomial. destruct (Z.ltb_spec (Z.of_nat i - Z.of_nat k) 0) as [H|H].
  - rewrite jac_deriv_high by (auto; lia). ring.
  - replace (Z.to_nat (Z.of_nat i - Z.of_nat k)) with (i - k)%nat by lia.
    replace i with (i - k + k)%nat at 1 by lia. pose proof (pos_INR k). rewrite jac_deriv by auto.
    replace (-1) with (- (1)) at 1 by ring. rewrite jac_reflect, jac_one by lra.
    replace (i - k + k)%nat with i by lia.
    replace (INR (i - k) + (b + INR k)) with (INR i + b) by (rewrite minus_INR by lia; ring).
    replace ((-1) ^ (k + i)) with ((-1) ^ (i - k)).
    + unfold psi. destruct k; [simpl; field|]. unfold Rdiv. ring.
    + replace (k + i)%nat with ((i - k) + 2 * k)%nat by lia. rewrite pow_add, pow_mult.
      replace ((-1) ^ 2) with 1 by ring. rewrite pow1. ring.
Qed.

(** ** matrix powers of tridiagonal matrices *)
Section Pow.
Variable A : matfun.
Hypothesis Hband : forall i j, (1 < Z.abs (i - j))%Z -> A i j = 0.
Lemma loop_step q : forall m2 i j, matpow_loop A (mat_step A m2) (S q) i j = mat_step A (matpow_loop A m2 (S q)) i j.
Proof.
  induction q as [|q IH]; intros m2 i j; [reflexivity|].
  change (matpow_loop A (mat_step A m2) (S (S q))) with (matpow_loop A (mat_step A (mat_step A m2)) (S q)).
  change (matpow_loop A m2 (S (S q))) with (matpow_loop A (mat_step A m2) (S q)).
  rewrite IH. reflexivity.
Qed.
Lemma matpow_S q i j : matpow A (S q) i j = mat_step A (matpow A q) i j.
Proof.
  destruct q as [|[|q]].
  - unfold matpow, mat_step, delta.
    destruct (Z.eq_dec (i - 1) j) as [E1|N1], (Z.eq_dec i j) as [E2|N2], (Z.eq_dec (i + 1) j) as [E3|N3]; try lia.
    + rewrite E1. ring.
    + subst. ring.
    + rewrite E3. ring.
    + rewrite (Hband i j) by lia. ring.
  - reflexivity.
  - unfold matpow. apply (loop_step q (mat_step A A)).
Qed.
Lemma matpow_band q : forall i j, (Z.of_nat q < Z.abs (i - j))%Z -> matpow A q i j = 0.
Proof.
  induction q as [|q IH]; intros i j H.
  - unfold matpow, delta. destruct (Z.eq_dec i j); [lia|reflexivity].
  - rewrite matpow_S. unfold mat_step. rewrite !IH by lia. ring.
Qed.
End Pow.
