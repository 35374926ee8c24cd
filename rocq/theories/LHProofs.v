(** LHProofs.v -- Hermite and Laguerre polynomials, derivatives of the functions. *)
From Coq Require Import Reals ZArith List Arith Bool Lia Lra.
From Verif Require Import Base Fld RPoly MatrixProofs InnerProofs5 BndModel BndProofs LHModel LHSpec.
Import ListNotations.
Local Open Scope R_scope.

Lemma sum_delta n c (f : nat -> R) : (c < n)%nat -> rsum n (fun i => if Nat.eqb i c then f i else 0) = f c.
Proof. exact (InnerProofs5.rsum_delta n c f). Qed.
(** ** the recurrences *)
Lemma INR_S2 n : INR n + 2 <> 0. Proof. pose proof (pos_INR n). lra. Qed.
Lemma lag_rec n x : (INR n + 2) * peval (lagL (S (S n))) x = (2 * INR n + 3 - x) * peval (lagL (S n)) x - (INR n + 1) * peval (lagL n) x.
Proof.
  unfold lagL. rewrite three_term_SS. rewrite !peval_padd, !peval_pscale, peval_pX. field. apply INR_S2.
Qed.
Lemma lag_rec' n x : (INR n + 2) * peval (pderiv (lagL (S (S n)))) x =
  (2 * INR n + 3 - x) * peval (pderiv (lagL (S n))) x - peval (lagL (S n)) x - (INR n + 1) * peval (pderiv (lagL n)) x.
Proof.
  unfold lagL. rewrite three_term_SS. rewrite !pderiv_padd, !pderiv_pscale, pderiv_pX. field. apply INR_S2.
Qed.
Lemma lag_AB n x :
  peval (pderiv (lagL (S n))) x = peval (pderiv (lagL n)) x - peval (lagL n) x /\
  x * peval (pderiv (lagL (S n))) x = (INR n + 1) * (peval (lagL (S n)) x - peval (lagL n) x).
Proof.
  induction n as [|n [A B]].
  - cbn. split; ring.
  - pose proof (lag_rec n x) as R1. pose proof (lag_rec' n x) as R2. pose proof (INR_S2 n) as NZ. rewrite S_INR.
    assert (A' : peval (pderiv (lagL (S (S n)))) x = peval (pderiv (lagL (S n))) x - peval (lagL (S n)) x).
    { apply (Rmult_eq_reg_l (INR n + 2)); [|exact NZ]. rewrite R2.
      replace (peval (pderiv (lagL n)) x) with (peval (pderiv (lagL (S n))) x + peval (lagL n) x) by lra.
      nra. }
    split; [exact A'|]. rewrite A', Rmult_minus_distr_l, B. replace (INR n + 1 + 1) with (INR n + 2) by ring. lra.
Qed.
Lemma lag_deriv n x : peval (pderiv (lagL (S n))) x = peval (pderiv (lagL n)) x - peval (lagL n) x. Proof. apply lag_AB. Qed.
Lemma lag_at_0 n : peval (lagL n) 0 = 1.
Proof.
  assert (H : peval (lagL n) 0 = 1 /\ peval (lagL (S n)) 0 = 1); [|apply H].
  induction n as [|n [A B]]; [cbn; split; ring|]. split; [exact B|].
  pose proof (lag_rec n 0) as E. rewrite A, B in E. pose proof (INR_S2 n) as NZ.
  apply (Rmult_eq_reg_l (INR n + 2)); [|exact NZ]. lra.
Qed.
Lemma lag_deriv_sum n x : peval (pderiv (lagL n)) x = - rsum n (fun k => peval (lagL k) x).
Proof. induction n as [|n IH]; [cbn; ring|]. rewrite lag_deriv, IH. cbn. ring. Qed.
Lemma lag_deriv_0 n : peval (pderiv (lagL n)) 0 = - INR n.
Proof. induction n as [|n IH]; [cbn; ring|]. rewrite lag_deriv, IH, lag_at_0, S_INR. ring. Qed.

Lemma herm_rec n x : peval (hermP (S (S n))) x = 2 * x * peval (hermP (S n)) x - 2 * (INR n + 1) * peval (hermP n) x.
Proof. unfold hermP. rewrite three_term_SS. rewrite !peval_padd, !peval_pscale, peval_pX. ring. Qed.
Lemma herm_rec' n x : peval (pderiv (hermP (S (S n)))) x =
  2 * x * peval (pderiv (hermP (S n))) x + 2 * peval (hermP (S n)) x - 2 * (INR n + 1) * peval (pderiv (hermP n)) x.
Proof. unfold hermP. rewrite three_term_SS. rewrite !pderiv_padd, !pderiv_pscale, pderiv_pX. ring. Qed.
Lemma herm_deriv n x : peval (pderiv (hermP (S n))) x = 2 * (INR n + 1) * peval (hermP n) x.
Proof.
  assert (H : peval (pderiv (hermP (S n))) x = 2 * (INR n + 1) * peval (hermP n) x /\
              peval (pderiv (hermP (S (S n)))) x = 2 * (INR (S n) + 1) * peval (hermP (S n)) x); [|apply H].
  induction n as [|n [A B]].
  - split; cbn; ring.
  - split; [exact B|]. rewrite herm_rec', B, A. rewrite (herm_rec n), !S_INR. ring.
Qed.
Lemma herm_deriv_0 x : peval (pderiv (hermP 0)) x = 0. Proof. cbn. ring. Qed.
(** H_(n+1) = 2x H_n - H_n' *)
Lemma herm_step n x : peval (hermP (S n)) x = 2 * x * peval (hermP n) x - peval (pderiv (hermP n)) x.
Proof. destruct n as [|n]; [cbn; ring|]. rewrite herm_rec, herm_deriv. ring. Qed.
(** Hermite's equation *)
Lemma herm_ode n x : peval (pderiv (pderiv (hermP n))) x = 2 * x * peval (pderiv (hermP n)) x - 2 * INR n * peval (hermP n) x.
Proof.
  destruct n as [|n]; [cbn; ring|].
  rewrite (peq_deriv (pderiv (hermP (S n))) (pscale (2 * (INR n + 1)) (hermP n))); [|intros y; rewrite peval_pscale; apply herm_deriv].
  rewrite pderiv_pscale, herm_deriv, (herm_step n), S_INR. ring.
Qed.

(** ** the library functions *)
Lemma lagvander_SS x q : lagvander x (S (S q)) = (lagvander x (S q) * (2 * INR (S (S q)) - 1 - x) - lagvander x q * (INR (S (S q)) - 1)) / INR (S (S q)).
Proof. reflexivity. Qed.
Lemma hermvander_SS x q : hermvander x (S (S q)) = hermvander x (S q) * (x * 2) - hermvander x q * (2 * (INR (S (S q)) - 1)).
Proof. reflexivity. Qed.
Lemma lagvander_ok x n : lagvander x n = peval (lagL n) x.
Proof.
  assert (H : lagvander x n = peval (lagL n) x /\ lagvander x (S n) = peval (lagL (S n)) x); [|apply H].
  induction n as [|n [A B]]; [cbn; split; ring|]. split; [exact B|].
  rewrite lagvander_SS, A, B. pose proof (lag_rec n x) as E. pose proof (INR_S2 n) as NZ. rewrite !S_INR.
  apply (Rmult_eq_reg_l (INR n + 2)); [|exact NZ]. rewrite E. field. replace (INR n + 1 + 1) with (INR n + 2) by ring. exact NZ.
Qed.
Lemma hermvander_ok x n : hermvander x n = peval (hermP n) x.
Proof.
  assert (H : hermvander x n = peval (hermP n) x /\ hermvander x (S n) = peval (hermP (S n)) x); [|apply H].
  induction n as [|n [A B]]; [cbn; split; ring|]. split; [exact B|].
  rewrite hermvander_SS, A, B, herm_rec, !S_INR. ring.
Qed.
(** the series of a list of coefficients *)
Definition lag_series (n : nat) (c : nat -> R) : poly := pcomb n c lagL.
Lemma peval_pcomb n c P x : peval (pcomb n c P) x = rsum n (fun i => c i * peval (P i) x).
Proof. induction n as [|n IH]; [reflexivity|]. cbn [pcomb gsum]. rewrite peval_padd, peval_pscale, IH. reflexivity. Qed.
Lemma pderiv_pcomb n c P x : peval (pderiv (pcomb n c P)) x = rsum n (fun i => c i * peval (pderiv (P i)) x).
Proof. induction n as [|n IH]; [reflexivity|]. cbn [pcomb gsum]. rewrite pderiv_padd, pderiv_pscale, IH. reflexivity. Qed.
Lemma lagder_S n c k : (k < n)%nat -> lagder (S n) c k = lagder n c k - c n.
Proof.
  intros H. unfold lagder. replace (S n - 1 - k)%nat with (S (n - 1 - k)) by lia. cbn [gsum].
  replace (k + 1 + (n - 1 - k))%nat with n by lia. ring.
Qed.
Lemma lagder_ok n c x : peval (lag_series (n - 1) (lagder n c)) x = peval (pderiv (lag_series n c)) x.
Proof.
  unfold lag_series. rewrite peval_pcomb, pderiv_pcomb. destruct n as [|n]; [reflexivity|].
  replace (S n - 1)%nat with n by lia. induction n as [|n IH].
  - cbn. ring.
  - change (rsum (S (S n)) (fun i => c i * peval (pderiv (lagL i)) x)) with
      (rsum (S n) (fun i => c i * peval (pderiv (lagL i)) x) + c (S n) * peval (pderiv (lagL (S n))) x).
    rewrite <- IH. cbn [gsum].
    rewrite (sum_ext n (fun i => lagder (S (S n)) c i * peval (lagL i) x) (fun i => lagder (S n) c i * peval (lagL i) x - c (S n) * peval (lagL i) x)).
    2:{ intros i Hi. rewrite (lagder_S (S n)) by lia. ring. }
    rewrite sum_sub, sum_scal, (lag_deriv_sum (S n)). cbn [gsum].
    replace (lagder (S (S n)) c n) with (- c (S n)); [ring|].
    unfold lagder. replace (S (S n) - 1 - n)%nat with 1%nat by lia. cbn. replace (n + 1 + 0)%nat with (S n) by lia. ring.
Qed.
Lemma lagder_n_ok m : forall n c x, peval (lag_series (n - m) (lagder_n m n c)) x = deriv_at m (lag_series n c) x.
Proof.
  induction m as [|m IH]; intros n c x.
  - cbn [lagder_n]. replace (n - 0)%nat with n by lia. reflexivity.
  - cbn [lagder_n]. replace (n - S m)%nat with (n - 1 - m)%nat by lia. rewrite IH.
    transitivity (deriv_at m (pderiv (lag_series n c)) x).
    + apply peq_dn. intros y. apply lagder_ok.
    + unfold deriv_at. clear. revert x. generalize (lag_series n c). intros p. induction m as [|m IH]; intros x; [reflexivity|].
      cbn [dn]. apply peq_deriv. exact IH.
Qed.
Lemma unit_series M i x : (i < M)%nat -> peval (lag_series M (unit_vec i)) x = peval (lagL i) x.
Proof.
  intros H. unfold lag_series. rewrite peval_pcomb.
  rewrite (sum_ext M _ (fun j => if Nat.eqb j i then peval (lagL j) x else 0)).
  2:{ intros j _. unfold unit_vec. rewrite Nat.eqb_sym. destruct (Nat.eqb j i); ring. }
  apply sum_delta, H.
Qed.
Lemma lag_VD_ok M m x i : (i < M)%nat -> lag_VD M m x i = deriv_at m (lagL i) x.
Proof.
  intros H. unfold lag_VD.
  rewrite (sum_ext _ _ (fun j => lagder_n m M (unit_vec i) j * peval (lagL j) x)) by (intros j _; rewrite lagvander_ok; ring).
  rewrite <- (peval_pcomb (M - m) (lagder_n m M (unit_vec i)) lagL x).
  change (pcomb (M - m) (lagder_n m M (unit_vec i)) lagL) with (lag_series (M - m) (lagder_n m M (unit_vec i))).
  rewrite lagder_n_ok. apply peq_dn. intros y. apply unit_series, H.
Qed.
Lemma lag_V_ok M x i : (i < M)%nat -> rsum M (fun j => lagvander x j * unit_vec i j) = peval (lagL i) x.
Proof.
  intros H. rewrite (sum_ext _ _ (fun j => unit_vec i j * peval (lagL j) x)) by (intros j _; rewrite lagvander_ok; ring).
  rewrite <- (peval_pcomb M (unit_vec i) lagL x). apply unit_series, H.
Qed.
Lemma herm_VD_ok M x i : (i < M)%nat -> rsum (M - 1) (fun j => hermvander x j * hermder M (unit_vec i) j) = peval (pderiv (hermP i)) x.
Proof.
  intros H. destruct i as [|i].
  - rewrite herm_deriv_0. apply sum_0. intros j Hj. unfold hermder, unit_vec. replace (Nat.eqb 0 (j + 1)) with false by (symmetry; apply Nat.eqb_neq; lia).
    destruct (Nat.ltb (j + 1) M); ring.
  - rewrite (sum_ext _ _ (fun j => if Nat.eqb j i then 2 * (INR j + 1) * peval (hermP j) x else 0)).
    + rewrite (sum_delta (M - 1) i (fun j => 2 * (INR j + 1) * peval (hermP j) x)) by lia. symmetry. apply herm_deriv.
    + intros j Hj. unfold hermder, unit_vec. rewrite hermvander_ok. replace (Nat.ltb (j + 1) M) with true by (symmetry; apply Nat.ltb_lt; lia).
      destruct (Nat.eqb_spec j i) as [->|E].
      * replace (Nat.eqb (S i) (i + 1)) with true by (symmetry; apply Nat.eqb_eq; lia). rewrite plus_INR. cbn [INR]. ring.
      * replace (Nat.eqb (S i) (j + 1)) with false by (symmetry; apply Nat.eqb_neq; lia). ring.
Qed.
