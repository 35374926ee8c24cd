(** RPoly.v -- specification: real polynomials, their derivatives, and the classical
    orthogonal polynomials, defined by their three-term recurrences.

    A polynomial is the list of its coefficients, constant term first. *)
From Coq Require Import Reals Lra Lia List Arith.
From Verif Require Import Base Fld.
Import ListNotations.
Local Open Scope R_scope.

(** the real numbers as a field of the development *)
Lemma Rlaws : field_theory 0 1 Rplus Rmult Rminus Ropp Rdiv Rinv (@eq R).
Proof. constructor; [constructor|..]; intros; try ring; try lra. unfold Rdiv. field. auto. Qed.
Definition RFld : Fld := mkFld R 0 1 Rplus Rmult Rminus Ropp Rdiv Rinv Rlaws.

Definition poly := list R.
Fixpoint peval (p : poly) (x : R) : R :=
  match p with [] => 0 | a :: q => a + x * peval q x end.
Fixpoint padd (p q : poly) : poly :=
  match p, q with
  | [], _ => q
  | _, [] => p
  | a :: p, b :: q => (a + b) :: padd p q
  end.
Definition pscale (c : R) (p : poly) : poly := map (fun a => c * a) p.
Definition pX (p : poly) : poly := 0 :: p.
(** derivative: (a + x q)' = q + x q' *)
Fixpoint pderiv (p : poly) : poly :=
  match p with [] => [] | _ :: q => padd q (pX (pderiv q)) end.
(** k-th derivative *)
Fixpoint dn (k : nat) (p : poly) : poly := match k with O => p | S k => pderiv (dn k p) end.
(** value of the k-th derivative at x *)
Definition deriv_at (k : nat) (p : poly) (x : R) : R := peval (dn k p) x.
(** linear combination of a sequence of polynomials *)
Fixpoint pcomb (n : nat) (c : nat -> R) (P : nat -> poly) : poly :=
  match n with O => [] | S m => padd (pcomb m c P) (pscale (c m) (P m)) end.

(** polynomials with P_0 = 1, P_1 = p1 and
    P_(q+2) = (A_q x + B_q) P_(q+1) - C_q P_q *)
Fixpoint three_term (A B C : nat -> R) (p1 : poly) (n : nat) : poly :=
  match n with
  | O => [1]
  | S m => match m with
           | O => p1
           | S q => padd (padd (pscale (A q) (pX (three_term A B C p1 m))) (pscale (B q) (three_term A B C p1 m)))
                         (pscale (- C q) (three_term A B C p1 q))
           end
  end.

(** Chebyshev polynomials of the first and second kind: P_(n+2) = 2 x P_(n+1) - P_n *)
Definition chebT : nat -> poly := three_term (fun _ => 2) (fun _ => 0) (fun _ => 1) [0; 1].
Definition chebU : nat -> poly := three_term (fun _ => 2) (fun _ => 0) (fun _ => 1) [0; 2].
(** Legendre: (n+2) L_(n+2) = (2n+3) x L_(n+1) - (n+1) L_n *)
Definition legL : nat -> poly :=
  three_term (fun n => (2 * INR n + 3) / (INR n + 2)) (fun _ => 0) (fun n => (INR n + 1) / (INR n + 2)) [0; 1].
(** ultraspherical Q^(a)_n = P^(a,a)_n / P^(a,a)_n(1):
    (n+2a+2) Q_(n+2) = (2n+2a+3) x Q_(n+1) - (n+1) Q_n *)
Definition ultraQ (a : R) : nat -> poly :=
  three_term (fun n => (2 * INR n + 2 * a + 3) / (INR n + 2 * a + 2)) (fun _ => 0)
             (fun n => (INR n + 1) / (INR n + 2 * a + 2)) [0; 1].
(** Jacobi P^(a,b)_n, with N = n+2 (https://dlmf.nist.gov/18.9):
    2N(N+a+b)(2N+a+b-2) P_N = (2N+a+b-1)((2N+a+b)(2N+a+b-2) x + a^2-b^2) P_(N-1)
                              - 2(N+a-1)(N+b-1)(2N+a+b) P_(N-2) *)
Definition jacP (a b : R) : nat -> poly :=
  three_term
    (fun n => let N := INR n + 2 in (2 * N + a + b - 1) * (2 * N + a + b) / (2 * N * (N + a + b)))
    (fun n => let N := INR n + 2 in
       (2 * N + a + b - 1) * (a ^ 2 - b ^ 2) / (2 * N * (N + a + b) * (2 * N + a + b - 2)))
    (fun n => let N := INR n + 2 in
       (N + a - 1) * (N + b - 1) * (2 * N + a + b) / (N * (N + a + b) * (2 * N + a + b - 2)))
    [(a - b) / 2; (a + b + 2) / 2].
(** Laguerre: (n+2) La_(n+2) = (2n+3-x) La_(n+1) - (n+1) La_n *)
Definition lagL : nat -> poly :=
  three_term (fun n => - (1) / (INR n + 2)) (fun n => (2 * INR n + 3) / (INR n + 2))
             (fun n => (INR n + 1) / (INR n + 2)) [1; - (1)].

(** ** facts *)
Lemma peval_padd p q x : peval (padd p q) x = peval p x + peval q x.
Proof. revert q; induction p as [|a p IH]; intros [|b q]; simpl; try ring. rewrite IH. ring. Qed.
Lemma peval_pscale c p x : peval (pscale c p) x = c * peval p x.
Proof. induction p as [|a p IH]; simpl; [ring|]. fold (pscale c p). rewrite IH. ring. Qed.
Lemma peval_pX p x : peval (pX p) x = x * peval p x.
Proof. simpl. ring. Qed.

(** polynomials with the same values everywhere: an equivalence respected by all
    operations (derivatives included, by the next lemmas) *)
Lemma pderiv_padd p q x : peval (pderiv (padd p q)) x = peval (pderiv p) x + peval (pderiv q) x.
Proof.
  revert q; induction p as [|a p IH]; intros [|b q]; simpl; try ring.
  rewrite !peval_padd, !peval_pX, IH. ring.
Qed.
Lemma pderiv_pscale c p x : peval (pderiv (pscale c p)) x = c * peval (pderiv p) x.
Proof.
  induction p as [|a p IH]; simpl; [ring|]. rewrite !peval_padd. simpl. fold (pscale c p).
  rewrite IH, peval_pscale. ring.
Qed.
Lemma pderiv_pX p x : peval (pderiv (pX p)) x = peval p x + x * peval (pderiv p) x.
Proof. simpl. rewrite peval_padd, peval_pX. reflexivity. Qed.

(** the formal derivative is the derivative *)
Lemma pderiv_correct p x : derivable_pt_lim (peval p) x (peval (pderiv p) x).
Proof.
  revert x. induction p as [|a p IH]; intros x.
  - simpl. apply derivable_pt_lim_const.
  - simpl. rewrite peval_padd, peval_pX.
    replace (peval p x + x * peval (pderiv p) x) with (0 + (1 * peval p x + x * peval (pderiv p) x)) by ring.
    apply (derivable_pt_lim_plus (fun _ => a) (fun x => x * peval p x)).
    + apply derivable_pt_lim_const.
    + apply (derivable_pt_lim_mult (fun x => x) (peval p)); [apply derivable_pt_lim_id | apply IH].
Qed.

(** derivatives respect pointwise equality *)
Lemma peq_deriv p q : (forall x, peval p x = peval q x) -> forall x, peval (pderiv p) x = peval (pderiv q) x.
Proof.
  intros H x. pose proof (pderiv_correct p x) as D1. pose proof (pderiv_correct q x) as D2.
  eapply uniqueness_limite; [exact D1|].
  intros e He. destruct (D2 e He) as [d Hd]. exists d. intros h H1 H2. rewrite !H. apply Hd; auto.
Qed.
Lemma peq_dn k p q : (forall x, peval p x = peval q x) -> forall x, deriv_at k p x = deriv_at k q x.
Proof. intros H. unfold deriv_at. induction k; simpl; auto using peq_deriv. Qed.

Lemma deriv_at_0 p x : deriv_at 0 p x = peval p x. Proof. reflexivity. Qed.
Lemma deriv_at_padd k p q x : deriv_at k (padd p q) x = deriv_at k p x + deriv_at k q x.
Proof.
  revert x. unfold deriv_at. induction k as [|k IH]; intros x; simpl; [apply peval_padd|].
  rewrite <- pderiv_padd. apply peq_deriv. intros y. rewrite IH, peval_padd. reflexivity.
Qed.
Lemma deriv_at_pscale k c p x : deriv_at k (pscale c p) x = c * deriv_at k p x.
Proof.
  revert x. unfold deriv_at. induction k as [|k IH]; intros x; simpl; [apply peval_pscale|].
  rewrite <- pderiv_pscale. apply peq_deriv. intros y. rewrite IH, peval_pscale. reflexivity.
Qed.
Lemma deriv_at_pX k p x : deriv_at k (pX p) x = x * deriv_at k p x + INR k * deriv_at (pred k) p x.
Proof.
  revert x. induction k as [|k IH]; intros x.
  - unfold deriv_at. simpl. ring.
  - unfold deriv_at in *. change (dn (S k) (pX p)) with (pderiv (dn k (pX p))).
    rewrite (peq_deriv (dn k (pX p)) (padd (pX (dn k p)) (pscale (INR k) (dn (pred k) p)))).
    + rewrite pderiv_padd, pderiv_pX, pderiv_pscale, S_INR. simpl pred.
      destruct k as [|k]; simpl; [ring|]. ring.
    + intros y. rewrite IH, peval_padd, peval_pX, peval_pscale. reflexivity.
Qed.
Lemma deriv_at_nil k x : deriv_at k [] x = 0.
Proof. unfold deriv_at. assert (E : dn k [] = []) by (induction k; simpl; [reflexivity|rewrite IHk; reflexivity]). rewrite E. reflexivity. Qed.
Lemma deriv_at_pcomb k n c P x : deriv_at k (pcomb n c P) x = gsum 0 Rplus n (fun i => c i * deriv_at k (P i) x).
Proof.
  induction n as [|n IH]; simpl; [apply deriv_at_nil|]. rewrite deriv_at_padd, deriv_at_pscale, IH. reflexivity.
Qed.

Lemma three_term_SS A B C p1 q :
  three_term A B C p1 (S (S q)) =
  padd (padd (pscale (A q) (pX (three_term A B C p1 (S q)))) (pscale (B q) (three_term A B C p1 (S q))))
       (pscale (- C q) (three_term A B C p1 q)).
Proof. reflexivity. Qed.
Lemma deriv_at_three_term A B C p1 k q x :
  deriv_at k (three_term A B C p1 (S (S q))) x =
  (A q * x + B q) * deriv_at k (three_term A B C p1 (S q)) x
  + INR k * A q * deriv_at (pred k) (three_term A B C p1 (S q)) x - C q * deriv_at k (three_term A B C p1 q) x.
Proof. rewrite three_term_SS, !deriv_at_padd, !deriv_at_pscale, deriv_at_pX. ring. Qed.

(** values of derivatives that satisfy the differentiated recurrence *)
Lemma three_term_values A B C p1 x K (v : nat -> nat -> R) :
  (forall k, (k <= K)%nat -> v k O = deriv_at k [1] x /\ v k 1%nat = deriv_at k p1 x) ->
  (forall k q, (k <= K)%nat ->
     v k (S (S q)) = (A q * x + B q) * v k (S q) + INR k * A q * v (pred k) (S q) - C q * v k q) ->
  forall n k, (k <= K)%nat -> deriv_at k (three_term A B C p1 n) x = v k n.
Proof.
  intros H0 HS.
  assert (forall n, (forall k, (k <= K)%nat -> deriv_at k (three_term A B C p1 n) x = v k n) /\
                    (forall k, (k <= K)%nat -> deriv_at k (three_term A B C p1 (S n)) x = v k (S n))) as H.
  { induction n as [|n [IH1 IH2]].
    - split; intros k Hk; destruct (H0 k Hk); auto.
    - split; auto. intros k Hk. rewrite deriv_at_three_term, HS by auto.
      rewrite IH1, !IH2 by lia. reflexivity. }
  intros n. apply H.
Qed.
