(** JacobiProofs.v -- recursions of Jacobi polynomials. *)
From Coq Require Import Reals Lra Lia ZArith List Arith.
From Verif Require Import Base Fld SparseModel RPoly JacobiModel.
Import ListNotations.
Local Open Scope R_scope.

Section Point.
Variables (a b x : R).
Hypothesis Ha : -1 < a.
Hypothesis Hb : -1 < b.
Notation P n := (peval (jacP a b n) x).
Notation D n := (peval (pderiv (jacP a b n)) x).

Lemma P0 : P 0 = 1. Proof. simpl. ring. Qed.
Lemma P1 : P 1 = (a - b) / 2 + (a + b + 2) / 2 * x. Proof. simpl. ring. Qed.
Lemma D0 : D 0 = 0. Proof. simpl. ring. Qed.
Lemma D1 : D 1 = (a + b + 2) / 2. Proof. simpl. ring. Qed.
Definition Aq q := let N := INR q + 2 in (2 * N + a + b - 1) * (2 * N + a + b) / (2 * N * (N + a + b)).
Definition Bq q := let N := INR q + 2 in (2 * N + a + b - 1) * (a ^ 2 - b ^ 2) / (2 * N * (N + a + b) * (2 * N + a + b - 2)).
Definition Cq q := let N := INR q + 2 in (N + a - 1) * (N + b - 1) * (2 * N + a + b) / (N * (N + a + b) * (2 * N + a + b - 2)).
Lemma PSS q : P (S (S q)) = (Aq q * x + Bq q) * P (S q) - Cq q * P q.
Proof.
  unfold jacP. rewrite three_term_SS. rewrite !peval_padd, !peval_pscale, peval_pX. fold (jacP a b).
  unfold Aq, Bq, Cq. cbv zeta. ring.
Qed.
Lemma DSS q : D (S (S q)) = (Aq q * x + Bq q) * D (S q) + Aq q * P (S q) - Cq q * D q.
Proof.
  pose proof (deriv_at_three_term
    (fun n => let N := INR n + 2 in (2 * N + a + b - 1) * (2 * N + a + b) / (2 * N * (N + a + b)))
    (fun n => let N := INR n + 2 in (2 * N + a + b - 1) * (a ^ 2 - b ^ 2) / (2 * N * (N + a + b) * (2 * N + a + b - 2)))
    (fun n => let N := INR n + 2 in (N + a - 1) * (N + b - 1) * (2 * N + a + b) / (N * (N + a + b) * (2 * N + a + b - 2)))
    [(a - b) / 2; (a + b + 2) / 2] 1 q x) as E.
  unfold deriv_at in E. cbn [dn pred INR] in E. fold (jacP a b) in E. rewrite E. unfold Aq, Bq, Cq. cbv zeta. ring.
Qed.
(** the recurrence solved for the lowest term *)
Lemma P_low q : P q = ((Aq q * x + Bq q) * P (S q) - P (S (S q))) / Cq q.
Proof.
  rewrite PSS. assert (Cq q <> 0).
  { unfold Cq. cbv zeta. pose proof (pos_INR q). apply Rmult_integral_contrapositive_currified.
    - repeat apply Rmult_integral_contrapositive_currified; lra.
    - apply Rinv_neq_0_compat. repeat apply Rmult_integral_contrapositive_currified; lra. }
  field. auto.
Qed.

Lemma up_down q :
  (2 * INR q + (a + b) + 2) * (1 - x ^ 2) * D q = (INR q + (a + b) + 1) * ((a - b + (2 * INR q + (a + b) + 2) * x) * P q - 2 * (INR q + 1) * P (S q)) /\
  (2 * INR (S q) + (a + b)) * (1 - x ^ 2) * D (S q) = INR (S q) * (a - b - (2 * INR (S q) + (a + b)) * x) * P (S q) + 2 * (INR (S q) + a) * (INR (S q) + b) * P q.
Proof.
  induction q as [|q [IH1 IH2]].
  - rewrite P0, P1, D0, D1. simpl INR. split; field.
  - pose proof (pos_INR q) as Hq. rewrite !S_INR in *.
    assert (D (S q) * (1 - x ^ 2) = ((INR q + 1) * (a - b - (2 * (INR q + 1) + (a + b)) * x) * P (S q) + 2 * (INR q + 1 + a) * (INR q + 1 + b) * P q) / (2 * (INR q + 1) + (a + b))) as E2
      by (rewrite <- IH2; field; lra).
    assert (D q * (1 - x ^ 2) = ((INR q + (a + b) + 1) * ((a - b + (2 * INR q + (a + b) + 2) * x) * P q - 2 * (INR q + 1) * P (S q))) / (2 * INR q + (a + b) + 2)) as E1
      by (rewrite <- IH1; field; lra).
    split.
    + transitivity ((2 * (INR q + 1) + (a + b) + 2) * (D (S q) * (1 - x ^ 2))); [ring|]. rewrite E2.
      rewrite PSS. unfold Aq, Bq, Cq. cbv zeta. field. lra.
    + transitivity ((2 * (INR q + 1 + 1) + (a + b)) * ((Aq q * x + Bq q) * (D (S q) * (1 - x ^ 2)) + Aq q * P (S q) * (1 - x ^ 2) - Cq q * (D q * (1 - x ^ 2)))).
      * rewrite DSS. ring.
      * rewrite E2, E1. rewrite PSS. unfold Aq, Bq, Cq. cbv zeta. field. lra.
Qed.

(** ** x P_j *)
Lemma xP0 : a + b + 2 <> 0 -> x * P 0 = (b - a) / (a + b + 2) * P 0 + 2 / (a + b + 2) * P 1.
Proof. intros H. rewrite P0, P1. field. auto. Qed.
Lemma xPS q : let j := INR q + 1 in
  x * P (S q) =
   2 * (j + a) * (j + b) / ((2 * j + a + b + 1) * (2 * j + a + b)) * P q
   - (a ^ 2 - b ^ 2) / ((2 * j + a + b + 2) * (2 * j + a + b)) * P (S q)
   + 2 * (j + 1) * (j + a + b + 1) / ((2 * j + a + b + 2) * (2 * j + a + b + 1)) * P (S (S q)).
Proof. intros j. subst j. pose proof (pos_INR q). rewrite PSS. unfold Aq, Bq, Cq. cbv zeta. field. lra. Qed.

(** ** (1 - x^2) P_j' *)
Lemma cP q : let j := INR q + 1 in
  (1 - x ^ 2) * D (S q) =
    2 * (j + a) * (j + b) * (j + a + b + 1) / ((2 * j + a + b) * (2 * j + a + b + 1)) * P q
    + 2 * j * (a - b) * (j + a + b + 1) / ((2 * j + a + b) * (2 * j + a + b + 2)) * P (S q)
    - 2 * j * (j + 1) * (j + 1 + a + b) / ((2 * j + a + b + 1) * (2 * j + a + b + 2)) * P (S (S q)).
Proof.
  intros j. subst j. pose proof (pos_INR q). destruct (up_down q) as [_ E]. rewrite !S_INR in E.
  assert (D (S q) * (1 - x ^ 2) = ((INR q + 1) * (a - b - (2 * (INR q + 1) + (a + b)) * x) * P (S q) + 2 * (INR q + 1 + a) * (INR q + 1 + b) * P q) / (2 * (INR q + 1) + (a + b))) as E2
      by (rewrite <- E; field; lra).
  rewrite Rmult_comm, E2. rewrite PSS. unfold Aq, Bq, Cq. cbv zeta. field. lra.
Qed.

(** ** P_j from derivatives, away from the end points *)
Lemma bP_open q : 1 - x ^ 2 <> 0 -> q = O \/ INR q + a + b + 1 <> 0 ->
  let j := INR q + 1 in
  P (S q) = 2 * (j + 1 + a + b) / ((2 * (j + 1) + a + b) * (2 * (j + 1) + a + b - 1)) * D (S (S q))
   + 2 * (a - b) / ((2 * j + a + b + 2) * (2 * j + a + b)) * D (S q)
   - (2 * (j + a) * (j + b)) / ((2 * j + a + b + 1) * (2 * j + a + b) * (j + a + b)) * D q.
Proof.
  intros Hx Hq j. subst j. pose proof (pos_INR q) as Hp. destruct (up_down q) as [F1 F2]. rewrite !S_INR in F2.
  assert (D (S q) = ((INR q + 1) * (a - b - (2 * (INR q + 1) + (a + b)) * x) * P (S q) + 2 * (INR q + 1 + a) * (INR q + 1 + b) * P q) / (2 * (INR q + 1) + (a + b)) / (1 - x ^ 2)) as E2
      by (rewrite <- F2; field; repeat split; auto; lra).
  assert (D q = ((INR q + (a + b) + 1) * ((a - b + (2 * INR q + (a + b) + 2) * x) * P q - 2 * (INR q + 1) * P (S q))) / (2 * INR q + (a + b) + 2) / (1 - x ^ 2)) as E1
      by (rewrite <- F1; field; repeat split; auto; lra).
  rewrite DSS. destruct Hq as [->|Hq].
  - rewrite D0, D1, P1, !Rmult_0_r. simpl INR. unfold Aq, Bq, Cq. cbv zeta. simpl INR. field. lra.
  - rewrite E1, E2. unfold Aq, Bq, Cq. cbv zeta. field. repeat split; try lra.
Qed.
End Point.

(** polynomials that agree away from +-1 agree *)
Lemma peval_continuity p : continuity (peval p).
Proof. intros x. apply derivable_continuous_pt. exists (peval (pderiv p) x). apply pderiv_correct. Qed.
Lemma poly_agree p q : (forall x, 1 - x ^ 2 <> 0 -> peval p x = peval q x) -> forall x, peval p x = peval q x.
Proof.
  intros H x. destruct (Req_dec (1 - x ^ 2) 0) as [E|E]; [|auto].
  (* r = p - q vanishes near x, except perhaps at x *)
  set (r := padd p (pscale (- (1)) q)).
  assert (forall y, peval r y = peval p y - peval q y) as Hr by (intros; unfold r; rewrite peval_padd, peval_pscale; ring).
  destruct (Req_dec (peval r x) 0) as [Z|Z]; [rewrite Hr in Z; lra|]. exfalso.
  destruct (peval_continuity r x (Rabs (peval r x)) (Rabs_pos_lt _ Z)) as [d [Hd HC]].
  set (h := Rmin (d / 2) 1).
  assert (0 < h) by (unfold h; apply Rmin_glb_lt; lra).
  assert (h <= d / 2 /\ h <= 1) as [L1 L2] by (unfold h; split; [apply Rmin_l|apply Rmin_r]).
  assert (1 - (x + h) ^ 2 <> 0).
  { replace (1 - (x + h) ^ 2) with (1 - x ^ 2 - h * (2 * x + h)) by ring. rewrite E.
    assert (x = 1 \/ x = -1) as [-> | ->] by (assert ((1 - x) * (1 + x) = 0) as M by (rewrite <- E; ring); apply Rmult_integral in M; lra); nra. }
  specialize (HC (x + h)). cbn in HC. unfold R_dist in HC.
  assert (peval r (x + h) = 0) as R0 by (rewrite Hr, H by auto; ring).
  rewrite R0 in HC. assert (Rabs (0 - peval r x) < Rabs (peval r x)) as C.
  { apply HC. split.
    - unfold D_x, no_cond. split; [auto|]. lra.
    - replace (x + h - x) with h by ring. rewrite Rabs_right by lra. lra. }
  replace (0 - peval r x) with (- peval r x) in C by ring. rewrite Rabs_Ropp in C. lra.
Qed.

Lemma solve_lin d u A c r r' w : d = u + A * (c * d + r - r') - w -> A * c <> 1 -> d = (u + A * (r - r') - w) / (1 - A * c).
Proof. intros E H. apply (Rmult_eq_reg_r (1 - A * c)); [|lra]. unfold Rdiv. rewrite Rmult_assoc, Rinv_l by lra. lra. Qed.
Section Poly.
Variables (a b : R).
Hypothesis Ha : -1 < a.
Hypothesis Hb : -1 < b.
Notation P n := (jacP a b n).
Lemma bP q x : q = O \/ INR q + a + b + 1 <> 0 ->
  let j := INR q + 1 in
  peval (P (S q)) x = 2 * (j + 1 + a + b) / ((2 * (j + 1) + a + b) * (2 * (j + 1) + a + b - 1)) * peval (pderiv (P (S (S q)))) x
   + 2 * (a - b) / ((2 * j + a + b + 2) * (2 * j + a + b)) * peval (pderiv (P (S q))) x
   - (2 * (j + a) * (j + b)) / ((2 * j + a + b + 1) * (2 * j + a + b) * (j + a + b)) * peval (pderiv (P q)) x.
Proof.
  intros Hq j. set (c1 := 2 * (j + 1 + a + b) / _). set (c0 := 2 * (a - b) / _). set (cm := (2 * (j + a) * (j + b)) / _).
  rewrite (poly_agree (P (S q)) (padd (padd (pscale c1 (pderiv (P (S (S q))))) (pscale c0 (pderiv (P (S q))))) (pscale (- cm) (pderiv (P q))))).
  - rewrite !peval_padd, !peval_pscale. ring.
  - intros y Hy. rewrite !peval_padd, !peval_pscale. rewrite (bP_open a b y Ha Hb q Hy Hq). fold j. fold c1 c0 cm. ring.
Qed.

(** ** derivative of Jacobi polynomials: P_n' = (n+a+b+1)/2 P^(a+1,b+1)_(n-1) *)
Lemma deriv_jac n x : peval (pderiv (jacP a b (S n))) x = (INR n + a + b + 2) / 2 * peval (jacP (a + 1) (b + 1) n) x.
Proof.
  assert (forall n, (peval (pderiv (jacP a b (S n))) x = (INR n + a + b + 2) / 2 * peval (jacP (a + 1) (b + 1) n) x) /\
     peval (pderiv (jacP a b (S (S n)))) x = (INR (S n) + a + b + 2) / 2 * peval (jacP (a + 1) (b + 1) (S n)) x) as H; [|apply H].
  clear n. induction n as [|n [IH1 IH2]].
  - split.
    + rewrite D1. simpl. field.
    + rewrite DSS, D1, D0, P1, (P1 (a + 1) (b + 1)). unfold Aq, Bq, Cq. cbv zeta. simpl INR. field. lra.
  - split; [exact IH2|]. rewrite !S_INR in *. pose proof (pos_INR n) as Hn.
    rewrite DSS. assert (INR (S n) + a + b + 1 <> 0) as Hne0 by (rewrite S_INR; lra). pose proof (bP (S n) x (or_intror Hne0)) as B. cbv zeta in B. rewrite !S_INR in B.
    (* D_(n+3) = A x D_(n+2) + B D_(n+2) + A P_(n+2) - C D_(n+1);  eliminate P_(n+2) *)
    set (d3 := peval (pderiv (P (S (S (S n))))) x) in *. set (d2 := peval (pderiv (P (S (S n)))) x) in *.
    set (d1 := peval (pderiv (P (S n))) x) in *.
    assert (d3 = (Aq a b (S n) * x + Bq a b (S n)) * d2 + Aq a b (S n) * peval (P (S (S n))) x - Cq a b (S n) * d1) as E by (unfold d3; rewrite DSS; reflexivity).
    rewrite <- E. rewrite B in E. rewrite IH1, IH2 in E. rewrite PSS.
    set (p1 := peval (jacP (a + 1) (b + 1) (S n)) x) in *. set (p0 := peval (jacP (a + 1) (b + 1) n) x) in *.
    clearbody d3 p1 p0. clear B IH1 IH2 d2 d1.
    set (c1 := 2 * (INR n + 1 + 1 + 1 + a + b) / _) in E.
    assert (Aq a b (S n) * c1 <> 1) as Hne.
    { unfold Aq, c1. cbv zeta. rewrite S_INR. intros C.
      assert (1 - (2 * (INR n + 1 + 2) + a + b - 1) * (2 * (INR n + 1 + 2) + a + b) / (2 * (INR n + 1 + 2) * (INR n + 1 + 2 + a + b)) *
        (2 * (INR n + 1 + 1 + 1 + a + b) / ((2 * (INR n + 1 + 1 + 1) + a + b) * (2 * (INR n + 1 + 1 + 1) + a + b - 1)))
        = (INR n + 2) / (INR n + 3)) as C2 by (field; lra).
      rewrite C in C2. assert (0 < (INR n + 2) / (INR n + 3)) by (apply Rdiv_lt_0_compat; lra). lra. }
    rewrite (solve_lin _ _ _ _ _ _ _ E Hne).
    unfold c1, Aq, Bq, Cq. cbv zeta. rewrite !S_INR. field.
    repeat split; try lra.
    match goal with |- ?X <> 0 => replace X with ((INR n + 3 + a + b) * (2 * (INR n + 3) + a + b) * (2 * (INR n + 3) + a + b - 1) * (INR n + 2)) by ring end.
    repeat apply Rmult_integral_contrapositive_currified; lra.
Qed.
End Poly.
