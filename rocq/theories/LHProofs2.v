(** LHProofs2.v -- derivatives of Hermite and Laguerre functions; improper integrals. *)
From Coq Require Import Reals ZArith List Arith Bool Lia Lra.
From Verif Require Import Base Fld RPoly MatrixProofs BndModel BndProofs LHModel LHSpec LHProofs.
Import ListNotations.
Local Open Scope R_scope.

Lemma derivable_ext f g x l : (forall y, f y = g y) -> derivable_pt_lim f x l -> derivable_pt_lim g x l.
Proof. intros H D e He. destruct (D e He) as [d Hd]. exists d. intros h H1 H2. rewrite <- !H. apply Hd; auto. Qed.
Lemma nth_ext k : forall f f' g g', (forall x, f x = f' x) -> (forall x, g x = g' x) -> nth_derivative k f g -> nth_derivative k f' g'.
Proof.
  induction k as [|k IH]; intros f f' g g' E1 E2 H; cbn in *.
  - intros x. rewrite <- E1, <- E2. apply H.
  - destruct H as (h & Hd & H). exists h. split; [intros x; apply (derivable_ext f); auto|apply (IH h h g g'); auto].
Qed.
Lemma nth_unique k : forall f g h, nth_derivative k f g -> nth_derivative k f h -> forall x, g x = h x.
Proof.
  induction k as [|k IH]; intros f g h H1 H2; cbn in *.
  - intros x. rewrite <- H1, <- H2. reflexivity.
  - destruct H1 as (p & Dp & H1), H2 as (q & Dq & H2). apply (IH p g h H1).
    apply (nth_ext k q p h h); auto. intros x. apply (uniqueness_limite f x); auto.
Qed.
(** ** p(x) exp(-x/2) *)
Definition wl (p : poly) (x : R) : R := peval p x * exp (- x / 2).
Definition lq (p : poly) : poly := padd (pderiv p) (pscale (- (1 / 2)) p).
Lemma lin_deriv a x : derivable_pt_lim (fun y => a * y) x a.
Proof.
  pose proof (derivable_pt_lim_scal (fun y => y) a x 1 (derivable_pt_lim_id x)) as H. rewrite Rmult_1_r in H. exact H.
Qed.
Lemma exp_half_deriv x : derivable_pt_lim (fun y => exp (- y / 2)) x (- (1 / 2) * exp (- x / 2)).
Proof.
  apply (derivable_ext (fun y => exp ((- (1 / 2)) * y))); [intros y; f_equal; field|].
  replace (- (1 / 2) * exp (- x / 2)) with (exp ((- (1 / 2)) * x) * - (1 / 2)).
  - apply (derivable_pt_lim_comp (fun y => (- (1 / 2)) * y) exp); [apply lin_deriv|apply derivable_pt_lim_exp].
  - replace (- (1 / 2) * x) with (- x / 2) by field. ring.
Qed.
Lemma wl_deriv p x : derivable_pt_lim (wl p) x (wl (lq p) x).
Proof.
  unfold wl at 2, lq. rewrite peval_padd, peval_pscale.
  replace ((peval (pderiv p) x + - (1 / 2) * peval p x) * exp (- x / 2)) with
    (peval (pderiv p) x * exp (- x / 2) + peval p x * (- (1 / 2) * exp (- x / 2))) by ring.
  apply (derivable_pt_lim_mult (peval p) (fun y => exp (- y / 2))); [apply pderiv_correct|apply exp_half_deriv].
Qed.
Fixpoint lqn (k : nat) (p : poly) : poly := match k with O => p | S k => lqn k (lq p) end.
Lemma wl_nth k : forall p, nth_derivative k (wl p) (wl (lqn k p)).
Proof. induction k as [|k IH]; intros p; cbn; [reflexivity|]. exists (wl (lq p)). split; [apply wl_deriv|apply IH]. Qed.
Lemma deriv_at_S m p x : deriv_at m (pderiv p) x = deriv_at (S m) p x.
Proof.
  unfold deriv_at. revert x. induction m as [|m IH]; intros x; [reflexivity|]. cbn [dn]. apply peq_deriv. exact IH.
Qed.
Lemma deriv_lq m p x : deriv_at m (lq p) x = deriv_at (S m) p x - 1 / 2 * deriv_at m p x.
Proof. unfold lq. rewrite deriv_at_padd, deriv_at_pscale, deriv_at_S. ring. Qed.
Lemma lq1 p x : wl (lqn 1 p) x = (deriv_at 1 p x - 1 / 2 * deriv_at 0 p x) * exp (- x / 2).
Proof. unfold wl. cbn [lqn]. rewrite <- (deriv_at_0 (lq p)), deriv_lq. reflexivity. Qed.
Lemma lq2 p x : wl (lqn 2 p) x = (deriv_at 2 p x - deriv_at 1 p x + 1 / 4 * deriv_at 0 p x) * exp (- x / 2).
Proof. unfold wl. cbn [lqn]. rewrite <- (deriv_at_0 (lq _)), !deriv_lq. f_equal. field. Qed.
Lemma lq3 p x : wl (lqn 3 p) x = (deriv_at 3 p x - 3 / 2 * deriv_at 2 p x + 3 / 4 * deriv_at 1 p x - 1 / 8 * deriv_at 0 p x) * exp (- x / 2).
Proof. unfold wl. cbn [lqn]. rewrite <- (deriv_at_0 (lq _)), !deriv_lq. f_equal. field. Qed.
Lemma lq4 p x : wl (lqn 4 p) x = (deriv_at 4 p x - 2 * deriv_at 3 p x + 3 / 2 * deriv_at 2 p x - 1 / 2 * deriv_at 1 p x + 1 / 16 * deriv_at 0 p x) * exp (- x / 2).
Proof. unfold wl. cbn [lqn]. rewrite <- (deriv_at_0 (lq _)), !deriv_lq. f_equal. field. Qed.

(** ** p(x) exp(-x^2/2) *)
Definition wh (p : poly) (x : R) : R := peval p x * exp (- x ^ 2 / 2).
Definition hq (p : poly) : poly := padd (pderiv p) (pscale (-1) (pX p)).
Lemma exp_sq_deriv x : derivable_pt_lim (fun y => exp (- y ^ 2 / 2)) x (- x * exp (- x ^ 2 / 2)).
Proof.
  replace (- x * exp (- x ^ 2 / 2)) with (exp (- x ^ 2 / 2) * - x) by ring.
  apply (derivable_pt_lim_comp (fun y => - y ^ 2 / 2) exp); [|apply derivable_pt_lim_exp].
  apply (derivable_ext (fun y => peval [0; 0; - (1 / 2)] y)); [intros y; cbn; field|].
  replace (- x) with (peval (pderiv [0; 0; - (1 / 2)]) x) by (cbn; field). apply pderiv_correct.
Qed.
Lemma wh_deriv p x : derivable_pt_lim (wh p) x (wh (hq p) x).
Proof.
  unfold wh at 2, hq. rewrite peval_padd, peval_pscale, peval_pX.
  replace ((peval (pderiv p) x + -1 * (x * peval p x)) * exp (- x ^ 2 / 2)) with
    (peval (pderiv p) x * exp (- x ^ 2 / 2) + peval p x * (- x * exp (- x ^ 2 / 2))) by ring.
  apply (derivable_pt_lim_mult (peval p) (fun y => exp (- y ^ 2 / 2))); [apply pderiv_correct|apply exp_sq_deriv].
Qed.
Lemma hq_herm n x : peval (hq (hq (hermP n))) x = (x ^ 2 - 1 - 2 * INR n) * peval (hermP n) x.
Proof.
  unfold hq. rewrite !peval_padd, !peval_pscale, !peval_pX, peval_padd, peval_pscale, peval_pX.
  rewrite pderiv_padd, pderiv_pscale, pderiv_pX, herm_ode. ring.
Qed.

(** ** the factor *)
Lemma factor_eq n : herm_factor n = 1 / (sqrt (sqrt PI) * sqrt (2 ^ n * INR (fact n))).
Proof.
  unfold herm_factor. rewrite sqrt_mult; [|apply pow_le; lra|apply pos_INR]. rewrite Rmult_assoc. reflexivity.
Qed.
Lemma fact_INR_pos n : 0 < INR (fact n). Proof. apply lt_0_INR, lt_O_fact. Qed.
Lemma arg_pos n : 0 < 2 ^ n * INR (fact n). Proof. apply Rmult_lt_0_compat; [apply pow_lt; lra|apply fact_INR_pos]. Qed.
Lemma sPI_pos : 0 < sqrt PI. Proof. apply sqrt_lt_R0, PI_RGT_0. Qed.
Lemma factor_pos n : 0 < herm_factor n.
Proof.
  rewrite factor_eq. apply Rdiv_lt_0_compat; [lra|]. apply Rmult_lt_0_compat; [apply sqrt_lt_R0, sPI_pos|apply sqrt_lt_R0, arg_pos].
Qed.
Lemma factor_sq n : herm_factor n * herm_factor n = 1 / (sqrt PI * (2 ^ n * INR (fact n))).
Proof.
  rewrite factor_eq. set (a := sqrt (sqrt PI)). set (b := sqrt (2 ^ n * INR (fact n))).
  assert (Ha : a * a = sqrt PI) by (apply sqrt_sqrt; apply Rlt_le, sPI_pos).
  assert (Hb : b * b = 2 ^ n * INR (fact n)) by (apply sqrt_sqrt, Rlt_le, arg_pos).
  assert (Pa : 0 < a) by (apply sqrt_lt_R0, sPI_pos). assert (Pb : 0 < b) by (apply sqrt_lt_R0, arg_pos).
  rewrite <- Ha, <- Hb. field. lra.
Qed.
(** f_(n+1) sqrt(2(n+1)) = f_n *)
Lemma factor_step n : herm_factor (S n) * sqrt (2 * (INR n + 1)) = herm_factor n.
Proof.
  rewrite !factor_eq. replace (2 ^ S n * INR (fact (S n))) with ((2 * (INR n + 1)) * (2 ^ n * INR (fact n))).
  2:{ rewrite fact_simpl, mult_INR, S_INR. cbn [pow]. ring. }
  rewrite sqrt_mult; [|pose proof (pos_INR n); lra|apply Rlt_le, arg_pos].
  assert (Pa : 0 < sqrt (sqrt PI)) by (apply sqrt_lt_R0, sPI_pos). assert (Pb : 0 < sqrt (2 ^ n * INR (fact n))) by (apply sqrt_lt_R0, arg_pos).
  assert (Pc : 0 < sqrt (2 * (INR n + 1))) by (apply sqrt_lt_R0; pose proof (pos_INR n); lra). field. lra.
Qed.
Lemma hermite_wh n x : hermite n x = wh (pscale (herm_factor n) (hermP n)) x.
Proof. unfold hermite, wh. rewrite peval_pscale, factor_eq. ring. Qed.
Lemma sqrt_2 a : 0 <= a -> sqrt (2 * a) = 2 * sqrt (a / 2).
Proof.
  intros H. replace (2 * a) with ((2 * 2) * (a / 2)) by field. rewrite sqrt_mult by lra. rewrite sqrt_square by lra. reflexivity.
Qed.
(** phi_n' = sqrt(n/2) phi_(n-1) - sqrt((n+1)/2) phi_(n+1) *)
Definition hermite' (n : nat) (x : R) : R :=
  (match n with O => 0 | S m => sqrt (INR n / 2) * hermite m x end) - sqrt ((INR n + 1) / 2) * hermite (S n) x.
Lemma hermite_deriv n x : derivable_pt_lim (hermite n) x (hermite' n x).
Proof.
  apply (derivable_ext (wh (pscale (herm_factor n) (hermP n)))); [intros y; symmetry; apply hermite_wh|].
  replace (hermite' n x) with (wh (hq (pscale (herm_factor n) (hermP n))) x); [apply wh_deriv|].
  unfold hermite'. rewrite (hermite_wh (S n)). unfold wh, hq. rewrite peval_padd, pderiv_pscale, !peval_pscale, peval_pX, peval_pscale.
  rewrite (herm_step n). pose proof (factor_step n) as F. pose proof (pos_INR n) as Pn.
  assert (S1 : sqrt (2 * (INR n + 1)) = 2 * sqrt ((INR n + 1) / 2)) by (apply sqrt_2; lra). rewrite S1 in F.
  destruct n as [|m].
  - rewrite herm_deriv_0. rewrite <- F. ring.
  - rewrite hermite_wh. unfold wh. rewrite peval_pscale. rewrite herm_deriv.
    pose proof (factor_step m) as F1. rewrite S_INR in *.
    assert (S2 : sqrt (2 * (INR m + 1)) = 2 * sqrt ((INR m + 1) / 2)) by (apply sqrt_2; pose proof (pos_INR m); lra). rewrite S2 in F1.
    rewrite <- F1, <- F. set (s := sqrt ((INR m + 1) / 2)) in *. set (t := sqrt ((INR m + 1 + 1) / 2)) in *.
    assert (Hs : s * s = (INR m + 1) / 2) by (apply sqrt_sqrt; pose proof (pos_INR m); lra).
    replace (2 * (INR m + 1)) with (4 * (s * s)) by (rewrite Hs; field). ring.
Qed.
