(** LHProperties.v -- C59: Hermite and Laguerre functions; C60: their matrices. *)
From Coq Require Import Reals ZArith List Arith Bool Lia Lra.
From Verif Require Import Base Fld SparseModel SparseSpec RPoly MatrixSpec MatrixProofs StencilModel StencilModel2 LegMatrixModel ChebTransProofs3 BndModel BndProofs LHModel LHSpec LHProofs LHProofs2 GaussInt LHProofs3 LHProofs4 LHProofs5.
Import ListNotations.
Local Open Scope R_scope.

(** ** C59 *)
(** the values are those of the documented functions *)
Theorem C59_values i x : lag_vandermonde x i = laguerre i x /\ lag_evaluate_basis x i = laguerre i x /\
  herm_evaluate_basis x i = hermite i x /\ herm_basis_all x i = hermite i x.
Proof.
  split; [apply lag_fun|]. split; [apply lag_fun|]. split; [|apply herm_fun].
  rewrite <- herm_fun. unfold herm_evaluate_basis, herm_basis_all. ring.
Qed.
(** eval returns the expansion *)
Theorem C59_eval N u x : lag_eval N u x = rsum N (fun j => u j * laguerre j x) /\ herm_eval N u x = rsum N (fun j => u j * hermite j x).
Proof.
  split.
  - unfold lag_eval. rewrite Rmult_comm, <- sum_scal. apply sum_ext. intros j _. unfold laguerre. rewrite lagvander_ok. ring.
  - unfold herm_eval. rewrite Rmult_comm, <- sum_scal. apply sum_ext. intros j _. rewrite <- herm_fun. unfold herm_basis_all. ring.
Qed.
(** evaluate_basis_derivative_all of the Laguerre family, for k = 0, 1, 2 and 4 *)
Theorem C59_laguerre_derivatives_partial M k i : (i < M)%nat -> (k <= 4)%nat -> k <> 3%nat ->
  exists g, nth_derivative k (laguerre i) g /\ forall x, lag_derivative_all M k x i = Some (g x).
Proof.
  intros Hi Hk N3. exists (wl (lqn k (lagL i))). split; [apply wl_nth|]. intros x.
  destruct k as [|[|[|[|[|k]]]]]; try lia; unfold lag_derivative_all; f_equal.
  - rewrite lagvander_ok. reflexivity.
  - rewrite lq1, lag_VD_ok, lagvander_ok by exact Hi. change (deriv_at 0 (lagL i) x) with (peval (lagL i) x). lra.
  - rewrite lq2, !lag_VD_ok, lagvander_ok by exact Hi. change (deriv_at 0 (lagL i) x) with (peval (lagL i) x). lra.
  - rewrite lq4, !lag_VD_ok, lagvander_ok by exact Hi. change (deriv_at 0 (lagL i) x) with (peval (lagL i) x). lra.
Qed.
(** for k = 3 the last term has the wrong sign: the values are too large by laguerre(x)/4 *)
Theorem C59_laguerre_third_refuted M i : (i < M)%nat ->
  (forall g, nth_derivative 3 (laguerre i) g -> forall x, lag_derivative_all M 3 x i = Some (g x + laguerre i x / 4)) /\
  ~ exists g, nth_derivative 3 (laguerre i) g /\ forall x, lag_derivative_all M 3 x i = Some (g x).
Proof.
  intros Hi.
  assert (P : forall g, nth_derivative 3 (laguerre i) g -> forall x, lag_derivative_all M 3 x i = Some (g x + laguerre i x / 4)).
  { intros g G x. rewrite <- (nth_unique 3 (laguerre i) _ g (wl_nth 3 (lagL i)) G x). unfold lag_derivative_all. f_equal.
    rewrite lq3, !lag_VD_ok, lagvander_ok by exact Hi. change (deriv_at 0 (lagL i) x) with (peval (lagL i) x). unfold laguerre. lra. }
  split; [exact P|]. intros (g & G & H). pose proof (P g G 0) as E. rewrite (H 0) in E. injection E as E.
  assert (L : laguerre i 0 = 1) by (unfold laguerre; rewrite lag_at_0; replace (- 0 / 2) with 0 by field; rewrite exp_0; ring). lra.
Qed.
(** evaluate_basis_derivative is right for k <= 4 *)
Theorem C59_laguerre_derivative_partial M k i : (i < M)%nat -> (k <= 4)%nat -> nth_derivative k (laguerre i) (fun x => lag_derivative M k x i).
Proof.
  intros Hi Hk. apply (nth_ext k (laguerre i) (laguerre i) (wl (lqn k (lagL i)))); [reflexivity| |apply wl_nth]. intros x. symmetry.
  destruct k as [|[|[|[|[|k]]]]]; try lia; unfold lag_derivative.
  - rewrite lag_V_ok by exact Hi. reflexivity.
  - rewrite lq1, lag_VD_ok, lag_V_ok by exact Hi. change (deriv_at 0 (lagL i) x) with (peval (lagL i) x). lra.
  - rewrite lq2, !lag_VD_ok, lag_V_ok by exact Hi. change (deriv_at 0 (lagL i) x) with (peval (lagL i) x). lra.
  - rewrite lq3, !lag_VD_ok, lag_V_ok by exact Hi. change (deriv_at 0 (lagL i) x) with (peval (lagL i) x). lra.
  - rewrite lq4, !lag_VD_ok, lag_V_ok by exact Hi. change (deriv_at 0 (lagL i) x) with (peval (lagL i) x). lra.
Qed.
(** for a higher derivative it silently returns the function itself (the matrix version raises an error) *)
Lemma exp_nth k : forall c, nth_derivative k (fun x => c * laguerre 0 x) (fun x => c * (- (1 / 2)) ^ k * laguerre 0 x).
Proof.
  induction k as [|k IH]; intros c; cbn [nth_derivative].
  - intros x. rewrite pow_O. ring.
  - exists (fun x => (c * - (1 / 2)) * laguerre 0 x). split.
    + intros x. replace (c * - (1 / 2) * laguerre 0 x) with (c * wl (lq (lagL 0)) x).
      * apply (derivable_pt_lim_scal (laguerre 0) c). apply wl_deriv.
      * unfold wl, lq, laguerre. change (lagL 0) with [1]. cbn [pderiv padd pX pscale map peval]. ring.
    + apply (nth_ext k (fun x => c * - (1 / 2) * laguerre 0 x) (fun x => c * - (1 / 2) * laguerre 0 x) (fun x => (c * - (1 / 2)) * (- (1 / 2)) ^ k * laguerre 0 x)); [reflexivity| |apply IH]. intros x. cbn [pow]. ring.
Qed.
Theorem C59_laguerre_high_refuted M k : (0 < M)%nat -> (5 <= k)%nat ->
  (forall i x, (i < M)%nat -> lag_derivative M k x i = laguerre i x /\ lag_derivative_all M k x i = None) /\
  ~ nth_derivative k (laguerre 0) (fun x => lag_derivative M k x 0).
Proof.
  intros HM Hk. assert (E : forall i x, (i < M)%nat -> lag_derivative M k x i = laguerre i x).
  { intros i x Hi. destruct k as [|[|[|[|[|k]]]]]; try lia. unfold lag_derivative. rewrite lag_V_ok by exact Hi. reflexivity. }
  split.
  - intros i x Hi. split; [apply E, Hi|]. destruct k as [|[|[|[|[|k]]]]]; try lia. reflexivity.
  - intros H. assert (Q : nth_derivative k (laguerre 0) (fun x => 1 * (- (1 / 2)) ^ k * laguerre 0 x)).
    { apply (nth_ext k (fun x => 1 * laguerre 0 x) (laguerre 0) (fun x => 1 * (- (1 / 2)) ^ k * laguerre 0 x)); [intros x; ring|reflexivity|apply (exp_nth k 1)]. }
    pose proof (nth_unique k _ _ _ H Q 0) as B. cbn beta in B. rewrite (E 0%nat 0 HM) in B.
    assert (L : laguerre 0 0 = 1) by (unfold laguerre; rewrite lag_at_0; replace (- 0 / 2) with 0 by field; rewrite exp_0; ring).
    rewrite L in B. assert (A : Rabs ((- (1 / 2)) ^ k) = (1 / 2) ^ k) by (rewrite <- RPow_abs, Rabs_Ropp, (Rabs_pos_eq (1 / 2)) by lra; reflexivity).
    assert (C : (- (1 / 2)) ^ k = 1) by lra. rewrite C, Rabs_R1 in A.
    assert ((1 / 2) ^ k < 1) by (apply pow_lt_1_compat; [lra|lia]). lra.
Qed.
(** the Hermite family: k <= 2 (a higher derivative raises NotImplementedError) *)
Theorem C59_hermite_derivatives M k i : (i < M)%nat ->
  ((k <= 2)%nat -> exists g, nth_derivative k (hermite i) g /\ forall x, herm_derivative_all M k x i = Some (g x)) /\
  ((2 < k)%nat -> forall x, herm_derivative_all M k x i = None).
Proof.
  intros Hi. split.
  2:{ intros Hk x. destruct k as [|[|[|k]]]; try lia. reflexivity. }
  intros Hk. set (p := pscale (herm_factor i) (hermP i)).
  assert (S0 : forall x, wh p x = hermite i x) by (intros x; symmetry; apply hermite_wh).
  assert (H1 : forall x, derivable_pt_lim (hermite i) x (wh (hq p) x)) by (intros x; apply (derivable_ext (wh p)); [exact S0|apply wh_deriv]).
  destruct k as [|[|[|k]]]; try lia.
  - exists (hermite i). split; [cbn; reflexivity|]. intros x. unfold herm_derivative_all. f_equal. rewrite <- herm_fun. unfold herm_basis_all. ring.
  - exists (wh (hq p)). split; [exists (wh (hq p)); split; [exact H1|cbn; reflexivity]|]. intros x. unfold herm_derivative_all. f_equal.
    rewrite herm_VD_ok, hermvander_ok by exact Hi. unfold wh, hq, p. rewrite peval_padd, pderiv_pscale, peval_pscale, peval_pX, peval_pscale. ring.
  - exists (wh (hq (hq p))). split.
    + exists (wh (hq p)). split; [exact H1|]. exists (wh (hq (hq p))). split; [apply wh_deriv|cbn; reflexivity].
    + intros x. unfold herm_derivative_all. f_equal. rewrite hermvander_ok. unfold wh.
      assert (E : peval (hq (hq p)) x = herm_factor i * peval (hq (hq (hermP i))) x).
      { unfold p, hq. rewrite !peval_padd, !peval_pscale, !peval_pX, !pderiv_padd, !pderiv_pscale, !pderiv_pX, !peval_padd, !peval_pscale, !peval_pX.
        rewrite !pderiv_pscale, !peval_pscale.
        rewrite (peq_deriv (pderiv (pscale (herm_factor i) (hermP i))) (pscale (herm_factor i) (pderiv (hermP i)))) by (intros y; rewrite peval_pscale; apply pderiv_pscale).
        rewrite pderiv_pscale. ring. }
      rewrite E, hq_herm. ring.
Qed.
(** the boundary values used to build composite bases and right hand sides *)
Theorem C59_boundary k i v : lag_bnd_values k i = Some v -> exists g, nth_derivative k (laguerre i) g /\ g 0 = v.
Proof.
  intros H. exists (wl (lqn k (lagL i))). split; [apply wl_nth|]. destruct k as [|[|k]]; cbn in H; try discriminate; injection H as <-.
  - cbn [lqn]. unfold wl. rewrite lag_at_0. replace (- 0 / 2) with 0 by field. rewrite exp_0. ring.
  - rewrite lq1. unfold deriv_at. cbn [dn]. rewrite lag_deriv_0, lag_at_0. replace (- 0 / 2) with 0 by field. rewrite exp_0. field.
Qed.
(** both families are orthonormal *)
Theorem C59_orthonormal i j : integral_half (fun x => laguerre i x * laguerre j x) (kron i j) /\
  integral_line (fun x => hermite i x * hermite j x) (kron i j).
Proof. split; [apply laguerre_orthonormal|apply hermite_orthonormal]. Qed.
(** an integral has one value *)
Theorem C59_integral_unique f u v : (integral_half f u -> integral_half f v -> u = v) /\ (integral_line f u -> integral_line f v -> u = v).
Proof. split; [apply half_unique|apply line_unique]. Qed.
(** forward after backward returns the coefficients, for a Gauss rule with at least N points *)
Theorem C59_roundtrip N M gx gw uh i : (N <= M)%nat -> (i < N)%nat ->
  (laguerre_gauss M gx gw -> lag_forward M gx gw (lag_backward N gx uh) i = uh i) /\
  (hermite_gauss M gx gw -> herm_forward M gx gw (herm_backward N gx uh) i = uh i).
Proof.
  intros HN Hi. split; intros G; unfold lag_forward, lag_backward, herm_forward, herm_backward; apply roundtrip; auto; intros a b Ha Hb.
  - rewrite <- (lag_discrete M gx gw a b G) by lia. apply sum_ext. intros q _. rewrite !lag_fun. reflexivity.
  - rewrite <- (herm_discrete M gx gw a b G) by lia. apply sum_ext. intros q _. rewrite !herm_fun. reflexivity.
Qed.
(** forward of any function of the space returns its coefficients from the function's values *)
Theorem C59_forward N M gx gw uh i : (N <= M)%nat -> (i < N)%nat ->
  (laguerre_gauss M gx gw -> lag_forward M gx gw (fun q => rsum N (fun j => uh j * laguerre j (gx q))) i = uh i) /\
  (hermite_gauss M gx gw -> herm_forward M gx gw (fun q => rsum N (fun j => uh j * hermite j (gx q))) i = uh i).
Proof.
  intros HN Hi. destruct (C59_roundtrip N M gx gw uh i HN Hi) as [A B]. split; intros G.
  - transitivity (lag_forward M gx gw (lag_backward N gx uh) i); [|exact (A G)]. unfold lag_forward, identity_solve, scalar_product. f_equal. apply sum_ext. intros q _. f_equal. f_equal.
    apply sum_ext. intros j _. rewrite lag_fun. ring.
  - transitivity (herm_forward M gx gw (herm_backward N gx uh) i); [|exact (B G)]. unfold herm_forward, identity_solve, scalar_product. f_equal. apply sum_ext. intros q _. f_equal. f_equal.
    apply sum_ext. intros j _. rewrite herm_fun. ring.
Qed.
Print Assumptions C59_values.
Print Assumptions C59_eval.
Print Assumptions C59_laguerre_derivatives_partial.
Print Assumptions C59_laguerre_third_refuted.
Print Assumptions C59_laguerre_derivative_partial.
Print Assumptions C59_laguerre_high_refuted.
Print Assumptions C59_hermite_derivatives.
Print Assumptions C59_boundary.
Print Assumptions C59_orthonormal.
Print Assumptions C59_integral_unique.
Print Assumptions C59_roundtrip.
Print Assumptions C59_forward.

(** two points: the rules exist *)
Definition hx2 (q : nat) : R := match q with O => sqrt (1 / 2) | _ => - sqrt (1 / 2) end.
Definition hw2 (q : nat) : R := sqrt PI / 2.
Example hermite_rule_2 : hermite_gauss 2 hx2 hw2.
Proof.
  assert (S : sqrt (1 / 2) * sqrt (1 / 2) = 1 / 2) by (apply sqrt_sqrt; lra).
  assert (V : forall a b c d, integral_line (fun t => peval [a; b; c; d] t * exp (- t ^ 2)) ((a + c / 2) * sqrt PI)).
  { intros a b c d. apply (line_ext (fun t => (a + c / 2) * gauss t + (peval (pderiv [- b / 2 - d / 2; - c / 2; - d / 2]) t - 2 * t * peval [- b / 2 - d / 2; - c / 2; - d / 2] t) * exp (- t ^ 2))).
    - intros t. unfold gauss. cbn [pderiv padd pX peval]. field.
    - rewrite <- (Rplus_0_r ((a + c / 2) * sqrt PI)). apply line_add; [apply line_scal, gaussian_integral|apply line_parts]. }
  assert (W : forall a b c d v, integral_line (fun t => peval [a; b; c; d] t * exp (- t ^ 2)) v -> rsum 2 (fun q => hw2 q * peval [a; b; c; d] (hx2 q)) = v).
  { intros a b c d v H. rewrite (line_unique _ _ _ H (V a b c d)). cbn [gsum]. unfold hw2, hx2. cbn [peval]. set (s := sqrt (1 / 2)) in *.
    transitivity (sqrt PI * (a + s * s * c)); [field|rewrite S; field]. }
  intros p v L H. destruct p as [|a [|b [|c [|d [|e p]]]]]; cbn [length] in L; try lia.
  - rewrite <- (W 0 0 0 0 v); [apply sum_ext; intros q _; cbn [peval]; ring|]. apply (line_ext (fun t => peval [] t * exp (- t ^ 2))); [intros t; cbn [peval]; ring|exact H].
  - rewrite <- (W a 0 0 0 v); [apply sum_ext; intros q _; cbn [peval]; ring|]. apply (line_ext (fun t => peval [a] t * exp (- t ^ 2))); [intros t; cbn [peval]; ring|exact H].
  - rewrite <- (W a b 0 0 v); [apply sum_ext; intros q _; cbn [peval]; ring|]. apply (line_ext (fun t => peval [a; b] t * exp (- t ^ 2))); [intros t; cbn [peval]; ring|exact H].
  - rewrite <- (W a b c 0 v); [apply sum_ext; intros q _; cbn [peval]; ring|]. apply (line_ext (fun t => peval [a; b; c] t * exp (- t ^ 2))); [intros t; cbn [peval]; ring|exact H].
  - exact (W a b c d v H).
Qed.
Definition lx2 (q : nat) : R := match q with O => 2 - sqrt 2 | _ => 2 + sqrt 2 end.
Definition lw2 (q : nat) : R := match q with O => (2 + sqrt 2) / 4 | _ => (2 - sqrt 2) / 4 end.
Example laguerre_rule_2 : laguerre_gauss 2 lx2 lw2.
Proof.
  assert (S : sqrt 2 * sqrt 2 = 2) by (apply sqrt_sqrt; lra).
  assert (V : forall a b c d, integral_half (fun t => peval [a; b; c; d] t * exp (- t)) (a + b + 2 * c + 6 * d)).
  { intros a b c d. set (P := [a + b + 2 * c + 6 * d; b + 2 * c + 6 * d; c + 3 * d; d]).
    apply (half_ext (fun t => -1 * ((peval (pderiv P) t - peval P t) * exp (- t)))); [intros t; unfold P; cbn [pderiv padd pX peval]; ring|].
    replace (a + b + 2 * c + 6 * d) with (-1 * - peval P 0) by (unfold P; cbn [peval]; ring). apply half_scal, half_parts. }
  assert (W : forall a b c d v, integral_half (fun t => peval [a; b; c; d] t * exp (- t)) v -> rsum 2 (fun q => lw2 q * peval [a; b; c; d] (lx2 q)) = v).
  { intros a b c d v H. rewrite (half_unique _ _ _ H (V a b c d)). cbn [gsum]. unfold lw2, lx2. cbn [peval]. set (s := sqrt 2) in *.
    assert (S3 : s * s * s = 2 * s) by (rewrite S; ring). assert (S4 : s * s * s * s = 4) by (rewrite S3; lra).
    transitivity (a + b * (2 - (s * s) / 2) + c * (4 - (s * s)) + d * (8 - (s * s * s * s) / 2 + 0 * s)); [field|rewrite S4, S; field]. }
  intros p v L H. destruct p as [|a [|b [|c [|d [|e p]]]]]; cbn [length] in L; try lia.
  - rewrite <- (W 0 0 0 0 v); [apply sum_ext; intros q _; cbn [peval]; ring|]. apply (half_ext (fun t => peval [] t * exp (- t))); [intros t; cbn [peval]; ring|exact H].
  - rewrite <- (W a 0 0 0 v); [apply sum_ext; intros q _; cbn [peval]; ring|]. apply (half_ext (fun t => peval [a] t * exp (- t))); [intros t; cbn [peval]; ring|exact H].
  - rewrite <- (W a b 0 0 v); [apply sum_ext; intros q _; cbn [peval]; ring|]. apply (half_ext (fun t => peval [a; b] t * exp (- t))); [intros t; cbn [peval]; ring|exact H].
  - rewrite <- (W a b c 0 v); [apply sum_ext; intros q _; cbn [peval]; ring|]. apply (half_ext (fun t => peval [a; b; c] t * exp (- t))); [intros t; cbn [peval]; ring|exact H].
  - exact (W a b c d v H).
Qed.
Example C59_ex uh : lag_forward 2 lx2 lw2 (lag_backward 2 lx2 uh) 1 = uh 1%nat /\ herm_forward 2 hx2 hw2 (herm_backward 2 hx2 uh) 1 = uh 1%nat.
Proof.
  split; [apply (C59_roundtrip 2 2 lx2 lw2 uh 1); [lia|lia|apply laguerre_rule_2]|apply (C59_roundtrip 2 2 hx2 hw2 uh 1); [lia|lia|apply hermite_rule_2]].
Qed.

(** ** C60 *)
(** the mass matrices are the inner products *)
Theorem C60_mass N :
  holds N N (lag_BLLmat N) (fun k j r => integral_half (fun x => laguerre j x * laguerre k x) r) /\
  holds N N (BHHmat N) (fun k j r => integral_line (fun x => hermite j x * hermite k x) r).
Proof.
  split; (split; [reflexivity|split; [reflexivity|]]); intros k j _ _.
  - unfold lag_BLLmat. rewrite entry_diag, Rmult_1_l, kron_sym. apply laguerre_orthonormal.
  - unfold BHHmat. rewrite entry_diag, Rmult_1_l, kron_sym. apply hermite_orthonormal.
Qed.
(** mass and stiffness matrix of the functions laguerre(k) - laguerre(k+1) *)
Theorem C60_laguerre_dirichlet N (dphi : nat -> R -> R) :
  (forall k, nth_derivative 1 (fun x => laguerre k x - laguerre (S k) x) (dphi k)) ->
  holds (N - 1) (N - 1) (lag_BCDCDmat N) (fun k j r => integral_half (fun x => (laguerre j x - laguerre (S j) x) * (laguerre k x - laguerre (S k) x)) r) /\
  holds (N - 1) (N - 1) (lag_ACDCDmat N) (fun k j r => integral_half (fun x => dphi j x * dphi k x) r).
Proof.
  intros D. assert (E : forall k x, lagD' k x = dphi k x).
  { intros k. apply (nth_unique 1 (lagD k)); [|apply D]. exists (lagD' k). split; [apply lagD_deriv|cbn; reflexivity]. }
  split; (split; [reflexivity|split; [reflexivity|]]); intros k j _ _.
  - unfold lag_BCDCDmat. rewrite entry_tri. pose proof (lag_bilinear (-1) 1 j k) as Q.
    replace (1 * 1 * ((1 + -1 * -1) * kron j k + -1 * kron (S j) k + -1 * kron j (S k))) with (2 * kron k j + -1 * kron (S k) j + -1 * kron k (S j)) in Q
      by (rewrite (kron_sym j k), (kron_sym (S j) k), (kron_sym j (S k)); ring).
    revert Q. apply half_ext. intros x. ring.
  - unfold lag_ACDCDmat. rewrite entry_tri. pose proof (lag_bilinear 1 (1 / 2) j k) as Q.
    replace (1 / 2 * (1 / 2) * ((1 + 1 * 1) * kron j k + 1 * kron (S j) k + 1 * kron j (S k))) with (0.5 * kron k j + 0.25 * kron (S k) j + 0.25 * kron k (S j)) in Q
      by (rewrite (kron_sym j k), (kron_sym (S j) k), (kron_sym j (S k)); lra).
    revert Q. apply half_ext. intros x. rewrite <- !E. unfold lagD'. ring.
Qed.
Lemma hermite'_unique (dphi : nat -> R -> R) : (forall k, nth_derivative 1 (hermite k) (dphi k)) -> forall k x, hermite' k x = dphi k x.
Proof. intros D k. apply (nth_unique 1 (hermite k)); [|apply D]. exists (hermite' k). split; [apply hermite_deriv|cbn; reflexivity]. Qed.
(** the stiffness matrix of the Hermite functions holds the inner products of the derivatives, except for its last entry *)
Theorem C60_stiffness_partial N dphi : (forall k, nth_derivative 1 (hermite k) (dphi k)) ->
  forall k j, (k < N)%nat -> (j < N)%nat -> (k, j) <> (N - 1, N - 1)%nat ->
  integral_line (fun x => dphi j x * dphi k x) (mat_entry RFld (AHHmat N) k j).
Proof.
  intros D k j Hk Hj NE. rewrite entry_ahh.
  assert (E : ahh_entry N k j = exact_entry j k).
  { unfold ahh_entry, exact_entry, ahh_0.
    destruct (Nat.eqb_spec k j), (Nat.eqb_spec j k), (Nat.eqb_spec j (k + 2)), (Nat.eqb_spec k (j + 2)); try lia; try reflexivity.
    subst j. destruct (Nat.eqb_spec k (N - 1)); [subst k; congruence|lra]. }
  rewrite E. apply (line_ext (fun x => hermite' j x * hermite' k x)); [intros x; rewrite !(hermite'_unique dphi D); reflexivity|apply hermite'_int].
Qed.
(** the last entry is (N-1)/2, the inner product is N - 1/2 *)
Theorem C60_stiffness_refuted N dphi : (0 < N)%nat -> (forall k, nth_derivative 1 (hermite k) (dphi k)) ->
  integral_line (fun x => dphi (N - 1)%nat x * dphi (N - 1)%nat x) (INR N - 1 / 2) /\
  mat_entry RFld (AHHmat N) (N - 1) (N - 1) = (INR N - 1) / 2 /\
  ~ integral_line (fun x => dphi (N - 1)%nat x * dphi (N - 1)%nat x) (mat_entry RFld (AHHmat N) (N - 1) (N - 1)).
Proof.
  intros HN D.
  assert (I : integral_line (fun x => dphi (N - 1)%nat x * dphi (N - 1)%nat x) (INR N - 1 / 2)).
  { apply (line_ext (fun x => hermite' (N - 1) x * hermite' (N - 1) x)); [intros x; rewrite !(hermite'_unique dphi D); reflexivity|].
    replace (INR N - 1 / 2) with (exact_entry (N - 1) (N - 1)); [apply hermite'_int|].
    unfold exact_entry. rewrite Nat.eqb_refl, minus_INR by lia. cbn [INR]. field. }
  assert (V : mat_entry RFld (AHHmat N) (N - 1) (N - 1) = (INR N - 1) / 2).
  { rewrite entry_ahh. unfold ahh_entry, ahh_0. rewrite !Nat.eqb_refl. reflexivity. }
  split; [exact I|]. split; [exact V|]. intros H. pose proof (line_unique _ _ _ I H) as E. rewrite V in E. pose proof (lt_0_INR N HN). lra.
Qed.
(** every entry is the value of the N-point Gauss rule at the zeros of H_N *)
Theorem C60_stiffness_quadrature N x w dphi : (forall k, nth_derivative 1 (hermite k) (dphi k)) ->
  hermite_gauss N x w -> (forall q, (q < N)%nat -> hermite N (x q) = 0) ->
  holds N N (AHHmat N) (fun k j r => rsum N (fun q => herm_weight x w q * (dphi j (x q) * dphi k (x q))) = r).
Proof.
  intros D G Z. split; [reflexivity|split; [reflexivity|]]. intros k j Hk Hj. rewrite entry_ahh, <- (hermite'_quad N x w k j); auto.
  - apply sum_ext. intros q _. rewrite !(hermite'_unique dphi D). ring.
  - intros q Hq. specialize (Z q Hq). rewrite hermite_wh in Z. unfold wh in Z. rewrite peval_pscale in Z.
    pose proof (factor_pos N). pose proof (exp_pos (- x q ^ 2 / 2)). apply Rmult_integral in Z. destruct Z as [Z|Z]; [|lra]. apply Rmult_integral in Z. destruct Z; [lra|assumption].
Qed.
(** matvec multiplies with the scaled matrix *)
Theorem C60_matvec N s v k : (k < N)%nat -> ahh_matvec N s v k = s * rsum N (fun j => mat_entry RFld (AHHmat N) k j * v j).
Proof. apply matvec_sum. Qed.
(** for an even number of functions the matrix is regular *)
Theorem C60_even_regular N v : Nat.even N = true ->
  (forall k, (k < N)%nat -> rsum N (fun j => mat_entry RFld (AHHmat N) k j * v j) = 0) -> forall k, (k < N)%nat -> v k = 0.
Proof.
  intros E H. apply even_regular; [exact E|]. intros k Hk. rewrite matvec_sum by exact Hk. rewrite (H k Hk). ring.
Qed.
(** for an odd number it is singular: a Poisson problem has no unique solution, and for some right hand side none *)
Theorem C60_odd_refuted N : Nat.odd N = true ->
  (exists v, v 0%nat = 1 /\ forall k, (k < N)%nat -> rsum N (fun j => mat_entry RFld (AHHmat N) k j * v j) = 0) /\
  exists b, ~ exists u, forall k, (k < N)%nat -> rsum N (fun j => mat_entry RFld (AHHmat N) k j * u j) = b k.
Proof.
  intros O. assert (NP : (0 < N)%nat) by (destruct N; [discriminate|lia]).
  assert (Z : forall k, (k < N)%nat -> rsum N (fun j => mat_entry RFld (AHHmat N) k j * null_vec j) = 0).
  { intros k Hk. rewrite <- (Rmult_1_l (rsum _ _)), <- matvec_sum, ahh_factor by exact Hk. rewrite !null_dcoef by exact O. destruct (Nat.eqb k 0); ring. }
  split; [exists null_vec; split; [reflexivity|exact Z]|].
  exists null_vec. intros (u & H).
  assert (A : rsum N (fun k => null_vec k * rsum N (fun j => mat_entry RFld (AHHmat N) k j * u j)) = 0).
  { rewrite (sum_ext N _ (fun k => rsum N (fun j => u j * (mat_entry RFld (AHHmat N) j k * null_vec k)))).
    - rewrite sum_swap. apply sum_0. intros j Hj. rewrite sum_scal, (Z j Hj). ring.
    - intros k _. rewrite <- sum_scal. apply sum_ext. intros j _.
      replace (mat_entry RFld (AHHmat N) j k) with (mat_entry RFld (AHHmat N) k j); [change (@car RFld) with R; ring|].
      rewrite !entry_ahh. unfold ahh_entry. destruct (Nat.eqb_spec k j), (Nat.eqb_spec j k), (Nat.eqb_spec j (k + 2)), (Nat.eqb_spec k (j + 2)); try lia; congruence. }
  rewrite (sum_ext N _ (fun k => null_vec k * null_vec k)) in A by (intros k Hk; rewrite (H k Hk); reflexivity).
  pose proof (ChebTransProofs3.rsum_nonneg_zero N (fun k => null_vec k * null_vec k) (fun k _ => Rle_0_sqr (null_vec k)) A 0%nat NP) as B. cbn beta in B.
  change (null_vec 0) with 1 in B. lra.
Qed.
(** solving with the mass matrix divides by its scale *)
Theorem C60_identity_solve N s b i : s <> 0 -> (i < N)%nat ->
  s * rsum N (fun j => mat_entry RFld (BHHmat N) i j * identity_solve s b j) = b i /\
  s * rsum N (fun j => mat_entry RFld (lag_BLLmat N) i j * identity_solve s b j) = b i.
Proof.
  intros Hs Hi. assert (A : s * rsum N (fun j => (1 * kron i j) * identity_solve s b j) = b i).
  { rewrite (sum_ext N _ (fun j => if Nat.eqb j i then identity_solve s b j else 0)).
    - rewrite sum_delta by exact Hi. unfold identity_solve. field. exact Hs.
    - intros j _. unfold kron. rewrite Nat.eqb_sym. destruct (Nat.eqb j i); ring. }
  split; rewrite <- A; f_equal; apply sum_ext; intros j _; f_equal; [unfold BHHmat|unfold lag_BLLmat]; apply entry_diag.
Qed.
Print Assumptions C60_mass.
Print Assumptions C60_laguerre_dirichlet.
Print Assumptions C60_stiffness_partial.
Print Assumptions C60_stiffness_refuted.
Print Assumptions C60_stiffness_quadrature.
Print Assumptions C60_matvec.
Print Assumptions C60_even_regular.
Print Assumptions C60_odd_refuted.
Print Assumptions C60_identity_solve.
(** derivatives exist, and the two-point rule has the zeros of H_2 as points *)
Example C60_derivatives : (forall k, nth_derivative 1 (hermite k) (hermite' k)) /\
  (forall k, nth_derivative 1 (fun x => laguerre k x - laguerre (S k) x) (lagD' k)).
Proof.
  split; intros k; [exists (hermite' k)|exists (lagD' k)]; (split; [|cbn; reflexivity]); [apply hermite_deriv|apply lagD_deriv].
Qed.
Example C60_ex : holds 2 2 (AHHmat 2) (fun k j r => rsum 2 (fun q => herm_weight hx2 hw2 q * (hermite' j (hx2 q) * hermite' k (hx2 q))) = r).
Proof.
  apply (C60_stiffness_quadrature 2 hx2 hw2 hermite'); [apply C60_derivatives|apply hermite_rule_2|].
  assert (S : sqrt (1 / 2) * sqrt (1 / 2) = 1 / 2) by (apply sqrt_sqrt; lra).
  assert (Z : forall y, y * y = 1 / 2 -> hermite 2 y = 0).
  { intros y Hy. unfold hermite. replace (peval (hermP 2) y) with 0; [ring|]. rewrite herm_rec. change (hermP 1) with [0; 2]. change (hermP 0) with [1]. cbn [peval INR]. lra. }
  intros [|[|q]] Hq; [apply Z; exact S|apply Z; unfold hx2; lra|lia].
Qed.
