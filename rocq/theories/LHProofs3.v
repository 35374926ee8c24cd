(** LHProofs3.v -- improper integrals; orthonormality of the Hermite and Laguerre functions. *)
From Coq Require Import Reals ZArith List Arith Bool Lia Lra.
From Verif Require Import Base Fld RPoly MatrixProofs BndModel BndProofs LHModel LHSpec LHProofs LHProofs2 GaussInt.
Import ListNotations.
Local Open Scope R_scope.

(** ** limits *)
Lemma lp_ext F G l : (forall x, F x = G x) -> limit_plus F l -> limit_plus G l.
Proof. intros H L e He. destruct (L e He) as [B HB]. exists B. intros x Hx. rewrite <- H. auto. Qed.
Lemma lp_const c : limit_plus (fun _ => c) c.
Proof. intros e He. exists 0. intros x _. rewrite Rminus_diag_eq, Rabs_R0 by reflexivity. exact He. Qed.
Lemma lp_add F G l m : limit_plus F l -> limit_plus G m -> limit_plus (fun x => F x + G x) (l + m).
Proof.
  intros L M e He. destruct (L (e / 2) ltac:(lra)) as [A HA], (M (e / 2) ltac:(lra)) as [B HB]. exists (Rmax A B). intros x Hx.
  pose proof (Rmax_l A B). pose proof (Rmax_r A B). specialize (HA x ltac:(lra)). specialize (HB x ltac:(lra)).
  replace (F x + G x - (l + m)) with ((F x - l) + (G x - m)) by ring. eapply Rle_lt_trans; [apply Rabs_triang|]. lra.
Qed.
Lemma lp_scal c F l : limit_plus F l -> limit_plus (fun x => c * F x) (c * l).
Proof.
  intros L e He. pose proof (Rabs_pos c) as Pc.
  destruct (L (e / (Rabs c + 1)) ltac:(apply Rdiv_lt_0_compat; lra)) as [A HA]. exists A. intros x Hx. specialize (HA x Hx).
  replace (c * F x - c * l) with (c * (F x - l)) by ring. rewrite Rabs_mult.
  assert (E : e / (Rabs c + 1) * (Rabs c + 1) = e) by (field; lra). pose proof (Rabs_pos (F x - l)). nra.
Qed.
Lemma lm_lp F l : limit_minus F l <-> limit_plus (fun x => F (- x)) l.
Proof.
  split; intros L e He; destruct (L e He) as [B HB]; exists (- B); intros x Hx.
  - apply HB. lra.
  - replace x with (- - x) by ring. apply HB. lra.
Qed.
Lemma lp_unique F l m : limit_plus F l -> limit_plus F m -> l = m.
Proof.
  intros L M. destruct (Req_dec l m) as [E|N]; [exact E|exfalso].
  assert (P : 0 < Rabs (l - m)) by (apply Rabs_pos_lt; lra).
  destruct (L (Rabs (l - m) / 2) ltac:(lra)) as [A HA], (M (Rabs (l - m) / 2) ltac:(lra)) as [B HB].
  set (x := Rmax A B + 1). pose proof (Rmax_l A B). pose proof (Rmax_r A B). specialize (HA x ltac:(unfold x; lra)). specialize (HB x ltac:(unfold x; lra)).
  assert (Rabs (l - m) <= Rabs (F x - l) + Rabs (F x - m)); [|lra].
  replace (l - m) with (- (F x - l) + (F x - m)) by ring. eapply Rle_trans; [apply Rabs_triang|]. rewrite Rabs_Ropp. lra.
Qed.
(** bounded by a function that tends to zero *)
Lemma lp_squeeze F G B : (forall x, B < x -> Rabs (F x) <= G x) -> limit_plus G 0 -> limit_plus F 0.
Proof.
  intros H L e He. destruct (L e He) as [A HA]. exists (Rmax A B). intros x Hx. pose proof (Rmax_l A B). pose proof (Rmax_r A B).
  specialize (HA x ltac:(lra)). specialize (H x ltac:(lra)). rewrite Rminus_0_r in *. pose proof (Rle_abs (G x)). lra.
Qed.
Lemma exp_mul_nat n y : exp (INR n * y) = exp y ^ n.
Proof.
  induction n as [|n IH]; [cbn; rewrite Rmult_0_l; apply exp_0|]. rewrite S_INR, Rmult_plus_distr_r, exp_plus, IH, Rmult_1_l. cbn. ring.
Qed.
Lemma decay_pow m : limit_plus (fun x => x ^ m * exp (- x)) 0.
Proof.
  set (K := INR (S m) ^ S m). assert (PS : 0 < INR (S m)) by (apply lt_0_INR; lia). assert (PK : 0 < K) by (apply pow_lt, PS).
  intros e He. exists (Rmax 1 (K / e)). intros x Hx. pose proof (Rmax_l 1 (K / e)). pose proof (Rmax_r 1 (K / e)). rewrite Rminus_0_r.
  assert (Px : 0 < x) by lra. pose proof (pow_lt x m Px) as Pm.
  rewrite Rabs_pos_eq by (apply Rmult_le_pos; [lra|apply Rlt_le, exp_pos]).
  assert (E : x ^ S m <= K * exp x).
  { replace x with (INR (S m) * (x / INR (S m))) at 2 by (field; lra). rewrite exp_mul_nat. unfold K. rewrite <- Rpow_mult_distr.
    apply pow_incr. split; [lra|]. pose proof (exp_ineq1_le (x / INR (S m))) as I.
    apply Rle_trans with (INR (S m) * (x / INR (S m))); [right; field; lra|]. apply Rmult_le_compat_l; lra. }
  cbn [pow] in E. assert (L : K < e * x) by (assert (K / e * e = K) by (field; lra); nra).
  rewrite exp_Ropp. apply (Rmult_lt_reg_r (exp x)); [apply exp_pos|]. rewrite Rmult_assoc, Rinv_l, Rmult_1_r by (apply Rgt_not_eq, exp_pos).
  pose proof (exp_pos x). apply (Rmult_lt_reg_l x); [exact Px|]. eapply Rle_lt_trans; [exact E|].
  replace (x * (e * exp x)) with ((e * x) * exp x) by ring. apply Rmult_lt_compat_r; assumption.
Qed.
Lemma decay_poly p : forall m, limit_plus (fun x => x ^ m * peval p x * exp (- x)) 0.
Proof.
  induction p as [|a p IH]; intros m.
  - apply (lp_ext (fun _ => 0)); [intros x; cbn; ring|apply lp_const].
  - apply (lp_ext (fun x => a * (x ^ m * exp (- x)) + x ^ S m * peval p x * exp (- x))); [intros x; cbn [peval pow]; ring|].
    replace 0 with (a * 0 + 0) by ring. apply lp_add; [apply lp_scal, decay_pow|apply IH].
Qed.
Lemma decay_pow_sq m : limit_plus (fun x => x ^ m * exp (- x ^ 2)) 0.
Proof.
  apply (lp_squeeze _ (fun x => x ^ m * exp (- x)) 1); [|apply decay_pow]. intros x Hx. pose proof (pow_lt x m ltac:(lra)).
  rewrite Rabs_pos_eq by (apply Rmult_le_pos; [lra|apply Rlt_le, exp_pos]). apply Rmult_le_compat_l; [lra|].
  destruct (Req_dec x (x ^ 2)) as [E|N]; [rewrite <- E; lra|]. apply Rlt_le, exp_increasing. nra.
Qed.
Lemma decay_poly_sq s p : forall m, limit_plus (fun x => x ^ m * peval p (s * x) * exp (- x ^ 2)) 0.
Proof.
  induction p as [|a p IH]; intros m.
  - apply (lp_ext (fun _ => 0)); [intros x; cbn; ring|apply lp_const].
  - apply (lp_ext (fun x => a * (x ^ m * exp (- x ^ 2)) + s * (x ^ S m * peval p (s * x) * exp (- x ^ 2)))); [intros x; cbn [peval]; cbn [pow]; ring|].
    replace 0 with (a * 0 + s * 0) by ring. apply lp_add; apply lp_scal; [apply decay_pow_sq|apply IH].
Qed.

(** ** improper integrals *)
Lemma half_ext f g v : (forall x, f x = g x) -> integral_half f v -> integral_half g v.
Proof. intros E (F & l & D & L & V). exists F, l. split; [intros x; rewrite <- E; apply D|auto]. Qed.
Lemma half_add f g u v : integral_half f u -> integral_half g v -> integral_half (fun x => f x + g x) (u + v).
Proof.
  intros (F & l & D & L & ->) (G & m & D' & L' & ->). exists (fun x => F x + G x), (l + m).
  split; [intros x; apply (derivable_pt_lim_plus F G); auto|]. split; [apply lp_add; auto|ring].
Qed.
Lemma half_scal c f u : integral_half f u -> integral_half (fun x => c * f x) (c * u).
Proof.
  intros (F & l & D & L & ->). exists (fun x => c * F x), (c * l). split; [intros x; apply (derivable_pt_lim_scal F); auto|].
  split; [apply lp_scal; auto|ring].
Qed.
Lemma half_unique f u v : integral_half f u -> integral_half f v -> u = v.
Proof.
  intros (F & l & D & L & ->) (G & m & D' & L' & ->).
  assert (l = (F 0 - G 0) + m); [|lra]. apply (lp_unique F); [exact L|].
  apply (lp_ext (fun x => (F 0 - G 0) + G x)); [|apply lp_add; [apply lp_const|exact L']].
  intros x. pose proof (same_anti f F G 0 x D D'). lra.
Qed.
Lemma line_ext f g v : (forall x, f x = g x) -> integral_line f v -> integral_line g v.
Proof. intros E (F & l & m & D & L & V). exists F, l, m. split; [intros x; rewrite <- E; apply D|auto]. Qed.
Lemma line_add f g u v : integral_line f u -> integral_line g v -> integral_line (fun x => f x + g x) (u + v).
Proof.
  intros (F & l & m & D & L & M & ->) (G & l' & m' & D' & L' & M' & ->). exists (fun x => F x + G x), (l + l'), (m + m').
  split; [intros x; apply (derivable_pt_lim_plus F G); auto|]. split; [apply lp_add; auto|].
  split; [|ring]. apply lm_lp in M, M'. apply lm_lp. apply (lp_add (fun x => F (- x)) (fun x => G (- x))); auto.
Qed.
Lemma line_scal c f u : integral_line f u -> integral_line (fun x => c * f x) (c * u).
Proof.
  intros (F & l & m & D & L & M & ->). exists (fun x => c * F x), (c * l), (c * m). split; [intros x; apply (derivable_pt_lim_scal F); auto|].
  split; [apply lp_scal; auto|]. split; [|ring]. apply lm_lp in M. apply lm_lp. apply (lp_scal c (fun x => F (- x))); auto.
Qed.
Lemma line_unique f u v : integral_line f u -> integral_line f v -> u = v.
Proof.
  intros (F & l & m & D & L & M & ->) (G & l' & m' & D' & L' & M' & ->).
  assert (E : forall x, (F 0 - G 0) + G x = F x) by (intros x; pose proof (same_anti f F G 0 x D D'); lra).
  assert (l = (F 0 - G 0) + l') by (apply (lp_unique F); [exact L|apply (lp_ext (fun x => (F 0 - G 0) + G x)); [exact E|apply lp_add; [apply lp_const|exact L']]]).
  assert (m = (F 0 - G 0) + m'); [|lra]. apply lm_lp in M, M'.
  apply (lp_unique (fun x => F (- x))); [exact M|]. apply (lp_ext (fun x => (F 0 - G 0) + G (- x))); [intros x; apply E|].
  apply (lp_add (fun _ => F 0 - G 0) (fun x => G (- x))); [apply lp_const|exact M'].
Qed.
Lemma half_0 : integral_half (fun _ => 0) 0.
Proof. exists (fun _ => 0), 0. split; [intros x; apply derivable_pt_lim_const|]. split; [apply lp_const|ring]. Qed.
Lemma line_0 : integral_line (fun _ => 0) 0.
Proof. exists (fun _ => 0), 0, 0. split; [intros x; apply derivable_pt_lim_const|]. split; [apply lp_const|]. split; [apply lm_lp; apply (lp_const 0)|ring]. Qed.

(** total derivatives: the integral of (p e^{-x})' over [0, oo) is -p(0), that of (p e^{-x^2})' over the line is 0 *)
Lemma exp_neg_deriv x : derivable_pt_lim (fun y => exp (- y)) x (- exp (- x)).
Proof.
  replace (- exp (- x)) with (exp (- x) * -1) by ring. apply (derivable_pt_lim_comp (fun y => - y) exp); [|apply derivable_pt_lim_exp].
  apply (derivable_pt_lim_opp (fun z => z) x 1), derivable_pt_lim_id.
Qed.
Lemma half_parts p : integral_half (fun x => (peval (pderiv p) x - peval p x) * exp (- x)) (- peval p 0).
Proof.
  exists (fun x => peval p x * exp (- x)), 0. split.
  - intros x. replace ((peval (pderiv p) x - peval p x) * exp (- x)) with (peval (pderiv p) x * exp (- x) + peval p x * - exp (- x)) by ring.
    apply (derivable_pt_lim_mult (peval p) (fun y => exp (- y))); [apply pderiv_correct|apply exp_neg_deriv].
  - split; [apply (lp_ext (fun x => x ^ 0 * peval p x * exp (- x))); [intros x; cbn; ring|apply decay_poly]|].
    rewrite Ropp_0, exp_0. ring.
Qed.
Lemma gauss_deriv x : derivable_pt_lim (fun y => exp (- y ^ 2)) x (- (2 * x) * exp (- x ^ 2)).
Proof.
  replace (- (2 * x) * exp (- x ^ 2)) with (exp (- x ^ 2) * - (2 * x)) by ring.
  apply (derivable_pt_lim_comp (fun y => - y ^ 2) exp); [|apply derivable_pt_lim_exp].
  apply (derivable_ext (fun y => peval [0; 0; -1] y)); [intros y; cbn; ring|].
  replace (- (2 * x)) with (peval (pderiv [0; 0; -1]) x) by (cbn; ring). apply pderiv_correct.
Qed.
Lemma line_parts p : integral_line (fun x => (peval (pderiv p) x - 2 * x * peval p x) * exp (- x ^ 2)) 0.
Proof.
  exists (fun x => peval p x * exp (- x ^ 2)), 0, 0. split.
  - intros x. replace ((peval (pderiv p) x - 2 * x * peval p x) * exp (- x ^ 2)) with
      (peval (pderiv p) x * exp (- x ^ 2) + peval p x * (- (2 * x) * exp (- x ^ 2))) by ring.
    apply (derivable_pt_lim_mult (peval p) (fun y => exp (- y ^ 2))); [apply pderiv_correct|apply gauss_deriv].
  - split; [|split; [|ring]].
    + apply (lp_ext (fun x => x ^ 0 * peval p (1 * x) * exp (- x ^ 2))); [intros x; rewrite pow_O, !Rmult_1_l; reflexivity|apply decay_poly_sq].
    + apply lm_lp. apply (lp_ext (fun x => x ^ 0 * peval p (-1 * x) * exp (- x ^ 2))); [|apply decay_poly_sq].
      intros x. replace (-1 * x) with (- x) by ring. replace ((- x) ^ 2) with (x ^ 2) by ring. rewrite pow_O. ring.
Qed.

(** ** Laguerre *)
Lemma lag_int i j : integral_half (fun x => peval (lagL i) x * peval (lagL j) x * exp (- x)) (kron i j).
Proof.
  revert j. induction i as [|i IH]; intros j.
  - destruct j as [|j].
    + unfold kron. cbn [Nat.eqb]. apply (half_ext (fun x => -1 * ((peval (pderiv [1]) x - peval [1] x) * exp (- x)))); [intros x; change (lagL 0) with [1]; cbn [pderiv padd pX peval]; ring|].
      pose proof (half_scal (-1) _ _ (half_parts [1])) as Q. replace (-1 * - peval [1] 0) with 1 in Q by (unfold peval; ring). exact Q.
    + unfold kron. cbn [Nat.eqb].
      pose (d := padd (lagL (S j)) (pscale (-1) (lagL j))).
      apply (half_ext (fun x => -1 * ((peval (pderiv d) x - peval d x) * exp (- x)))).
      * intros x. unfold d. rewrite pderiv_padd, pderiv_pscale, peval_padd, peval_pscale, lag_deriv. change (peval (lagL 0) x) with (1 + x * 0). ring.
      * replace 0 with (-1 * - peval d 0) by (unfold d; rewrite peval_padd, peval_pscale, !lag_at_0; ring). apply half_scal, half_parts.
  - destruct j as [|j].
    + unfold kron. cbn [Nat.eqb].
      pose (d := padd (lagL (S i)) (pscale (-1) (lagL i))).
      apply (half_ext (fun x => -1 * ((peval (pderiv d) x - peval d x) * exp (- x)))).
      * intros x. unfold d. rewrite pderiv_padd, pderiv_pscale, peval_padd, peval_pscale, lag_deriv. change (peval (lagL 0) x) with (1 + x * 0). ring.
      * replace 0 with (-1 * - peval d 0) by (unfold d; rewrite peval_padd, peval_pscale, !lag_at_0; ring). apply half_scal, half_parts.
    + pose (d := padd (lagL (S i)) (pscale (-1) (lagL i))). pose (e := padd (lagL (S j)) (pscale (-1) (lagL j))).
      apply (half_ext (fun x => peval (lagL i) x * peval (lagL j) x * exp (- x) + -1 * ((peval (pderiv (pmul d e)) x - peval (pmul d e) x) * exp (- x)))).
      * intros x. rewrite pderiv_pmul, peval_pmul. unfold d, e. rewrite !pderiv_padd, !pderiv_pscale, !peval_padd, !peval_pscale, !lag_deriv. ring.
      * replace (kron (S i) (S j)) with (kron i j + -1 * - peval (pmul d e) 0).
        -- apply half_add; [apply IH|apply half_scal, half_parts].
        -- rewrite peval_pmul. unfold d. rewrite peval_padd, peval_pscale, !lag_at_0. unfold kron. cbn [Nat.eqb]. ring.
Qed.
Lemma exp_half_sq x : exp (- x / 2) * exp (- x / 2) = exp (- x).
Proof. rewrite <- exp_plus. f_equal. field. Qed.
Lemma laguerre_orthonormal i j : integral_half (fun x => laguerre i x * laguerre j x) (kron i j).
Proof.
  apply (half_ext (fun x => peval (lagL i) x * peval (lagL j) x * exp (- x))); [|apply lag_int].
  intros x. unfold laguerre. rewrite <- exp_half_sq. ring.
Qed.

(** ** Hermite *)
Lemma herm_int_shift i j v : (match i with O => v = 0 | S m => integral_line (fun x => peval (hermP m) x * peval (hermP j) x * exp (- x ^ 2)) v end) ->
  integral_line (fun x => peval (hermP i) x * peval (hermP (S j)) x * exp (- x ^ 2)) (2 * INR i * v).
Proof.
  intros H.
  assert (G : integral_line (fun x => peval (pderiv (hermP i)) x * peval (hermP j) x * exp (- x ^ 2)) (2 * INR i * v)).
  { destruct i as [|m].
    - apply (line_ext (fun _ => 0)); [intros x; rewrite herm_deriv_0; ring|]. rewrite H. replace (2 * INR 0 * 0) with 0 by ring. apply line_0.
    - apply (line_ext (fun x => (2 * INR (S m)) * (peval (hermP m) x * peval (hermP j) x * exp (- x ^ 2)))); [|apply line_scal, H].
      intros x. rewrite herm_deriv, S_INR. ring. }
  pose proof (line_parts (pmul (hermP i) (hermP j))) as P.
  pose proof (line_add _ _ _ _ G (line_scal (-1) _ _ P)) as Q.
  replace (2 * INR i * v + -1 * 0) with (2 * INR i * v) in Q by ring. revert Q. apply line_ext.
  intros x. rewrite pderiv_pmul, peval_pmul, (herm_step j). ring.
Qed.
Definition hnorm (n : nat) : R := sqrt PI * (2 ^ n * INR (fact n)).
Lemma herm_int i j : integral_line (fun x => peval (hermP i) x * peval (hermP j) x * exp (- x ^ 2)) (kron i j * hnorm i).
Proof.
  revert i. induction j as [|j IH]; intros i.
  - destruct i as [|i].
    + replace (kron 0 0 * hnorm 0) with (sqrt PI) by (unfold kron, hnorm; cbn [Nat.eqb fact INR pow]; ring).
      apply (line_ext gauss); [intros x; unfold gauss; change (hermP 0) with [1]; cbn [peval]; ring|]. apply gaussian_integral.
    + replace (kron (S i) 0 * hnorm (S i)) with (2 * INR 0 * 0) by (unfold kron; cbn [Nat.eqb INR]; ring).
      apply (line_ext (fun x => peval (hermP 0) x * peval (hermP (S i)) x * exp (- x ^ 2))); [intros x; ring|].
      apply (herm_int_shift 0 i 0). reflexivity.
  - destruct i as [|i].
    + replace (kron 0 (S j) * hnorm 0) with (2 * INR 0 * 0) by (unfold kron; cbn [Nat.eqb INR]; ring). apply herm_int_shift. reflexivity.
    + replace (kron (S i) (S j) * hnorm (S i)) with (2 * INR (S i) * (kron i j * hnorm i)); [apply (herm_int_shift (S i) j), IH|].
      unfold kron, hnorm. cbn [Nat.eqb]. rewrite fact_simpl, mult_INR. cbn [pow]. ring.
Qed.
Lemma exp_sq_sq x : exp (- x ^ 2 / 2) * exp (- x ^ 2 / 2) = exp (- x ^ 2).
Proof. rewrite <- exp_plus. f_equal. field. Qed.
Lemma hermite_orthonormal i j : integral_line (fun x => hermite i x * hermite j x) (kron i j).
Proof.
  apply (line_ext (fun x => (herm_factor i * herm_factor j) * (peval (hermP i) x * peval (hermP j) x * exp (- x ^ 2)))).
  - intros x. rewrite !hermite_wh. unfold wh. rewrite !peval_pscale, <- exp_sq_sq. ring.
  - replace (kron i j) with (herm_factor i * herm_factor j * (kron i j * hnorm i)); [apply line_scal, herm_int|].
    unfold kron. destruct (Nat.eqb_spec i j) as [<-|N]; [|ring]. rewrite factor_sq. unfold hnorm.
    pose proof sPI_pos. pose proof (fact_INR_pos i). pose proof (pow_lt 2 i ltac:(lra)). field. lra.
Qed.
