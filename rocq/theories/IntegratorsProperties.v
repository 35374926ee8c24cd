(** IntegratorsProperties.v -- C32 (number of time steps) and C33 (orders of the integrators). *)
From Coq Require Import Reals Lra Lia List Arith Bool ZArith SpecFloat FunctionalExtensionality.
From Verif Require Import Base IntegratorsModel IntegratorsProofs IntegratorsProofs2 IntegratorsProofs3 IntegratorsProofs4 IntegratorsProofs5 IntegratorsProofs6 StencilProofs StencilProofs8.
Import ListNotations.
Local Open Scope R_scope.

(** ** C32.  For every positive dt the loop ends after the least number n of steps with
    t0 + n dt >= end - 1e-8; step number j starts at t0 + j dt, and update is called after it with
    the time t0 + (j+1) dt and the count j+1 *)
Theorem C32_steps : forall (St : Type) (step update : R -> nat -> St -> St) dt t0 e s, 0 < dt ->
  exists n, (forall k, (k < n)%nat -> t0 + INR k * dt < e - 1 / 10 ^ 8) /\ e - 1 / 10 ^ 8 <= t0 + INR n * dt /\
  forall fuel, (n <= fuel)%nat -> solve_loop (K := RNum) fuel dt (t0, e) step update s =
    Some (t0 + INR n * dt, n, for_up n 0 (fun j s => update (t0 + INR (S j) * dt) (S j) (step (t0 + INR j * dt) j s)) s).
Proof.
  intros St step update dt t0 e s Hd. destruct (least_step t0 dt (e - 1 / 10 ^ 8) Hd) as (n & H1 & H2).
  exists n. split; [exact H1|split; [exact H2|]]. intros fuel Hf. unfold solve_loop. cbn [fst snd].
  rewrite (time_loop_run dt e step update n t0 0 s fuel H1 H2 Hf). reflexivity.
Qed.
Print Assumptions C32_steps.

(** exactly m steps when the interval is m steps long and dt exceeds the tolerance *)
Theorem C32_exact_partial : forall (St : Type) (step update : R -> nat -> St -> St) dt t0 m s fuel, 1 / 10 ^ 8 < dt -> (m <= fuel)%nat ->
  solve_loop (K := RNum) fuel dt (t0, t0 + INR m * dt) step update s =
    Some (t0 + INR m * dt, m, for_up m 0 (fun j s => update (t0 + INR (S j) * dt) (S j) (step (t0 + INR j * dt) j s)) s).
Proof.
  intros St step update dt t0 m s fuel Hd Hf. unfold solve_loop. cbn [fst snd]. rewrite (time_loop_run dt _ step update m t0 0 s fuel); [reflexivity| | |exact Hf].
  - intros j Hj. assert (INR j + 1 <= INR m) as H by (rewrite <- S_INR; apply le_INR; lia).
    assert (0 < 1 / 10 ^ 8) by (apply Rdiv_lt_0_compat; [lra|apply pow_lt; lra]).
    apply (Rmult_le_compat_r dt) in H; [|lra]. lra.
  - assert (0 < 1 / 10 ^ 8) by (apply Rdiv_lt_0_compat; [lra|apply pow_lt; lra]). lra.
Qed.
Print Assumptions C32_exact_partial.
Example C32_nonvacuity : forall fuel, (3 <= fuel)%nat ->
  solve_loop (K := RNum) fuel (1/2) (0, 0 + INR 3 * (1/2)) (fun t k s => s ++ [(t, k)]) (fun _ _ s => s) [] =
  Some (0 + INR 3 * (1/2), 3%nat, [(0 + INR 0 * (1/2), 0%nat); (0 + INR 1 * (1/2), 1%nat); (0 + INR 2 * (1/2), 2%nat)]).
Proof. intros fuel Hf. rewrite (C32_exact_partial _ _ _ (1/2) 0 3 [] fuel); [reflexivity| |exact Hf]. lra. Qed.

(** the overshoot is less than one step; no time step is needed when the end is reached already *)
Theorem C32_end : forall (St : Type) (step update : R -> nat -> St -> St) dt t0 e s, 0 < dt ->
  (e - 1 / 10 ^ 8 <= t0 -> forall fuel, solve_loop (K := RNum) fuel dt (t0, e) step update s = Some (t0, 0%nat, s)) /\
  (t0 < e - 1 / 10 ^ 8 -> exists n t s', (forall fuel, (n <= fuel)%nat -> solve_loop (K := RNum) fuel dt (t0, e) step update s = Some (t, n, s')) /\
     (0 < n)%nat /\ e - 1 / 10 ^ 8 <= t < e - 1 / 10 ^ 8 + dt).
Proof.
  intros St step update dt t0 e s Hd. destruct (C32_steps St step update dt t0 e s Hd) as (n & H1 & H2 & H3). split; intros H.
  - intros fuel. assert (n = 0%nat) as -> by (destruct n; [reflexivity|specialize (H1 0%nat ltac:(lia)); cbn in H1; lra]). rewrite H3 by lia. cbn. f_equal. f_equal. f_equal. ring.
  - exists n. eexists. eexists. split; [exact H3|]. assert (0 < n)%nat as Hn by (destruct n; [cbn in H2; lra|lia]). split; [exact Hn|]. split; [exact H2|].
    specialize (H1 (n - 1)%nat ltac:(lia)). replace n with (S (n - 1)) at 1 by lia. rewrite S_INR. lra.
Qed.
Print Assumptions C32_end.

(** refuted: with steps not longer than 1e-8 the last step is missing *)
Theorem C32_tiny_refuted : forall (St : Type) (step update : R -> nat -> St -> St) dt t0 m s, 0 < dt <= 1 / 10 ^ 8 -> (0 < m)%nat ->
  exists n t s', (n < m)%nat /\ forall fuel, (n <= fuel)%nat -> solve_loop (K := RNum) fuel dt (t0, t0 + INR m * dt) step update s = Some (t, n, s').
Proof.
  intros St step update dt t0 m s Hd Hm. destruct (C32_steps St step update dt t0 (t0 + INR m * dt) s) as (n & H1 & H2 & H3); [lra|].
  exists n. eexists. eexists. split; [|exact H3]. destruct (Nat.lt_ge_cases n m) as [H|H]; [exact H|]. exfalso.
  specialize (H1 (m - 1)%nat ltac:(lia)). rewrite minus_INR in H1 by lia. cbn [INR] in H1. lra.
Qed.
Print Assumptions C32_tiny_refuted.

(** the loop never ends for dt <= 0 (backwards integration is not supported) *)
Theorem C32_nonpositive : forall (St : Type) (step update : R -> nat -> St -> St) dt t0 e s, dt <= 0 -> t0 < e - 1 / 10 ^ 8 ->
  forall fuel, solve_loop (K := RNum) fuel dt (t0, e) step update s = None.
Proof.
  intros St step update dt t0 e s Hd He fuel. unfold solve_loop. cbn [fst snd]. generalize 0%nat as k. revert t0 He s.
  induction fuel as [|fuel IH]; intros t He s k.
  - cbn. destruct (Rlt_dec _ _); [reflexivity|lra].
  - cbn -[time_loop]. unfold time_loop. fold (time_loop (K := RNum) (St := St)). cbn [nlt nsub neps RNum].
    destruct (Rlt_dec _ _) as [H|H]; [|lra]. apply IH. cbn. lra.
Qed.
Print Assumptions C32_nonpositive.

(** refuted in double precision: end = t0 + 4*dt takes 5 steps for t0 = 1e8 and dt = 0.1 *)
Definition d_1e8 : spec_float := S754_finite false 6710886400000000 (-26).
Definition d_01 : spec_float := S754_finite false 7205759403792794 (-56).
Definition d_4 : spec_float := S754_finite false 4503599627370496 (-50).
Theorem C32_double_refuted : forall (St : Type) (step update : spec_float -> nat -> St -> St) s,
  exists t s', forall fuel, (5 <= fuel)%nat -> solve_loop (K := DNum) fuel d_01 (d_1e8, d_add d_1e8 (d_mul d_4 d_01)) step update s = Some (t, 5%nat, s').
Proof.
  intros St step update s.
  assert (forall t, nlt DNum t (nsub DNum (d_add d_1e8 (d_mul d_4 d_01)) (neps DNum)) = SFltb t (S754_finite false 6710886426843545 (-26))) as E by (intros; reflexivity).
  pose (t1 := S754_finite false 6710886406710886 (-26)). pose (t2 := S754_finite false 6710886413421772 (-26)). pose (t3 := S754_finite false 6710886420132658 (-26)).
  pose (t4 := S754_finite false 6710886426843544 (-26)). pose (t5 := S754_finite false 6710886433554430 (-26)).
  assert (d_add d_1e8 d_01 = t1 /\ d_add t1 d_01 = t2 /\ d_add t2 d_01 = t3 /\ d_add t3 d_01 = t4 /\ d_add t4 d_01 = t5) as (A1 & A2 & A3 & A4 & A5) by (repeat split; reflexivity).
  eexists. eexists. intros fuel Hf. do 5 (destruct fuel as [|fuel]; [lia|]). unfold solve_loop. cbn [fst snd].
  set (e := d_add d_1e8 (d_mul d_4 d_01)) in *.
  do 5 (unfold time_loop at 1; fold (time_loop (K := DNum) (St := St)); rewrite E; cbn [nadd DNum]; rewrite ?A1, ?A2, ?A3, ?A4, ?A5;
        match goal with |- (if ?b then _ else _) = _ => replace b with true by reflexivity end).
  destruct fuel; unfold time_loop; rewrite E; (match goal with |- (if ?b then _ else _) = _ => replace b with false by reflexivity end); reflexivity.
Qed.
Print Assumptions C32_double_refuted.

(** *** re-use of matrices: after any history of calls of solve, the matrices belong to params['dt'] and
    their dt differs from the requested one by at most 1e-12 *)
Theorem C32_matrices : forall user_dt (dts : list R) dt,
  let s := solve_guard dt (fold_left (fun s dt => solve_guard dt s) dts (construct user_dt)) in
  exists p, assembled s = Some p /\ params_dt s = p /\ Rabs (p - dt) <= 1 / 10 ^ 12.
Proof.
  intros user_dt dts dt. assert (forall s, (assembled s = None \/ assembled s = Some (params_dt s)) -> forall d, let s' := solve_guard d s in assembled s' = Some (params_dt s') /\ Rabs (params_dt s' - d) <= 1 / 10 ^ 12) as H.
  { intros s Hs d. unfold solve_guard. assert (Rabs (d - d) <= 1 / 10 ^ 12) as Z by (rewrite Rminus_diag_eq, Rabs_R0 by reflexivity; apply Rlt_le, Rdiv_lt_0_compat; [lra|apply pow_lt; lra]).
    destruct Hs as [Hs|Hs]; rewrite Hs; cbn; [auto|]. destruct (Rlt_dec _ _) as [A|A]; cbn; [auto|]. split; [exact Hs|lra]. }
  assert (forall l s, (assembled s = None \/ assembled s = Some (params_dt s)) -> let s' := fold_left (fun s dt => solve_guard dt s) l s in assembled s' = None \/ assembled s' = Some (params_dt s')) as HF.
  { induction l as [|d l IH]; intros s Hs; cbn; [exact Hs|]. apply IH. right. apply (H s Hs d). }
  intros s. destruct (H _ (HF dts (construct user_dt) (or_introl eq_refl)) dt) as [A1 A2]. exists (params_dt s). auto.
Qed.
Print Assumptions C32_matrices.
(** refuted: below the tolerance the old matrices stay in use, whatever the ratio *)
Theorem C32_matrices_refuted : let s := solve_guard (3 / 10 ^ 13) (solve_guard (1 / 10 ^ 13) (construct 0)) in assembled s = Some (1 / 10 ^ 13).
Proof. cbn. destruct (Rlt_dec _ _) as [H|H]; [|reflexivity]. exfalso. rewrite Rabs_left in H; lra. Qed.
Print Assumptions C32_matrices_refuted.

(** ** C33.  [solution G u0 y]: y' = G(y), y(0) = u0.  [order p step y]: in every component the error
    of one step of size h is bounded by C |h|^(p+1) for small h *)
Definition order {I} (p : nat) (step : R -> vec I) (y : R -> vec I) : Prop :=
  forall i, exists C d, 0 < d /\ forall h, Rabs h < d -> Rabs (step h i - y h i) <= C * Rabs h ^ (p + 1).
Lemma order_of {I} p step y c : expands I p step c -> expands I p y c -> order p step y.
Proof. intros H1 H2 i. destruct (expands_close I p step y c H1 H2 i) as (C & d & Hd & H). exists C, d. split; [exact Hd|]. intros h Hh. rewrite Nat.add_1_r. apply H, Hh. Qed.

Definition rhs_of {I} (N : vec I -> vec I) (L : option (vec I -> vec I)) (u : vec I) : vec I :=
  match L with Some L => vadd I (N u) (L u) | None => N u end.
Theorem C33_rk4_order : forall I N L u0 F1 F2 F3 y, smooth I (rhs_of N L) u0 F1 F2 F3 -> solution I (rhs_of N L) u0 y ->
  order 4 (fun h => rk4_step I h N L u0) y.
Proof.
  intros I N L u0 F1 F2 F3 y S Y. apply (order_of 4 _ _ (exact_coeffs I (rhs_of N L u0) u0 F1 F2 F3)).
  - apply (expands_fun I 4 (fun h => rk4_step I h (rhs_of N L) None u0)); [|apply rk4_local; exact S]. intros h. rewrite !rk4_unfold. reflexivity.
  - apply (solution_coeffs I _ _ _ F1 F2 F3); auto.
Qed.
Print Assumptions C33_rk4_order.
(** no smoothness hypothesis is left for right hand sides that are polynomials in the unknowns *)
Theorem C33_rk4_polynomial : forall I (P : I -> pexp I) u0 y, solution I (pfield I P) u0 y -> order 4 (fun h => rk4_step I h (pfield I P) None u0) y.
Proof. intros I P u0 y Y. apply (C33_rk4_order I (pfield I P) None u0 _ _ _ y (poly_smooth I P u0) Y). Qed.
Print Assumptions C33_rk4_polynomial.
(** linear problems: the Taylor polynomial of the exponential *)
Theorem C33_rk4_linear : forall I N L u dt, linear I (rhs_of N L) ->
  let A := rhs_of N L in
  forall i, rk4_step I dt N L u i = u i + dt * A u i + dt ^ 2 / 2 * A (A u) i + dt ^ 3 / 6 * A (A (A u)) i + dt ^ 4 / 24 * A (A (A (A u))) i.
Proof.
  intros I N L u dt [L1 L2] A i. rewrite rk4_unfold. change (fun v => match L with Some L0 => vadd I (N v) (L0 v) | None => N v end) with A.
  cbv zeta. repeat match goal with |- context [match L with Some L0 => vadd I (N ?x) (L0 ?x) | None => N ?x end] => change (match L with Some L0 => vadd I (N x) (L0 x) | None => N x end) with (A x) end.
  unfold A. repeat (rewrite !L1 || rewrite !L2). fold A. unfold vadd, vscal. field.
Qed.
Print Assumptions C33_rk4_linear.
(** u' = u^2 in one component *)
Example C33_rk4_nonvacuity : solution unit (pfield unit (fun _ => PM unit (PV unit tt) (PV unit tt))) (fun _ => 1) (fun h _ => 1 / (1 - h)) /\
  rk4_step unit (1/2) (pfield unit (fun _ => PM unit (PV unit tt) (PV unit tt))) None (fun _ => 1) tt <> 1.
Proof.
  split.
  - split; [apply functional_extensionality; intros; field|]. intros i. exists 1. split; [lra|]. intros h Hh. apply Rabs_def2 in Hh.
    unfold pfield. cbn [peval]. replace (1 / (1 - h) * (1 / (1 - h))) with ((0 * (1 - h) - (0 - 1) * 1) / (1 - h)²) by (unfold Rsqr; field; lra).
    apply (derivable_pt_lim_div (fun _ => 1) (fun x => 1 - x) h 0 (0 - 1)); [apply derivable_pt_lim_const| |lra]. apply (derivable_pt_lim_minus (fun _ => 1) (fun x => x)); [apply derivable_pt_lim_const|apply derivable_pt_lim_id].
  - rewrite rk4_unfold. unfold vadd, vscal, pfield. cbn [peval]. lra.
Qed.
(** refuted: a linear part whose diagonal is one number is dropped by RK4 (not by ETD and ETDRK4) *)
Theorem C33_rk4_number_refuted : forall (lambda : R), lambda <> 0 ->
  (forall dt u, rk4_step unit dt (fun _ => vzero unit) (rk4_linear unit (LNumber unit lambda)) u = u) /\
  exists y, solution unit (fun u => vscal unit lambda u) (fun _ => 1) y /\ ~ order 1 (fun h => rk4_step unit h (fun _ => vzero unit) (rk4_linear unit (LNumber unit lambda)) (fun _ => 1)) y.
Proof.
  intros lambda Hl.
  assert (forall dt u, rk4_step unit dt (fun _ => vzero unit) (rk4_linear unit (LNumber unit lambda)) u = u) as E.
  { intros dt u. rewrite rk4_unfold. apply functional_extensionality. intros i. unfold vadd, vscal, vzero. cbn. ring. }
  split; [exact E|]. exists (fun h _ => exp (lambda * h)).
  assert (forall h, derivable_pt_lim (fun h => exp (lambda * h)) h (lambda * exp (lambda * h))) as De.
  { intros h. rewrite (Rmult_comm lambda (exp _)). apply (derivable_pt_lim_comp (fun h => lambda * h) exp h lambda (exp (lambda * h))); [|apply derivable_pt_lim_exp].
    pose proof (derivable_pt_lim_scal id lambda h 1 (derivable_pt_lim_id h)) as D0. rewrite Rmult_1_r in D0. exact D0. }
  split.
  - split; [apply functional_extensionality; intros; rewrite Rmult_0_r; apply exp_0|]. intros i. apply near0_true. intros h. unfold vscal. apply De.
  - intros H. destruct (H tt) as (C & d & Hd & HC).
    destruct (De 0 (Rabs lambda / 2)) as [d' Hd']; [apply Rdiv_lt_0_compat; [apply Rabs_pos_lt; exact Hl|lra]|].
    pose (h := Rmin (Rmin (d / 2) (d' / 2)) (Rabs lambda / (4 * (Rabs C + 1)))).
    assert (0 < Rabs lambda) as Pl by (apply Rabs_pos_lt; exact Hl). pose proof (cond_pos d') as Pd. pose proof (Rabs_pos C) as PC.
    assert (0 < h) as Ph by (unfold h; apply Rmin_glb_lt; [apply Rmin_glb_lt; lra|apply Rdiv_lt_0_compat; lra]).
    assert (h < d) by (apply Rle_lt_trans with (d / 2); [eapply Rle_trans; [apply Rmin_l|apply Rmin_l]|lra]).
    assert (h < d') by (apply Rle_lt_trans with (d' / 2); [eapply Rle_trans; [apply Rmin_l|apply Rmin_r]|lra]).
    assert (h <= Rabs lambda / (4 * (Rabs C + 1))) as Hh by apply Rmin_r.
    assert (Rabs h = h) as Eh by (apply Rabs_right; lra).
    specialize (HC h ltac:(lra)). specialize (Hd' h ltac:(lra) ltac:(lra)). rewrite E, Eh in HC. cbn [Nat.add pow] in HC.
    rewrite Rplus_0_l, Rmult_0_r, exp_0, Rmult_1_r in Hd'. set (X := exp (lambda * h)) in *.
    assert (Rabs (X - 1) <= Rabs C * h * h) as B1.
    { rewrite <- Rabs_Ropp. replace (- (X - 1)) with (1 - X) by ring. eapply Rle_trans; [exact HC|]. rewrite Rmult_1_r, <- Rmult_assoc. apply Rmult_le_compat_r; [lra|]. apply Rmult_le_compat_r; [lra|apply Rle_abs]. }
    assert (Rabs lambda * h <= Rabs (X - 1) + Rabs ((X - 1) / h - lambda) * h) as B2.
    { assert (forall z, Rabs z * h = Rabs (z * h)) as Eq by (intros z; rewrite Rabs_mult, Eh; reflexivity). rewrite !Eq.
      replace (lambda * h) with ((X - 1) + - (((X - 1) / h - lambda) * h)) by (field; lra).
      eapply Rle_trans; [apply Rabs_triang|]. rewrite Rabs_Ropp. lra. }
    assert (Rabs ((X - 1) / h - lambda) * h < Rabs lambda / 2 * h) as B3 by (apply Rmult_lt_compat_r; [exact Ph|exact Hd']).
    assert (Rabs lambda / 2 * h < Rabs C * h * h) as B4 by lra.
    assert (Rabs lambda / 2 < Rabs C * h) as B5 by (apply (Rmult_lt_reg_r h); lra).
    assert (Rabs C * h <= Rabs C * (Rabs lambda / (4 * (Rabs C + 1)))) as B6 by (apply Rmult_le_compat_l; lra).
    assert (Rabs C * (Rabs lambda / (4 * (Rabs C + 1))) <= Rabs lambda / 4) as B7.
    { replace (Rabs lambda / 4) with ((Rabs C + 1) * (Rabs lambda / (4 * (Rabs C + 1)))) by (field; lra). apply Rmult_le_compat_r; [|lra]. apply Rlt_le, Rdiv_lt_0_compat; lra. }
    lra.
Qed.
Print Assumptions C33_rk4_number_refuted.

(** *** IMEX schemes.  M, A and n are the weak forms of u, L u and N(u); the differential equation is
    M u' = n(u) + A u.  [weak_ok] collects what is assumed about them. *)
Definition weak_rhs {I} (Minv A n : vec I -> vec I) (u : vec I) : vec I := vadd I (Minv (n u)) (Minv (A u)).
Definition weak_ok {I} (M Minv A n : vec I -> vec I) (u0 : vec I) F1 F2 F3 : Prop :=
  inverse_of I M Minv /\ regular I M /\ regular I Minv /\ regular I A /\ smooth I (fun u => Minv (n u)) u0 F1 F2 F3.
(** the stages of any tableau: compute_rhs and solve_step, called for rk = 0 .. steps-1, leave in u the
    last stage of the additive Runge-Kutta method with stages U_0 = u and
    (M - dt a_11 A) U_(r+1) = M u + dt sum_(j<=r) b_(r+1,j) n(U_j) + dt sum_(1<=j<=r) a_(r+1,j) A U_j;
    nothing depends on what the work arrays contained *)
Theorem C33_imex_stages : forall I dt steps a b M A n mask solve s,
  exists U : nat -> vec I, U 0%nat = im_u I s /\ im_u I (imex_step I dt steps a b M A n mask solve s) = U steps /\
  forall r, U (S r) = solve (mask (fun i =>
    M (im_u I s) i + gsum 0 Rplus (S r) (fun j => dt * b (S r) j * n (U j) i) + gsum 0 Rplus r (fun j => dt * a (S r) (S j) * A (U (S j)) i))).
Proof.
  intros. exists (stage I dt a b M A n mask solve s). split; [reflexivity|split; [reflexivity|]]. intros r. rewrite stage_S. reflexivity.
Qed.
Print Assumptions C33_imex_stages.
Theorem C33_imex111_order : forall I M Minv A n u0 F1 F2 F3 solve s y, weak_ok M Minv A n u0 F1 F2 F3 -> solves I 1 M A solve ->
  im_u I s = u0 -> solution I (weak_rhs Minv A n) u0 y ->
  order 1 (fun h => im_u I (imex_step I h 1 imex111_a imex111_b M A n (fun v => v) (solve h) s)) y.
Proof.
  intros I M Minv A n u0 F1 F2 F3 solve s y (H1 & H2 & H3 & H4 & H5) So Hs Y.
  eapply order_of; [apply (imex111_local I M Minv A n solve s u0 F1 F2 F3); auto|].
  apply (solution_coeffs I (weak_rhs Minv A n) u0 y (fun v => vadd I (F1 v) (Minv (A v))) F2 F3); [|exact Y|lia]. apply (smooth_plus_linear I (fun u => Minv (n u)) u0 F1 F2 F3 (fun u => Minv (A u))); [exact H5|]. apply (Lreg I Minv A); auto.
Qed.
Print Assumptions C33_imex111_order.
Theorem C33_imex222_order : forall I M Minv A n u0 F1 F2 F3 solve s y, weak_ok M Minv A n u0 F1 F2 F3 -> solves I gamma222 M A solve ->
  im_u I s = u0 -> solution I (weak_rhs Minv A n) u0 y ->
  order 2 (fun h => im_u I (imex_step I h 2 imex222_a imex222_b M A n (fun v => v) (solve h) s)) y.
Proof.
  intros I M Minv A n u0 F1 F2 F3 solve s y (H1 & H2 & H3 & H4 & H5) So Hs Y.
  eapply order_of; [apply (imex222_local I M Minv A n solve s u0 F1 F2 F3); auto|].
  apply (solution_coeffs I (weak_rhs Minv A n) u0 y (fun v => vadd I (F1 v) (Minv (A v))) F2 F3); [|exact Y|lia]. apply (smooth_plus_linear I (fun u => Minv (n u)) u0 F1 F2 F3 (fun u => Minv (A u))); [exact H5|]. apply (Lreg I Minv A); auto.
Qed.
Print Assumptions C33_imex222_order.
Theorem C33_imex443_order : forall I M Minv A n u0 F1 F2 F3 solve s y, weak_ok M Minv A n u0 F1 F2 F3 -> solves I (1/2) M A solve ->
  im_u I s = u0 -> solution I (weak_rhs Minv A n) u0 y ->
  order 3 (fun h => im_u I (imex_step I h 4 imex443_a imex443_b M A n (fun v => v) (solve h) s)) y.
Proof.
  intros I M Minv A n u0 F1 F2 F3 solve s y (H1 & H2 & H3 & H4 & H5) So Hs Y.
  eapply order_of; [apply (imex443_local I M Minv A n solve s u0 F1 F2 F3); auto|].
  apply (solution_coeffs I (weak_rhs Minv A n) u0 y (fun v => vadd I (F1 v) (Minv (A v))) F2 F3); [|exact Y|lia]. apply (smooth_plus_linear I (fun u => Minv (n u)) u0 F1 F2 F3 (fun u => Minv (A u))); [exact H5|]. apply (Lreg I Minv A); auto.
Qed.
Print Assumptions C33_imex443_order.

(** the nodes c of every tableau are the row sums, except IMEXRK011's *)
Theorem C33_nodes : forall i,
  nth i imex111_c 0 = gsum 0 Rplus 2 (imex111_a i) /\ nth i imex111_c 0 = gsum 0 Rplus 2 (imex111_b i) /\
  nth i imex222_c 0 = gsum 0 Rplus 3 (imex222_a i) /\ nth i imex222_c 0 = gsum 0 Rplus 3 (imex222_b i) /\
  nth i imex443_c 0 = gsum 0 Rplus 5 (imex443_a i) /\ nth i imex443_c 0 = gsum 0 Rplus 5 (imex443_b i).
Proof.
  intros i. repeat split; unfold imex111_a, imex111_b, imex222_a, imex222_b, imex443_a, imex443_b, table;
  (do 6 (destruct i as [|i]; [cbn; lra|])); cbn; (destruct i; cbn; lra).
Qed.
Print Assumptions C33_nodes.
(** refuted: IMEXRK011 drops L, and its c is not the vector of row sums *)
Theorem C33_imex011_refuted :
  (forall I dt M A n mask solve s, exists r, im_u I (imex_step I dt 1 imex011_a imex011_b M A n mask solve s) = solve (mask r) /\ r = fun i => M (im_u I s) i + dt * n (im_u I s) i) /\
  (forall I dt M A u, imex_lhs I dt imex011_a M A u = M u) /\ nth 1 imex011_c 0 <> gsum 0 Rplus 2 (imex011_b 1%nat).
Proof.
  split; [|split].
  - intros. eexists. split; [reflexivity|]. apply functional_extensionality. intros i. cbn. unfold vadd, vscal, upd. cbn. ring.
  - intros. apply functional_extensionality. intros i. unfold imex_lhs, vsub, vscal. cbn. ring.
  - cbn. lra.
Qed.
Print Assumptions C33_imex011_refuted.

(** *** IRK3 and IMEXRK3 (NonlinearRHS not depending on ti) *)
Definition irk_solves {I} (M A : vec I -> vec I) (solve : R -> nat -> vec I -> vec I) : Prop :=
  forall rk, (rk < 3)%nat -> solves I ((irk3_a rk + irk3_b rk) / 2) M A (fun h => solve h rk).
Theorem C33_irk3_order_partial : forall I M Minv A n u0 F1 F2 F3 solve t d0 y, weak_ok M Minv A n u0 F1 F2 F3 -> irk_solves M A solve ->
  solution I (weak_rhs Minv A n) u0 y ->
  order 2 (fun h => fst (irk3_step I h M A (fun _ => n) (fun v => v) (solve h) t (u0, d0))) y.
Proof.
  intros I M Minv A n u0 F1 F2 F3 solve t d0 y (H1 & H2 & H3 & H4 & H5) So Y.
  eapply order_of; [apply (irk3_local I M Minv A n solve u0 F1 F2 F3); auto|].
  apply (solution_coeffs I (weak_rhs Minv A n) u0 y (fun v => vadd I (F1 v) (Minv (A v))) F2 F3); [|exact Y|lia]. apply (smooth_plus_linear I (fun u => Minv (n u)) u0 F1 F2 F3 (fun u => Minv (A u))); [exact H5|]. apply (Lreg I Minv A); auto.
Qed.
Print Assumptions C33_irk3_order_partial.
Theorem C33_irk3_explicit_order : forall I M Minv A n u0 F1 F2 F3 solve t d0 y, weak_ok M Minv A n u0 F1 F2 F3 -> irk_solves M A solve ->
  (forall u, A u = vzero I) -> solution I (weak_rhs Minv A n) u0 y ->
  order 3 (fun h => fst (irk3_step I h M A (fun _ => n) (fun v => v) (solve h) t (u0, d0))) y.
Proof.
  intros I M Minv A n u0 F1 F2 F3 solve t d0 y (H1 & H2 & H3 & H4 & H5) So HA Y.
  eapply order_of; [apply (irk3_local_explicit I M Minv A n solve u0 F1 F2 F3); auto|].
  apply (solution_coeffs I (weak_rhs Minv A n) u0 y (fun v => vadd I (F1 v) (Minv (A v))) F2 F3); [|exact Y|lia]. apply (smooth_plus_linear I (fun u => Minv (n u)) u0 F1 F2 F3 (fun u => Minv (A u))); [exact H5|]. apply (Lreg I Minv A); auto.
Qed.
Print Assumptions C33_irk3_explicit_order.
(** a step does not depend on dU1 left over from earlier steps or calls *)
Theorem C33_irk3_history : forall I dt M A n mask solve t u d d',
  irk3_step I dt M A n mask solve t (u, d) = irk3_step I dt M A n mask solve t (u, d').
Proof.
  intros. unfold irk3_step. cbn [for_up].
  assert (forall x : vec I, vadd I x (vscal I (irk3_b 0 * dt) d) = vadd I x (vscal I (irk3_b 0 * dt) d')) as E by (intros x; apply functional_extensionality; intros i; unfold vadd, vscal; cbn; ring).
  rewrite E. reflexivity.
Qed.
Print Assumptions C33_irk3_history.
(** IMEXRK3 without Nyquist mask is the same method *)
Theorem C33_imexrk3_same : forall I dt M A n solve t s, imexrk3_step I dt M A n (fun v => v) solve s = irk3_step I dt M A (fun _ => n) (fun v => v) solve t s.
Proof.
  intros. unfold imexrk3_step, irk3_step. apply for_up_ext. intros rk [u d] _. f_equal. f_equal. apply functional_extensionality. intros i. unfold vadd, vscal. ring.
Qed.
Print Assumptions C33_imexrk3_same.
(** refuted: not of third order for u' = L u, L = 1 *)
Definition scalar_solve (h : R) (rk : nat) (r : vec unit) : vec unit := fun i => r i / (1 - h * ((irk3_a rk + irk3_b rk) / 2) * 1).
Lemma scalar_ok : weak_ok (fun u : vec unit => u) (fun u => u) (fun u i => 1 * u i) (fun u => pfield unit (fun _ => PC unit 0) u) (fun _ => 1)
   (fun v i => pd1 unit (PC unit 0) (fun _ => 1) v) (fun v w i => pd2 unit (PC unit 0) (fun _ => 1) v w) (fun v w x i => pd3 unit (PC unit 0) (fun _ => 1) v w x).
Proof.
  assert (regular unit (fun u => u)) as R1 by (split; [split; reflexivity|split; auto]).
  split; [split; auto|split; [exact R1|split; [exact R1|split]]].
  - pose proof (matrix_regular unit (fun _ => [(1, tt)])) as H. replace (fun (u : vec unit) (i : unit) => 1 * u i) with (matrix unit (fun _ => [(1, tt)])); [exact H|].
    apply functional_extensionality. intros u. apply functional_extensionality. intros []. unfold matrix. cbn. ring.
  - apply (poly_smooth unit (fun _ => PC unit 0) (fun _ => 1)).
Qed.
Lemma scalar_solves : irk_solves (fun u : vec unit => u) (fun u i => 1 * u i) scalar_solve.
Proof. intros rk _. apply (diagonal_solves unit ((irk3_a rk + irk3_b rk) / 2) (fun _ => 1) 1). intros i. rewrite Rabs_R1. lra. Qed.
Theorem C33_irk3_order3_refuted : exists (solve : R -> nat -> vec unit -> vec unit) y,
  irk_solves (fun u => u) (fun u i => 1 * u i) solve /\ solution unit (fun u => u) (fun _ => 1) y /\
  ~ order 3 (fun h => fst (irk3_step unit h (fun u => u) (fun u i => 1 * u i) (fun _ _ => vzero unit) (fun v => v) (solve h) 0 (fun _ => 1, vzero unit))) y.
Proof.
  exists scalar_solve, (fun h _ => exp h). pose proof scalar_solves as So. split; [exact So|].
  assert (solution unit (fun u => u) (fun _ => 1) (fun h _ => exp h)) as Y by (split; [apply functional_extensionality; intros; apply exp_0|intros i; apply near0_true; intros h; apply derivable_pt_lim_exp]).
  split; [exact Y|]. intros H.
  pose proof scalar_ok as (H1 & H2 & H3 & H4 & H5).
  destruct (irk3_expansions unit (fun u => u) (fun u => u) (fun u i => 1 * u i) (fun u => pfield unit (fun _ => PC unit 0) u) scalar_solve (fun _ => 1) _ _ _ H1 H2 H3 H4 H5 So 2 (vzero unit) ltac:(lia)) as (c1 & c2 & c3 & E1 & E2 & E3 & E).
  assert (expands unit 3 (fun h _ => exp h) (exact_coeffs unit (vadd unit (vzero unit) (fun _ => 1)) (fun _ => 1) (fun v => v) (fun _ _ => vzero unit) (fun _ _ _ => vzero unit))) as X.
  { pose proof (smooth_plus_linear unit _ _ _ _ _ (fun u i => 1 * u i) H5 H4) as Sm.
    assert (solution unit (fun u => vadd unit (pfield unit (fun _ => PC unit 0) u) (fun i => 1 * u i)) (fun _ => 1) (fun h _ => exp h)) as Y'.
    { replace (fun u => vadd unit (pfield unit (fun _ => PC unit 0) u) (fun i => 1 * u i)) with (fun u : vec unit => u); [exact Y|].
      apply functional_extensionality. intros u. apply functional_extensionality. intros i. unfold vadd, pfield. cbn. ring. }
    pose proof (solution_coeffs unit _ _ _ _ _ _ 3 Sm Y' ltac:(lia)) as SC.
    eapply expands_coeffs; [exact SC|]. intros k i Hk. destruct k as [|[|[|[|k]]]]; cbn; unfold vadd, vscal, vzero, pfield; cbn; try lra. lia. }
  assert (forall k, (k <= 3)%nat -> c3 k tt = nth k [1; 1; 1/2; 1/6 + 43/2700] 0) as C3.
  { assert (forall k, (k <= 3)%nat -> c1 k tt = nth k [1; 8/15; 32/225; 128/3375] 0) as V1.
    { intros k Hk. rewrite E1. destruct k as [|[|[|[|k]]]]; [| | | |lia]; cbn -[pow]; unfold irk_w; cbn; unfold vadd, vscal, vzero, pfield, cconst; cbn; unfold vzero; field. }
    assert (forall k, (k <= 3)%nat -> c2 k tt = nth k [1; 2/3; 2/9; 1/6 * (8/27) + (520 / 3375 / 12)] 0) as V2.
    { intros k Hk. rewrite E2. destruct k as [|[|[|[|k]]]]; [| | | |lia]; cbn -[pow]; unfold irk_w; cbn; unfold vadd, vscal, vzero, pfield; cbn; rewrite ?(V1 0%nat), ?(V1 1%nat), ?(V1 2%nat), ?(V1 3%nat) by lia; cbn; field. }
    intros k Hk. rewrite E3. destruct k as [|[|[|[|k]]]]; [| | | |lia]; cbn -[pow]; unfold irk_w; cbn; unfold vadd, vscal, vzero, pfield; cbn; rewrite ?(V2 0%nat), ?(V2 1%nat), ?(V2 2%nat), ?(V2 3%nat) by lia; cbn; field. }
  destruct (E tt) as (Ca & da & Pa & Ha). destruct (X tt) as (Cb & db & Pb & Hb). destruct (H tt) as (Cc & dc & Pc & Hc).
  pose (K := Rabs Ca + Rabs Cb + Rabs Cc). assert (0 <= K) as PK by (unfold K; pose proof (Rabs_pos Ca); pose proof (Rabs_pos Cb); pose proof (Rabs_pos Cc); lra).
  pose (h := Rmin (Rmin (da / 2) (db / 2)) (Rmin (dc / 2) (43 / (5400 * (K + 1))))).
  assert (0 < h) as Ph by (unfold h; repeat apply Rmin_glb_lt; try lra; apply Rdiv_lt_0_compat; lra).
  assert (h < da) by (apply Rle_lt_trans with (da / 2); [eapply Rle_trans; [apply Rmin_l|apply Rmin_l]|lra]).
  assert (h < db) by (apply Rle_lt_trans with (db / 2); [eapply Rle_trans; [apply Rmin_l|apply Rmin_r]|lra]).
  assert (h < dc) by (apply Rle_lt_trans with (dc / 2); [eapply Rle_trans; [apply Rmin_r|apply Rmin_l]|lra]).
  assert (h <= 43 / (5400 * (K + 1))) as Hh by (eapply Rle_trans; [apply Rmin_r|apply Rmin_r]).
  assert (Rabs h = h) as Eh by (apply Rabs_right; lra).
  specialize (Ha h ltac:(lra)). specialize (Hb h ltac:(lra)). specialize (Hc h ltac:(lra)). rewrite Eh in Ha, Hb, Hc. cbn [Nat.add] in Hc.
  set (S := fst (irk3_step unit h (fun u => u) (fun u i => 1 * u i) (fun _ _ => vzero unit) (fun v => v) (scalar_solve h) 0 (fun _ => 1, vzero unit)) tt) in Hc.
  match type of Ha with Rabs (?x - _) <= _ => change x with S in Ha end.
  assert (taylor unit 3 c3 h tt = 1 + h + 1/2 * h ^ 2 + (1/6 + 43/2700) * h ^ 3) as T1 by (unfold taylor; cbn [gsum]; rewrite !C3 by lia; cbn [nth]; ring).
  rewrite T1 in Ha. unfold taylor in Hb. cbn [gsum exact_coeffs] in Hb. unfold vadd, vscal, vzero in Hb.
  set (Z := exp h) in *. set (q := h ^ 4) in *. assert (0 < q) as Pq by (apply pow_lt; exact Ph).
  assert (43/2700 * h ^ 3 <= K * q) as B.
  { replace (43/2700 * h ^ 3) with ((S - Z) - (S - (1 + h + 1/2 * h ^ 2 + (1/6 + 43/2700) * h ^ 3)) + (Z - (0 + 1 * h ^ 0 + (0 + 1) * h ^ 1 + 1 / 2 * (0 + 1) * h ^ 2 + 1 / 3 * (1 / 2 * (0 + 1) + 1 / 2 * 0) * h ^ 3))) by (cbn; field).
    eapply Rle_trans; [apply Rle_abs|]. eapply Rle_trans; [apply Rabs_triang|]. unfold K.
    eapply Rle_trans; [apply Rplus_le_compat_r, Rabs_triang|]. rewrite Rabs_Ropp.
    assert (Ca * q <= Rabs Ca * q) by (apply Rmult_le_compat_r; [lra|apply Rle_abs]). assert (Cb * q <= Rabs Cb * q) by (apply Rmult_le_compat_r; [lra|apply Rle_abs]). assert (Cc * q <= Rabs Cc * q) by (apply Rmult_le_compat_r; [lra|apply Rle_abs]). lra. }
  assert (q = h * h ^ 3) as Eq by (unfold q; ring). rewrite Eq in B. assert (0 < h ^ 3) as P3 by (apply pow_lt; exact Ph).
  assert (43/2700 <= K * h) as B' by (apply (Rmult_le_reg_r (h ^ 3)); [exact P3|lra]).
  assert (K * h <= (K + 1) * (43 / (5400 * (K + 1)))) as B'' by (apply Rmult_le_compat; lra).
  replace ((K + 1) * (43 / (5400 * (K + 1)))) with (43 / 5400) in B'' by (field; lra). lra.
Qed.
Print Assumptions C33_irk3_order3_refuted.
