(** ParticlesProperties.v -- C68: Lagrangian particles. *)
From Coq Require Import Reals Lra Lia List Psatz.
From Verif Require Import ParticlesModel ParticlesSpec ParticlesProofs.
Import ListNotations.
Local Open Scope R_scope.

(** n steps of size dt (of either sign) from time t0 follow the exact trajectories with an
    error of first order in dt; e0 is the error of the initial positions *)
Theorem C68_converges : forall (Vel : Type) (ev : Vel -> (nat -> R) -> nat -> R) (u_hat : Vel) D lo hi y L M,
  0 < L -> 0 <= M -> lipschitz D (ev u_hat) L ->
  trajectory D (ev u_hat) lo hi y -> rate D (ev u_hat) lo hi y M ->
  forall points dt n p t0 e0,
    lo <= t0 <= hi -> lo <= t0 + INR n * dt <= hi ->
    0 <= e0 -> near D (fun d => points d p) (y t0) e0 ->
    let s := lp_run Vel ev (fun r => r) (lp_new Vel points dt u_hat) (repeat Step n) in
    near D (fun d => lp_x s d p) (y (t0 + INR n * dt))
      (e0 * exp (L * (INR n * Rabs dt)) + Rabs dt * (M / L * (exp (L * (INR n * Rabs dt)) - 1))).
Proof.
  intros Vel ev u_hat D lo hi y L M HL HM H1 H2 H3 points dt n p t0 e0 Ht Hh He Hp s. unfold s. rewrite run_steps.
  eapply near_weaken; [apply (euler_exp ev D lo hi y L M HL HM n (lp_new Vel points dt u_hat) p t0 e0); auto|].
  cbn [lp_new lp_dt]. right. field. lra.
Qed.
Print Assumptions C68_converges.

(** the same for a velocity field u(t, x), when u_hat is set to the field at the time of the
    step before every step *)
Theorem C68_unsteady : forall (Vel : Type) (ev : Vel -> (nat -> R) -> nat -> R) (u_hat : Vel) D lo hi y L M
    (u : R -> (nat -> R) -> nat -> R) (v : nat -> Vel) points dt n p t0 e0,
  0 < L -> 0 <= M -> (forall t, lipschitz D (u t) L) -> trajectory_t D u lo hi y -> rate_t D u lo hi y M ->
  (forall k, (k < n)%nat -> forall a d, ev (v k) a d = u (t0 + INR k * dt) a d) ->
  lo <= t0 <= hi -> lo <= t0 + INR n * dt <= hi ->
  0 <= e0 -> near D (fun d => points d p) (y t0) e0 ->
  let s := lp_run Vel ev (fun r => r) (lp_new Vel points dt u_hat) (flat_map (fun k => [SetVel (v k); Step]) (seq 0 n)) in
  near D (fun d => lp_x s d p) (y (t0 + INR n * dt))
    (e0 * exp (L * (INR n * Rabs dt)) + Rabs dt * (M / L * (exp (L * (INR n * Rabs dt)) - 1))).
Proof.
  intros Vel ev u_hat D lo hi y L M u v points dt n p t0 e0 HL HM H1 H2 H3 HV Ht Hh He Hp s.
  eapply near_weaken; [apply (euler_exp_t ev D lo hi y L M HL HM n (lp_new Vel points dt u_hat) v u p t0 e0); auto|].
  cbn [lp_new lp_dt]. right. field. lra.
Qed.
Print Assumptions C68_unsteady.

(** n steps forwards, lp.dt *= -1, n steps backwards: back at the start up to first order *)
Theorem C68_back_and_forth : forall (Vel : Type) (ev : Vel -> (nat -> R) -> nat -> R) (u_hat : Vel) D lo hi y L M,
  0 < L -> 0 <= M -> lipschitz D (ev u_hat) L ->
  trajectory D (ev u_hat) lo hi y -> rate D (ev u_hat) lo hi y M ->
  forall points dt n p t0,
    lo <= t0 <= hi -> lo <= t0 + INR n * dt <= hi ->
    (forall d, (d < D)%nat -> points d p = y t0 d) ->
    let s := lp_run Vel ev (fun r => r) (lp_new Vel points dt u_hat) (repeat Step n ++ SetDt (- dt) :: repeat Step n) in
    near D (fun d => lp_x s d p) (fun d => points d p)
      (Rabs dt * (M / L * (exp (2 * (L * (INR n * Rabs dt))) - 1))).
Proof.
  intros Vel ev u_hat D lo hi y L M HL HM H1 H2 H3 points dt n p t0 Ht Hh Hp s. unfold s, lp_run.
  rewrite fold_left_app. cbn [fold_left lp_do].
  change (fold_left (lp_do Vel ev (fun r => r)) (repeat Step n) (lp_new Vel points dt u_hat))
    with (lp_run Vel ev (fun r => r) (lp_new Vel points dt u_hat) (repeat Step n)).
  rewrite run_steps. set (f := steps ev n (lp_new Vel points dt u_hat)).
  destruct (steps_dt ev n (lp_new Vel points dt u_hat)) as [F1 F2]. fold f in F1, F2. cbn [lp_new lp_dt lp_vel] in F1, F2.
  change (fold_left (lp_do Vel ev (fun r => r)) (repeat Step n) (mkLP Vel (lp_x f) (lp_up f) (- dt) (lp_vel f)))
    with (lp_run Vel ev (fun r => r) (mkLP Vel (lp_x f) (lp_up f) (- dt) (lp_vel f)) (repeat Step n)).
  rewrite run_steps. set (E := exp (L * (INR n * Rabs dt))). set (q := M * Rabs dt / L).
  assert (Pa : 0 <= Rabs dt) by apply Rabs_pos. assert (Pn := pos_INR n).
  assert (Pq : 0 <= q).
  { unfold q, Rdiv. apply Rmult_le_pos; [apply Rmult_le_pos; auto|]. left. apply Rinv_0_lt_compat. auto. }
  assert (PE : 1 <= E).
  { unfold E. destruct (Req_dec (L * (INR n * Rabs dt)) 0) as [->|Hne]; [rewrite exp_0; lra|].
    assert (0 <= L * (INR n * Rabs dt)) by (repeat apply Rmult_le_pos; lra).
    assert (X := exp_ineq1 (L * (INR n * Rabs dt)) ltac:(lra)). lra. }
  assert (A1 : near D (fun d => lp_x f d p) (y (t0 + INR n * dt)) ((0 + q) * E - q)).
  { apply (euler_exp ev D lo hi y L M HL HM n (lp_new Vel points dt u_hat) p t0 0); auto; try lra.
    intros d Hd. cbn [lp_new lp_x]. rewrite Hp by auto. rewrite Rminus_diag_eq, Rabs_R0 by reflexivity. lra. }
  assert (A2 := euler_exp ev D lo hi y L M HL HM n (mkLP Vel (lp_x f) (lp_up f) (- dt) (lp_vel f)) p (t0 + INR n * dt) ((0 + q) * E - q)).
  cbn [lp_x lp_dt lp_vel] in A2. rewrite F2 in A2.
  replace (t0 + INR n * dt + INR n * - dt) with t0 in A2 by ring. rewrite Rabs_Ropp in A2. fold E q in A2.
  specialize (A2 H1 H2 H3 Hh Ht A1 ltac:(nra)).
  intros d Hd. rewrite Hp by auto. rewrite F2. eapply Rle_trans; [apply (A2 d Hd)|]. right.
  replace (exp (2 * (L * (INR n * Rabs dt)))) with (E * E).
  - unfold q. field. lra.
  - unfold E. rewrite <- exp_plus. f_equal. ring.
Qed.
Print Assumptions C68_back_and_forth.

(** the path of a particle does not depend on the others, for every history of steps and of
    changes of the velocity and of dt, and for every kind of array *)
Theorem C68_independent : forall (Vel : Type) (ev : Vel -> (nat -> R) -> nat -> R) store os points points' dt u_hat p p',
  (forall v a b, (forall d, a d = b d) -> forall d, ev v a d = ev v b d) ->
  (forall d, points d p = points' d p') ->
  forall d, lp_x (lp_run Vel ev store (lp_new Vel points dt u_hat) os) d p
          = lp_x (lp_run Vel ev store (lp_new Vel points' dt u_hat) os) d p'.
Proof.
  intros Vel ev store os points points' dt u_hat p p' Hev Hp. unfold lp_run.
  assert (G : forall os s s', lp_dt s = lp_dt s' -> lp_vel s = lp_vel s' -> (forall d, lp_x s d p = lp_x s' d p') ->
    forall d, lp_x (fold_left (lp_do Vel ev store) os s) d p = lp_x (fold_left (lp_do Vel ev store) os s') d p').
  { clear - Hev. intros os. induction os as [|o os IH]; intros s s' Hd Hv Hx; [exact Hx|].
    cbn [fold_left]. apply IH.
    - destruct o; cbn; auto.
    - destruct o; cbn; auto.
    - destruct o; cbn [lp_do lp_x]; auto. intros d. unfold lp_step, lp_rhs. cbn [lp_x].
      rewrite Hx, Hd, Hv. rewrite (Hev (lp_vel s') _ (fun k => lp_x s' k p') Hx). reflexivity. }
  apply G; auto.
Qed.
Print Assumptions C68_independent.

(** a step of size zero and a field at rest move nothing *)
Theorem C68_still : forall (Vel : Type) (ev : Vel -> (nat -> R) -> nat -> R) points dt u_hat p n,
  (dt = 0 \/ forall d, ev u_hat (fun k => points k p) d = 0) ->
  (forall v a b, (forall d, a d = b d) -> forall d, ev v a d = ev v b d) ->
  forall d, lp_x (lp_run Vel ev (fun r => r) (lp_new Vel points dt u_hat) (repeat Step n)) d p = points d p.
Proof.
  intros Vel ev points dt u_hat p n H Hev. rewrite run_steps. induction n as [|n IH]; [reflexivity|]. intros d.
  change (steps ev (S n) (lp_new Vel points dt u_hat)) with (lp_step Vel ev (fun r => r) (steps ev n (lp_new Vel points dt u_hat))).
  destruct (steps_dt ev n (lp_new Vel points dt u_hat)) as [F1 F2]. unfold lp_step, lp_rhs. cbn [lp_x].
  rewrite F1, F2. cbn [lp_new lp_dt lp_vel]. rewrite IH. rewrite (Hev u_hat _ (fun k => points k p) IH).
  destruct H as [->|H]; [ring|]. rewrite H. ring.
Qed.
Print Assumptions C68_still.

(** ** example: rotation about the origin *)
Definition rot (_ : unit) (a : nat -> R) (d : nat) : R := match d with O => - a 1%nat | _ => a O end.
Definition circle (t : R) (d : nat) : R := match d with O => cos t | _ => sin t end.
Lemma lip1 (f f' : R -> R) (H : forall x, derivable_pt_lim f x (f' x)) (B : forall x, Rabs (f' x) <= 1) s t :
  Rabs (f s - f t) <= Rabs (s - t).
Proof.
  destruct (Rtotal_order s t) as [C|[->|C]].
  - destruct (MVT_cor2 f f' s t C ltac:(auto)) as (c & E & _). rewrite <- Rabs_Ropp. replace (- (f s - f t)) with (f t - f s) by ring.
    rewrite E, Rabs_mult. rewrite <- (Rabs_Ropp (s - t)). replace (- (s - t)) with (t - s) by ring.
    assert (X := B c). assert (Y := Rabs_pos (t - s)). nra.
  - rewrite !Rminus_diag_eq by reflexivity. rewrite Rabs_R0. lra.
  - destruct (MVT_cor2 f f' t s C ltac:(auto)) as (c & E & _). rewrite E, Rabs_mult.
    assert (X := B c). assert (Y := Rabs_pos (s - t)). nra.
Qed.
Lemma Rabs_sin x : Rabs (sin x) <= 1. Proof. apply Rabs_le. apply SIN_bound. Qed.
Lemma Rabs_cos x : Rabs (cos x) <= 1. Proof. apply Rabs_le. apply COS_bound. Qed.
Example C68_inhabited :
  lipschitz 2 (rot tt) 1 /\ (forall lo hi, trajectory 2 (rot tt) lo hi circle /\ rate 2 (rot tt) lo hi circle 1) /\
  (forall d, (d < 2)%nat -> (match d with O => 1 | _ => 0 end) = circle 0 d).
Proof.
  assert (LC : forall s t, Rabs (cos s - cos t) <= Rabs (s - t)).
  { apply (lip1 cos (fun x => - sin x)); [apply derivable_pt_lim_cos|]. intros x. rewrite Rabs_Ropp. apply Rabs_sin. }
  assert (LS : forall s t, Rabs (sin s - sin t) <= Rabs (s - t)).
  { apply (lip1 sin cos); [apply derivable_pt_lim_sin|]. apply Rabs_cos. }
  split; [|split].
  - intros a b e H d Hd. rewrite Rmult_1_l. destruct d as [|[|]]; [| |lia]; cbn [rot].
    + replace (- a 1%nat - - b 1%nat) with (- (a 1%nat - b 1%nat)) by ring. rewrite Rabs_Ropp. apply H. lia.
    + apply H. lia.
  - intros lo hi. split.
    + intros t d _ Hd. destruct d as [|[|]]; [| |lia]; cbn [rot circle].
      * apply derivable_pt_lim_cos.
      * apply derivable_pt_lim_sin.
    + intros s t _ _ d Hd. rewrite Rmult_1_l. destruct d as [|[|]]; [| |lia]; cbn [rot circle].
      * replace (- sin s - - sin t) with (- (sin s - sin t)) by ring. rewrite Rabs_Ropp. apply LS.
      * apply LC.
  - intros d Hd. destruct d as [|[|]]; [| |lia]; cbn [circle]; [rewrite cos_0|rewrite sin_0]; reflexivity.
Qed.

(** a uniform flow that changes in time, u(t, x) = t, at particles on y(t) = t^2/2 *)
Example C68_unsteady_inhabited :
  let u := fun (t : R) (_ : nat -> R) (_ : nat) => t in
  (forall t, lipschitz 1 (u t) 1) /\ trajectory_t 1 u 0 5 (fun t _ => t * t / 2) /\ rate_t 1 u 0 5 (fun t _ => t * t / 2) 1.
Proof.
  cbv zeta. split; [|split].
  - intros t a b e H d Hd. rewrite Rminus_diag_eq, Rabs_R0 by reflexivity. rewrite Rmult_1_l.
    eapply Rle_trans; [|apply (H 0%nat); lia]. apply Rabs_pos.
  - intros t d _ _. replace t with ((1 * t + t * 1) * / 2 + t * t * 0) at 2 by field.
    apply (derivable_pt_lim_mult (fun s => s * s) (fun _ => / 2)).
    + apply (derivable_pt_lim_mult (fun s => s) (fun s => s)); apply derivable_pt_lim_id.
    + apply derivable_pt_lim_const.
  - intros s t _ _ d _. rewrite Rmult_1_l. lra.
Qed.

(** ** arrays of integers: numpy stores the integer part, and no number of steps moves the
    particle, although the velocity is 1 (example: points = np.array([[0]])) *)
Definition trunc (r : R) : R := if Rle_dec 0 r then IZR (Int_part r) else - IZR (Int_part (- r)).
Theorem C68_integer_points_refuted : forall n,
  lp_x (lp_run unit (fun _ _ _ => 1) trunc (lp_new unit (fun _ _ => 0) (/ 2) tt) (repeat Step n)) O O = 0 /\
  trajectory 1 (fun _ _ => 1) 0 (INR n * / 2) (fun t _ => t).
Proof.
  intros n. split.
  - assert (G : forall s, (forall d p, lp_x s d p = 0) -> lp_dt s = / 2 ->
      lp_x (lp_run unit (fun _ _ _ => 1) trunc s (repeat Step n)) O O = 0).
    { unfold lp_run. induction n as [|n IH]; intros s Hx Hd; [apply Hx|]. cbn [repeat fold_left lp_do]. apply IH.
      - intros d p. unfold lp_step, lp_rhs. cbn [lp_x]. rewrite Hx, Hd. unfold trunc.
        destruct (Rle_dec 0 (0 + / 2 * 1)) as [_|H]; [|lra].
        replace (Int_part (0 + / 2 * 1)) with 0%Z; [reflexivity|].
        unfold Int_part. replace (up (0 + / 2 * 1)) with 1%Z; [reflexivity|]. apply tech_up; cbn; lra.
      - exact Hd. }
    apply G; auto.
  - intros t d _ _. apply derivable_pt_lim_id.
Qed.
Print Assumptions C68_integer_points_refuted.

(** going back does not undo the steps: u(x) = x *)
Theorem C68_reversal_refuted :
  lp_x (lp_run unit (fun _ a d => a d) (fun r => r) (lp_new unit (fun _ _ => 1) (/ 2) tt) [Step; SetDt (- / 2); Step]) O O <> 1.
Proof. cbn. lra. Qed.
Print Assumptions C68_reversal_refuted.
