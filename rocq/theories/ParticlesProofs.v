(** ParticlesProofs.v *)
From Coq Require Import Reals Lra Lia List Psatz.
From Verif Require Import ParticlesModel ParticlesSpec.
Import ListNotations.
Local Open Scope R_scope.

(** one step of Euler's method along a trajectory *)
Lemma truncation_t D u lo hi y M t h d : 0 <= M ->
  trajectory_t D u lo hi y -> rate_t D u lo hi y M -> (d < D)%nat ->
  lo <= t <= hi -> lo <= t + h <= hi ->
  Rabs (y (t + h) d - y t d - h * u t (y t) d) <= M * (h * h).
Proof.
  intros HM HT HR Hd Ht Hh.
  destruct (Rtotal_order h 0) as [Hn|[->|Hp]].
  - destruct (MVT_cor2 (fun s => y s d) (fun s => u s (y s) d) (t + h) t ltac:(lra)
      ltac:(intros c Hc; apply HT; [lra|auto])) as (c & E & Hc).
    assert (E' : y (t + h) d - y t d - h * u t (y t) d = h * (u c (y c) d - u t (y t) d)) by lra.
    rewrite E', Rabs_mult. assert (Q := HR c t ltac:(lra) ltac:(lra) d Hd). cbv beta in Q.
    assert (Rabs (c - t) <= Rabs h) by (rewrite !Rabs_left by lra; lra).
    assert (0 <= Rabs h) by apply Rabs_pos.
    replace (h * h) with (Rabs h * Rabs h) by (rewrite Rabs_left by lra; ring).
    assert (M * Rabs (c - t) <= M * Rabs h) by (apply Rmult_le_compat_l; auto).
    replace (M * (Rabs h * Rabs h)) with (Rabs h * (M * Rabs h)) by ring.
    apply Rmult_le_compat_l; [auto|]. lra.
  - rewrite Rplus_0_r. replace (y t d - y t d - 0 * u t (y t) d) with 0 by ring. rewrite Rabs_R0. lra.
  - destruct (MVT_cor2 (fun s => y s d) (fun s => u s (y s) d) t (t + h) ltac:(lra)
      ltac:(intros c Hc; apply HT; [lra|auto])) as (c & E & Hc).
    assert (E' : y (t + h) d - y t d - h * u t (y t) d = h * (u c (y c) d - u t (y t) d)) by lra.
    rewrite E', Rabs_mult. assert (Q := HR c t ltac:(lra) ltac:(lra) d Hd). cbv beta in Q.
    assert (Rabs (c - t) <= Rabs h) by (rewrite !Rabs_right by lra; lra).
    assert (0 <= Rabs h) by apply Rabs_pos.
    replace (h * h) with (Rabs h * Rabs h) by (rewrite Rabs_right by lra; ring).
    assert (M * Rabs (c - t) <= M * Rabs h) by (apply Rmult_le_compat_l; auto).
    replace (M * (Rabs h * Rabs h)) with (Rabs h * (M * Rabs h)) by ring.
    apply Rmult_le_compat_l; [auto|]. lra.
Qed.

Lemma truncation D u lo hi y M t h d : 0 <= M ->
  trajectory D u lo hi y -> rate D u lo hi y M -> (d < D)%nat ->
  lo <= t <= hi -> lo <= t + h <= hi ->
  Rabs (y (t + h) d - y t d - h * u (y t) d) <= M * (h * h).
Proof. intros. apply (truncation_t D (fun _ => u) lo hi y M t h d); auto. Qed.

Section Run.
  Context {Vel : Type}.
  Variable ev : Vel -> (nat -> R) -> nat -> R.
  Notation step := (lp_step Vel ev (fun r => r)).
  Definition steps (n : nat) (s : lp Vel) : lp Vel := Nat.iter n step s.

  Lemma iter_in (A : Type) (f : A -> A) n x : Nat.iter n f (f x) = Nat.iter (S n) f x.
  Proof. induction n as [|n IH]; [reflexivity|]. change (f (Nat.iter n f (f x)) = f (Nat.iter (S n) f x)). rewrite IH. reflexivity. Qed.
  Lemma run_steps n s : lp_run Vel ev (fun r => r) s (repeat Step n) = steps n s.
  Proof.
    unfold lp_run, steps. revert s. induction n as [|n IH]; intros s; [reflexivity|].
    cbn [repeat fold_left lp_do]. rewrite IH. apply iter_in.
  Qed.
  Lemma steps_dt n s : lp_dt (steps n s) = lp_dt s /\ lp_vel (steps n s) = lp_vel s.
  Proof. unfold steps. induction n as [|n [I1 I2]]; [auto|]. cbn. auto. Qed.

  (** the velocity is set before every step *)
  Definition moving (v : nat -> Vel) (n : nat) : list (lop Vel) := flat_map (fun k => [SetVel (v k); Step]) (seq 0 n).
  Definition msteps (v : nat -> Vel) (n : nat) (s : lp Vel) : lp Vel := lp_run Vel ev (fun r => r) s (moving v n).
  Lemma msteps_S v n s : msteps v (S n) s
    = step (mkLP Vel (lp_x (msteps v n s)) (lp_up (msteps v n s)) (lp_dt (msteps v n s)) (v n)).
  Proof.
    unfold msteps, moving, lp_run. rewrite seq_S. rewrite flat_map_app. rewrite fold_left_app. reflexivity.
  Qed.
  Lemma msteps_dt v n s : lp_dt (msteps v n s) = lp_dt s.
  Proof. induction n as [|n IH]; [reflexivity|]. rewrite msteps_S. cbn. exact IH. Qed.

  Variables (D : nat) (lo hi : R) (y : R -> nat -> R) (L M : R).
  Hypothesis HL : 0 < L.
  Hypothesis HM : 0 <= M.

  (** the error after n steps *)
  Lemma euler_error n : forall (s : lp Vel) p t0 e0,
    lipschitz D (ev (lp_vel s)) L -> trajectory D (ev (lp_vel s)) lo hi y -> rate D (ev (lp_vel s)) lo hi y M ->
    lo <= t0 <= hi -> lo <= t0 + INR n * lp_dt s <= hi ->
    near D (fun d => lp_x s d p) (y t0) e0 -> 0 <= e0 ->
    near D (fun d => lp_x (steps n s) d p) (y (t0 + INR n * lp_dt s))
      ((e0 + M * Rabs (lp_dt s) / L) * (1 + L * Rabs (lp_dt s)) ^ n - M * Rabs (lp_dt s) / L).
  Proof.
    induction n as [|n IH]; intros s p t0 e0 H1 H2 H3 Ht Hh He0 P0.
    - intros d Hd. cbn [INR pow]. rewrite Rmult_0_l, Rplus_0_r. assert (X := He0 d Hd). cbv beta in X. cbn [steps Nat.iter nat_rect]. lra.
    - rewrite S_INR in *. set (h := lp_dt s) in *. set (a := Rabs h). assert (Pa : 0 <= a) by apply Rabs_pos.
      assert (P1 : 0 <= INR n) by apply pos_INR.
      assert (Hn : lo <= t0 + INR n * h <= hi).
      { destruct (Rle_dec 0 h); split; nra. }
      specialize (IH s p t0 e0 H1 H2 H3 Ht Hn He0 P0). fold h a in IH.
      set (E := (e0 + M * a / L) * (1 + L * a) ^ n - M * a / L) in *.
      set (x := fun d => lp_x (steps n s) d p) in *.
      assert (Hst : forall d, lp_x (steps (S n) s) d p = x d + h * ev (lp_vel s) x d).
      { intros d. change (steps (S n) s) with (step (steps n s)). unfold lp_step, lp_rhs. cbn [lp_x].
        destruct (steps_dt n s) as [D1 D2]. rewrite D1, D2. reflexivity. }
      intros d Hd. rewrite Hst.
      set (t := t0 + INR n * h) in *. replace (t0 + (INR n + 1) * h) with (t + h) in * by (unfold t; ring).
      assert (T := truncation D (ev (lp_vel s)) lo hi y M t h d HM H2 H3 Hd Hn Hh).
      assert (X := IH d Hd). cbv beta in X. assert (U := H1 x (y t) E IH d Hd).
      assert (B1 : Rabs (h * (ev (lp_vel s) x d - ev (lp_vel s) (y t) d)) <= a * (L * E)).
      { rewrite Rabs_mult. fold a. apply Rmult_le_compat_l; auto. }
      replace (x d + h * ev (lp_vel s) x d - y (t + h) d)
        with ((x d - y t d) + (h * (ev (lp_vel s) x d - ev (lp_vel s) (y t) d) + - (y (t + h) d - y t d - h * ev (lp_vel s) (y t) d))) by ring.
      eapply Rle_trans; [apply Rabs_triang|]. eapply Rle_trans; [apply Rplus_le_compat_l, Rabs_triang|].
      rewrite Rabs_Ropp.
      assert (Eh : h * h = a * a) by (unfold a; unfold Rabs; destruct (Rcase_abs h); ring).
      rewrite Eh in T.
      assert (EE : (e0 + M * a / L) * (1 + L * a) ^ S n - M * a / L = E + a * (L * E) + M * (a * a)).
      { unfold E. cbn [pow]. field. lra. }
      rewrite EE. lra.
  Qed.
  (** the same with a moving velocity *)
  Lemma euler_error_t n : forall (s : lp Vel) (v : nat -> Vel) (u : R -> (nat -> R) -> nat -> R) p t0 e0,
    (forall k, (k < n)%nat -> forall a d, ev (v k) a d = u (t0 + INR k * lp_dt s) a d) ->
    (forall t, lipschitz D (u t) L) -> trajectory_t D u lo hi y -> rate_t D u lo hi y M ->
    lo <= t0 <= hi -> lo <= t0 + INR n * lp_dt s <= hi ->
    near D (fun d => lp_x s d p) (y t0) e0 -> 0 <= e0 ->
    near D (fun d => lp_x (msteps v n s) d p) (y (t0 + INR n * lp_dt s))
      ((e0 + M * Rabs (lp_dt s) / L) * (1 + L * Rabs (lp_dt s)) ^ n - M * Rabs (lp_dt s) / L).
  Proof.
    induction n as [|n IH]; intros s v u p t0 e0 HV H1 H2 H3 Ht Hh He0 P0.
    - intros d Hd. cbn [INR pow]. rewrite Rmult_0_l, Rplus_0_r. assert (X := He0 d Hd). cbv beta in X. change (lp_x (msteps v 0 s) d p) with (lp_x s d p). lra.
    - rewrite S_INR in *. set (h := lp_dt s) in *. set (a := Rabs h). assert (Pa : 0 <= a) by apply Rabs_pos.
      assert (P1 : 0 <= INR n) by apply pos_INR.
      assert (Hn : lo <= t0 + INR n * h <= hi).
      { destruct (Rle_dec 0 h); split; nra. }
      specialize (IH s v u p t0 e0 ltac:(intros k Hk; apply HV; lia) H1 H2 H3 Ht Hn He0 P0). fold h a in IH.
      set (E := (e0 + M * a / L) * (1 + L * a) ^ n - M * a / L) in *.
      set (x := fun d => lp_x (msteps v n s) d p) in *.
      assert (Hst : forall d, lp_x (msteps v (S n) s) d p = x d + h * u (t0 + INR n * h) x d).
      { intros d. rewrite msteps_S. unfold lp_step, lp_rhs. cbn [lp_x lp_vel lp_dt].
        rewrite msteps_dt. fold h. rewrite (HV n ltac:(lia)). reflexivity. }
      intros d Hd. rewrite Hst.
      set (t := t0 + INR n * h) in *. replace (t0 + (INR n + 1) * h) with (t + h) in * by (unfold t; ring).
      assert (T := truncation_t D u lo hi y M t h d HM H2 H3 Hd Hn Hh).
      assert (X := IH d Hd). cbv beta in X. assert (U := H1 t x (y t) E IH d Hd).
      assert (B1 : Rabs (h * (u t x d - u t (y t) d)) <= a * (L * E)).
      { rewrite Rabs_mult. fold a. apply Rmult_le_compat_l; auto. }
      replace (x d + h * u t x d - y (t + h) d)
        with ((x d - y t d) + (h * (u t x d - u t (y t) d) + - (y (t + h) d - y t d - h * u t (y t) d))) by ring.
      eapply Rle_trans; [apply Rabs_triang|]. eapply Rle_trans; [apply Rplus_le_compat_l, Rabs_triang|].
      rewrite Rabs_Ropp.
      assert (Eh : h * h = a * a) by (unfold a; unfold Rabs; destruct (Rcase_abs h); ring).
      rewrite Eh in T.
      assert (EE : (e0 + M * a / L) * (1 + L * a) ^ S n - M * a / L = E + a * (L * E) + M * (a * a)).
      { unfold E. cbn [pow]. field. lra. }
      rewrite EE. lra.
  Qed.
  Lemma pow_exp n a : 0 <= a -> (1 + a) ^ n <= exp (INR n * a).
  Proof.
    intros Ha. induction n as [|n IH].
    - cbn. rewrite Rmult_0_l, exp_0. lra.
    - rewrite S_INR, Rmult_plus_distr_r, exp_plus, Rmult_1_l. cbn [pow]. rewrite (Rmult_comm (exp _)).
      apply Rmult_le_compat; try lra.
      + apply pow_le. lra.
      + destruct (Req_dec a 0) as [->|]; [rewrite exp_0; lra|]. left. apply exp_ineq1. lra.
  Qed.
  Lemma near_weaken a b e e' : near D a b e -> e <= e' -> near D a b e'.
  Proof. intros H He d Hd. specialize (H d Hd). lra. Qed.
  Lemma euler_exp n (s : lp Vel) p t0 e0 :
    lipschitz D (ev (lp_vel s)) L -> trajectory D (ev (lp_vel s)) lo hi y -> rate D (ev (lp_vel s)) lo hi y M ->
    lo <= t0 <= hi -> lo <= t0 + INR n * lp_dt s <= hi ->
    near D (fun d => lp_x s d p) (y t0) e0 -> 0 <= e0 ->
    near D (fun d => lp_x (steps n s) d p) (y (t0 + INR n * lp_dt s))
      ((e0 + M * Rabs (lp_dt s) / L) * exp (L * (INR n * Rabs (lp_dt s))) - M * Rabs (lp_dt s) / L).
  Proof.
    intros H1 H2 H3 Ht Hh He P0. eapply near_weaken; [apply (euler_error n s p t0 e0); auto|].
    assert (Pa : 0 <= Rabs (lp_dt s)) by apply Rabs_pos.
    assert (Q : 0 <= M * Rabs (lp_dt s) / L).
    { unfold Rdiv. apply Rmult_le_pos; [apply Rmult_le_pos; auto|]. left. apply Rinv_0_lt_compat. auto. }
    assert (P := pow_exp n (L * Rabs (lp_dt s)) ltac:(apply Rmult_le_pos; lra)).
    replace (INR n * (L * Rabs (lp_dt s))) with (L * (INR n * Rabs (lp_dt s))) in P by ring.
    apply Rplus_le_compat_r. apply Rmult_le_compat_l; lra.
  Qed.
  Lemma euler_exp_t n (s : lp Vel) v u p t0 e0 :
    (forall k, (k < n)%nat -> forall a d, ev (v k) a d = u (t0 + INR k * lp_dt s) a d) ->
    (forall t, lipschitz D (u t) L) -> trajectory_t D u lo hi y -> rate_t D u lo hi y M ->
    lo <= t0 <= hi -> lo <= t0 + INR n * lp_dt s <= hi ->
    near D (fun d => lp_x s d p) (y t0) e0 -> 0 <= e0 ->
    near D (fun d => lp_x (msteps v n s) d p) (y (t0 + INR n * lp_dt s))
      ((e0 + M * Rabs (lp_dt s) / L) * exp (L * (INR n * Rabs (lp_dt s))) - M * Rabs (lp_dt s) / L).
  Proof.
    intros HV H1 H2 H3 Ht Hh He P0. eapply near_weaken; [apply (euler_error_t n s v u p t0 e0); auto|].
    assert (Pa : 0 <= Rabs (lp_dt s)) by apply Rabs_pos.
    assert (Q : 0 <= M * Rabs (lp_dt s) / L).
    { unfold Rdiv. apply Rmult_le_pos; [apply Rmult_le_pos; auto|]. left. apply Rinv_0_lt_compat. auto. }
    assert (P := pow_exp n (L * Rabs (lp_dt s)) ltac:(apply Rmult_le_pos; lra)).
    replace (INR n * (L * Rabs (lp_dt s))) with (L * (INR n * Rabs (lp_dt s))) in P by ring.
    apply Rplus_le_compat_r. apply Rmult_le_compat_l; lra.
  Qed.
End Run.
