(** IntegratorsModel.v -- utilities/integrators.py: the time loops and one time step of every
    integrator.  Arrays are functions from an index type I to the reals (a complex array is its
    real and its imaginary parts); + and * on arrays are elementwise as in NumPy.  The tableaux are
    exact numbers (the code's are rounded to doubles). *)
From Coq Require Import Reals List Arith Bool ZArith SpecFloat.
From Verif Require Import Base.
Import ListNotations.

(** ** The time loop.  Number type: exact reals, or IEEE doubles *)
Record Num := mkNum { num :> Type; nadd : num -> num -> num; nsub : num -> num -> num;
                      nlt : num -> num -> bool; neps : num (* 1e-8 *) }.

(** integrators.py:207-225 (IRK3.solve), 293-309 (BackwardEuler.solve), 386-396 (ETD.solve),
    493-516 (ETDRK4.solve), 565-600 (RK4.solve):
      tstep = 0
      while t < end_time-1e-8: <one step>; t += dt; tstep += 1; self.update(u, u_hat, t, tstep)
    [step t tstep] is the loop body before the increments (ETD, ETDRK4 and RK4 increment first, but
    their body does not use t), [update t tstep] the user's callback; both may change the whole
    state.  None: still running after [fuel] iterations. *)
Fixpoint time_loop {K : Num} {St : Type} (fuel : nat) (dt end_time : K) (step update : K -> nat -> St -> St)
    (t : K) (tstep : nat) (s : St) : option (K * nat * St) :=
  if nlt K t (nsub K end_time (neps K)) then
    match fuel with
    | O => None
    | S fuel =>
        let s := step t tstep s in
        let t := nadd K t dt in
        let tstep := S tstep in
        time_loop fuel dt end_time step update t tstep (update t tstep s)
    end
  else Some (t, tstep, s).
Definition solve_loop {K : Num} {St : Type} (fuel : nat) (dt : K) (trange : K * K)
    (step update : K -> nat -> St -> St) (s : St) : option (K * nat * St) :=
  time_loop fuel dt (snd trange) step update (fst trange) 0 s.

Definition RNum : Num := mkNum R Rplus Rminus (fun x y => if Rlt_dec x y then true else false) (1 / 10 ^ 8)%R.
(** IEEE 754 doubles with round to nearest even, as NumPy and CPython use *)
Definition d_add := SFadd 53 1024.
Definition d_sub := SFsub 53 1024.
Definition d_mul := SFmul 53 1024.
(** the double nearest to 1e-8: 0x1.5798ee2308c3ap-27 *)
Definition d_1em8 : spec_float := S754_finite false 6044629098073146 (-79).
Definition DNum : Num := mkNum spec_float d_add d_sub SFltb d_1em8.

Local Open Scope R_scope.

(** ** Re-use of assembled matrices.  integrators.py:208, 294, 386, 493, 565 and the setup methods
    (setup stores dt in params and builds the matrices).  [params_dt] is params['dt'] (0, or what
    the user gave the constructor), [assembled] the dt the matrices were built with. *)
Record integrator := mkIntegrator { params_dt : R; assembled : option R }.
Definition construct (user_dt : R) : integrator := mkIntegrator user_dt None.
Definition setup (dt : R) (s : integrator) : integrator := mkIntegrator dt (Some dt).
Definition solve_guard (dt : R) (s : integrator) : integrator :=
  match assembled s with
  | None => setup dt s
  | Some _ => if Rlt_dec (1 / 10 ^ 12) (Rabs (params_dt s - dt)) then setup dt s else s
  end.

(** ** One step *)
Section Steps.
  Variable I : Type.
  Definition vec := I -> R.
  Definition vzero : vec := fun _ => 0.
  Definition vadd (u v : vec) : vec := fun i => u i + v i.
  Definition vscal (c : R) (u : vec) : vec := fun i => c * u i.
  Definition vsub (u v : vec) : vec := fun i => u i - v i.
  Definition vmul (a u : vec) : vec := fun i => a i * u i.

  (** *** RK4.  integrators.py:570-585: the value of L before the loop -- nothing (LinearRHS returned
      0), an array, or a number (the scale of a diagonal matrix with a constant diagonal).
      integrators.py:593 "if isinstance(L, np.ndarray): dU += L*u_hat": *)
  Inductive lin_value := LNothing | LArray (a : vec) | LNumber (c : R).
  Definition rk4_linear (L : lin_value) : option (vec -> vec) :=
    match L with LArray a => Some (vmul a) | _ => None end.
  (** integrators.py:544-545 and 587-599; [L] = Some when dU += L*u_hat is executed *)
  Definition rk4_a (rk : nat) : R := nth rk [1/6; 1/3; 1/3; 1/6] 0.
  Definition rk4_b (rk : nat) : R := nth rk [1/2; 1/2; 1] 0.
  Definition rk4_step (dt : R) (N : vec -> vec) (L : option (vec -> vec)) (u_hat : vec) : vec :=
    let U_hat0 := u_hat in
    let body rk (s : vec * vec) :=
      let '(u_hat, U_hat1) := s in
      let dU := N u_hat in
      let dU := match L with Some L => vadd dU (L u_hat) | None => dU end in
      ((if (rk <? 3)%nat then vadd U_hat0 (vscal (rk4_b rk * dt) dU) else u_hat),
       vadd U_hat1 (vscal (rk4_a rk * dt) dU)) in
    snd (for_up 4 0 body (u_hat, u_hat)).

  (** *** IRK3, integrators.py:142-144 (coefficients), 153-192 (setup), 194-205 (compute_rhs),
      212-221 (solve).  M and A are the matrices of inner(v, u) and inner(v, L(u)); [solve rk] is
      self.solver[rk], the solver for M - (a+b)*dt/2*A; [mask] is mask_nyquist or the identity;
      NonlinearRHS is called with params['ti'] = t + c[rk]*dt.  The state is u_hat and dU1. *)
  Definition irk3_a (rk : nat) : R := nth rk [8/15; 5/12; 3/4] 0.
  Definition irk3_b (rk : nat) : R := nth rk [0; -(17/60); -(5/12)] 0.
  Definition irk3_c (rk : nat) : R := nth rk [0; 8/15; 2/3; 1] 0.
  Definition irk3_lhs (dt : R) (M A : vec -> vec) (rk : nat) (u : vec) : vec :=
    vsub (M u) (vscal ((irk3_a rk + irk3_b rk) * dt / 2) (A u)).
  Definition irk3_rhs_mat (dt : R) (M A : vec -> vec) (rk : nat) (u : vec) : vec :=
    vadd (M u) (vscal ((irk3_a rk + irk3_b rk) * dt / 2) (A u)).
  Definition irk3_step (dt : R) (M A : vec -> vec) (N : R -> vec -> vec) (mask : vec -> vec)
      (solve : nat -> vec -> vec) (t : R) (s : vec * vec) : vec * vec :=
    for_up 3 0 (fun rk s =>
      let '(u_hat, dU1) := s in
      let dU := mask (N (t + irk3_c rk * dt) u_hat) in
      let w1 := vadd (vscal (irk3_a rk * dt) dU) (vscal (irk3_b rk * dt) dU1) in
      let rhs := vadd w1 (irk3_rhs_mat dt M A rk u_hat) in
      (mask (solve rk rhs), dU)) s.
  (** IMEXRK3, integrators.py:665-684 and 689-700 (compute_rhs, solve_step for rk = 0, 1, 2): the
      same scheme; rhs[0] is the previous nonlinear term, only the right hand side is masked. *)
  Definition imexrk3_step (dt : R) (M A N : vec -> vec) (mask : vec -> vec)
      (solve : nat -> vec -> vec) (s : vec * vec) : vec * vec :=
    for_up 3 0 (fun rk s =>
      let '(u, rhs0) := s in
      let w0 := N u in
      let rhs1 := vscal dt (vadd (vscal (irk3_a rk) w0) (vscal (irk3_b rk) rhs0)) in
      let rhs1 := vadd rhs1 (irk3_rhs_mat dt M A rk u) in
      (solve rk (mask rhs1), w0)) s.

  (** *** BackwardEuler, integrators.py:258-291 and 298-306 (mask None: otherwise "if self.mask:"
      raises for arrays).  The state is u_hat and dU1 (initially zero). *)
  Definition be_lhs (dt : R) (M A : vec -> vec) (u : vec) : vec := vsub (M u) (vscal dt (A u)).
  Definition be_step (dt : R) (M : vec -> vec) (N : R -> vec -> vec) (solve : vec -> vec)
      (t : R) (s : vec * vec) : vec * vec :=
    let '(u_hat, dU1) := s in
    let dU := N t u_hat in
    let w1 := vsub (vscal (2 * dt) dU) (vscal dt dU1) in
    (solve (vadd w1 (M u_hat)), dU).

  (** *** ETD, integrators.py:362-396; ehL = exp(L*dt) and psi as computed by setup *)
  Definition etd_step (dt : R) (ehL psi : vec) (N : vec -> vec) (u_hat : vec) : vec :=
    vadd (vmul ehL u_hat) (vmul (vscal dt psi) (N u_hat)).

  (** the same step for one complex mode (real and imaginary parts): ehL is complex, psi is real
      (integrators.py:365-369: psi is a float array of real parts) *)
  Definition etd_step_complex (dt er ei psi : R) (N u : R * R) : R * R :=
    (er * fst u - ei * snd u + dt * psi * fst N, er * snd u + ei * fst u + dt * psi * snd N).

  (** *** ETDRK4, integrators.py:430 (b), 457-477 (setup: a from psi) and 497-514 *)
  Definition etdrk4_a (psi : nat -> vec) (rk : nat) : vec :=
    match rk with
    | 0 => vadd (vsub (psi 0%nat) (vscal 3 (psi 1%nat))) (vscal 4 (psi 2%nat))
    | 1 | 2 => vsub (vscal 2 (psi 1%nat)) (vscal 4 (psi 2%nat))
    | _ => vadd (vscal (-1) (psi 1%nat)) (vscal 4 (psi 2%nat))
    end.
  Definition etdrk4_b (rk : nat) : R := nth rk [1/2; 1/2; 1/2] 0.
  Record etd_state := mkEtd { e_u : vec; e_U1 : vec; e_dU0 : vec; e_V2 : vec }.
  Definition etdrk4_step (dt : R) (ehL ehL_h : vec) (psi : nat -> vec) (N : vec -> vec) (u_hat dU0 V2 : vec) : vec :=
    let U_hat0 := vmul u_hat ehL_h in
    let body rk s :=
      let dU := N (e_u s) in
      let u_hat :=
        if (rk <? 2)%nat then vadd U_hat0 (vmul (vscal (etdrk4_b rk * dt) (psi 3%nat)) dU)
        else if (rk =? 2)%nat then
          vadd (vmul ehL_h (e_V2 s)) (vmul (vscal (etdrk4_b rk * dt) (psi 3%nat)) (vsub (vscal 2 dU) (e_dU0 s)))
        else e_u s in
      let dU0 := if (rk =? 0)%nat then dU else e_dU0 s in
      let V2 := if (rk =? 0)%nat then u_hat else e_V2 s in
      mkEtd u_hat (vadd (e_U1 s) (vmul (vscal dt (etdrk4_a psi rk)) dU)) dU0 V2 in
    e_U1 (for_up 4 0 body (mkEtd u_hat (vmul u_hat ehL) dU0 V2)).

  (** the same step for one complex mode; the four psi and hence the a are real (integrators.py:461-470) *)
  Definition cx := (R * R)%type.
  Definition c_add (x y : cx) : cx := (fst x + fst y, snd x + snd y).
  Definition c_scal (a : R) (x : cx) : cx := (a * fst x, a * snd x).
  Definition c_mul (x y : cx) : cx := (fst x * fst y - snd x * snd y, fst x * snd y + snd x * fst y).
  Definition etdrk4_ac (psi : nat -> R) (rk : nat) : R :=
    match rk with
    | 0 => psi 0%nat - 3 * psi 1%nat + 4 * psi 2%nat
    | 1 | 2 => 2 * psi 1%nat - 4 * psi 2%nat
    | _ => - psi 1%nat + 4 * psi 2%nat
    end.
  Definition etdrk4_step_complex (dt : R) (ehL ehL_h : cx) (psi : nat -> R) (N : cx -> cx) (u_hat dU0 V2 : cx) : cx :=
    let U_hat0 := c_mul u_hat ehL_h in
    let body rk (s : cx * cx * cx * cx) :=
      let '(u_hat, U1, dU0, V2) := s in
      let dU := N u_hat in
      let u_hat :=
        if (rk <? 2)%nat then c_add U_hat0 (c_scal (etdrk4_b rk * dt * psi 3%nat) dU)
        else if (rk =? 2)%nat then
          c_add (c_mul ehL_h V2) (c_scal (etdrk4_b rk * dt * psi 3%nat) (c_add (c_scal 2 dU) (c_scal (-1) dU0)))
        else u_hat in
      let dU0 := if (rk =? 0)%nat then dU else dU0 in
      let V2 := if (rk =? 0)%nat then u_hat else V2 in
      (u_hat, c_add U1 (c_scal (etdrk4_ac psi rk * dt) dU), dU0, V2) in
    let '(_, U1, _, _) := for_up 4 0 body (u_hat, c_mul u_hat ehL, dU0, V2) in U1.

  (** *** PDEIMEXRK, integrators.py:782-817 (assemble, compute_rhs, solve_step), one time step:
      for rk in range(steps): compute_rhs(rk); solve_step(rk).  [solve] solves M - dt*a[1,1]*A;
      Krhs and Lrhs are the stored nonlinear and linear terms. *)
  Definition tableau := nat -> nat -> R.
  Definition imex_lhs (dt : R) (a : tableau) (M A : vec -> vec) (u : vec) : vec :=
    vsub (M u) (vscal (dt * a 1%nat 1%nat) (A u)).
  Record imex_state := mkImex { im_u : vec; im_u0 : vec; im_K : nat -> vec; im_L : nat -> vec; im_rhs : vec }.
  Definition imex_compute_rhs (dt : R) (a b : tableau) (M A N mask : vec -> vec) (rk : nat) (s : imex_state) : imex_state :=
    let K := upd (im_K s) rk (N (im_u s)) in
    let u0 := if (rk =? 0)%nat then M (im_u s) else im_u0 s in
    let rhs := for_up (rk + 1) 0 (fun j rhs => vadd rhs (vscal (dt * b (rk + 1)%nat j) (K j))) u0 in
    let '(Lr, rhs) :=
      if (0 <? rk)%nat then
        let Lr := upd (im_L s) (rk - 1) (A (im_u s)) in
        (Lr, for_up rk 0 (fun j rhs => vadd rhs (vscal (dt * a (rk + 1)%nat (j + 1)%nat) (Lr j))) rhs)
      else (im_L s, rhs) in
    mkImex (im_u s) u0 K Lr (mask rhs).
  Definition imex_solve_step (solve : vec -> vec) (s : imex_state) : imex_state :=
    mkImex (solve (im_rhs s)) (im_u0 s) (im_K s) (im_L s) (im_rhs s).
  Definition imex_step (dt : R) (steps : nat) (a b : tableau) (M A N mask solve : vec -> vec) (s : imex_state) : imex_state :=
    for_up steps 0 (fun rk s => imex_solve_step solve (imex_compute_rhs dt a b M A N mask rk s)) s.
End Steps.

Definition table (rows : list (list R)) (i j : nat) : R := nth j (nth i rows []) 0.
(** integrators.py:819-833 *)
Definition imex011_a := table [[0; 0]; [0; 0]].
Definition imex011_b := table [[0; 0]; [1; 0]].
Definition imex011_c := [1; 0].
(** integrators.py:836-850 *)
Definition imex111_a := table [[0; 0]; [0; 1]].
Definition imex111_b := table [[0; 0]; [1; 0]].
Definition imex111_c := [0; 1].
(** integrators.py:852-870 *)
Definition gamma222 : R := (2 - sqrt 2) / 2.
Definition delta222 : R := 1 - 1 / (2 * gamma222).
Definition imex222_a := table [[0; 0; 0]; [0; gamma222; 0]; [0; 1 - gamma222; gamma222]].
Definition imex222_b := table [[0; 0; 0]; [gamma222; 0; 0]; [delta222; 1 - delta222; 0]].
Definition imex222_c := [0; gamma222; 1].
(** integrators.py:872-893 *)
Definition imex443_a := table
  [[0; 0; 0; 0; 0]; [0; 1/2; 0; 0; 0]; [0; 1/6; 1/2; 0; 0]; [0; -(1/2); 1/2; 1/2; 0]; [0; 3/2; -(3/2); 1/2; 1/2]].
Definition imex443_b := table
  [[0; 0; 0; 0; 0]; [1/2; 0; 0; 0; 0]; [11/18; 1/18; 0; 0; 0]; [5/6; -(5/6); 1/2; 0; 0]; [1/4; 7/4; 3/4; -(7/4); 0]].
Definition imex443_c := [0; 1/2; 2/3; 1/2; 1].
