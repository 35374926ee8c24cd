(** HelmholtzModel.v -- the Chebyshev Poisson and Helmholtz solvers of chebyshev/la.py with the
    kernels of optimization/numba/helmholtz.py and optimization/cython/la.pyx, for one line of a
    (possibly multidimensional) array; the loops over the other axes only call the line kernels.

    Line numbers without a file refer to optimization/numba/helmholtz.py.  Exact real arithmetic
    (complex right hand sides: the kernels act on real and imaginary parts separately); floating
    point literals are the decimal numbers that are written. *)
From Coq Require Import Reals ZArith List Arith Bool.
From Verif Require Import Base Fld SparseModel RPoly StencilModel StencilModel2 LegMatrixModel.
Import ListNotations.
Local Open Scope R_scope.

(** matrixbase.py 182-186 A[key]; None is the KeyError.  The array of a diagonal given as a number
    is its broadcast (chebyshev/la.py 257-258) *)
Definition key (A : smat RFld) (z : Z) : option (nat -> R) :=
  match dict_get RFld z (sm_items RFld A) with Some d => Some (dget RFld d) | None => None end.

(** abs(x) < 1e-8 and x*x < 1e-16 *)
Definition small8 (x : R) : bool := if Rlt_dec (Rabs x) (1 / 10 ^ 8) then true else false.
Definition small16 (x : R) : bool := if Rlt_dec (x * x) (1 / 10 ^ 16) then true else false.

(** b[k] when b and u are the same array (alias) or not *)
Definition rd (alias : bool) (b u : nat -> R) (k : nat) : R := if alias then u k else b k.

(** ** Poisson_Solve_ADD *)
(** 404-412 (cython/la.pyx 693-703, chebyshev/la.py 55-63): one iteration; the state is u, se, so *)
Definition add_step (alias : bool) (d d1 b : nat -> R) (k : nat) (s : (nat -> R) * R * R) : (nat -> R) * R * R :=
  let '(u, se, so) := s in
  if Nat.even k then
    let se := se + u (k + 2)%nat in
    let u := upd u k (rd alias b u k - d1 k * se) in
    (upd u k (u k / d k), se, so)
  else
    let so := so + u (k + 2)%nat in
    let u := upd u k (rd alias b u k - d1 k * so) in
    (upd u k (u k / d k), se, so).
(** 399-412: the substitution without the final scaling; M = d.shape[0] *)
Definition add_subst (alias : bool) (M : nat) (d d1 b u : nat -> R) : nat -> R :=
  let u := upd u (M - 1) (rd alias b u (M - 1)%nat / d (M - 1)%nat) in
  let u := upd u (M - 2) (rd alias b u (M - 2)%nat / d (M - 2)%nat) in
  let '(u, _, _) := for_down (M - 2) (add_step alias d d1 b) (u, 0, 0) in u.
(** 399-417 Poisson_Solve_ADD_1D; cython/la.pyx 680-706 *)
Definition poisson_solve_ADD_1D (alias : bool) (M : nat) (d d1 : nat -> R) (scale : R) (b u : nat -> R) : nat -> R :=
  let u := add_subst alias M d d1 b u in
  if small8 (scale - 1) then u else for_up M 0 (fun k u => upd u k (u k / scale)) u.
(** chebyshev/la.py 27-66, the Python version: u /= A.scale (all N entries) *)
Definition poisson_solve_ADD_py (alias : bool) (M N : nat) (d d1 : nat -> R) (scale : R) (b u : nat -> R) : nat -> R :=
  let u := add_subst alias M d d1 b u in for_up N 0 (fun k u => upd u k (u k / scale)) u.
(** chebyshev/la.py 17-21 ADDSolver.solve and 388-396: keys 0 and 2 of the matrix *)
Definition add_solver (optimized alias : bool) (N : nat) (A : smat RFld) (b : nat -> R) : option (nat -> R) :=
  match key A 0, key A 2 with
  | Some d, Some d1 =>
      Some (if optimized then poisson_solve_ADD_1D alias (sm_rows RFld A) d d1 (sm_scale RFld A) b b
            else poisson_solve_ADD_py alias (sm_rows RFld A) N d d1 (sm_scale RFld A) b b)
  | _, _ => None
  end.

(** ** chebyshev/la.py 69-118 ANNSolver.__call__ (one-dimensional b with N entries, homogeneous
    boundary values, b and u the same array or not) *)
Definition ann_j2 (i : nat) : R := if Nat.eqb i 0 then 1 / 1 else 1 / INR (i ^ 2).
Definition ann_step (alias : bool) (d d1 b : nat -> R) (k : nat) (s : (nat -> R) * R * R) : (nat -> R) * R * R :=
  add_step alias d d1 b (k + 1) s.
Definition ann_core (alias : bool) (N M : nat) (d d1 : nat -> R) (scale : R) (constraints : list (nat * R)) (b u : nat -> R) : nat -> R :=
  let u := upd u (M - 1) (rd alias b u (M - 1)%nat / d (M - 1)%nat) in
  let u := upd u (M - 2) (rd alias b u (M - 2)%nat / d (M - 2)%nat) in
  (* for k in range(M-3, 0, -1) *)
  let '(u, _, _) := for_down (M - 3) (ann_step alias d d1 b) (u, 0, 0) in
  let u := for_up M 0 (fun k u => upd u k (u k * ann_j2 k)) u in
  let u := for_up N 0 (fun k u => upd u k (u k / scale)) u in
  fold_left (fun u c => upd u (fst c) (snd c)) constraints u.
Definition ann_solver (alias : bool) (N : nat) (A : smat RFld) (constraints : list (nat * R)) (b u : nat -> R) : option (nat -> R) :=
  match key A 0, key A 2 with
  | Some a0, Some a2 =>
      Some (ann_core alias N (sm_rows RFld A) (fun i => a0 i * ann_j2 i) (fun i => a2 i * ann_j2 (i + 2)%nat)
                     (sm_scale RFld A) constraints b u)
  | _, _ => None
  end.

(** ** LU_Helmholtz *)
Inductive impl := Numba | Cython.
Record diags := mkDiags { dA0 : nat -> R; dA2 : nat -> R; dA4 : nat -> R; dBm : nat -> R; dB0 : nat -> R; dB2 : nat -> R }.

(** 32-48 preLU: j2 = 1/k**2 with j2[0] = 1, set to 0 for A_0 only *)
Definition pre_numba (neumann : bool) (D : diags) : diags :=
  if neumann then
    mkDiags (fun i => dA0 D i * (if Nat.eqb i 0 then 0 else ann_j2 i)) (fun i => dA2 D i * ann_j2 (i + 2))
            (fun i => dA4 D i * ann_j2 (i + 4)) (fun i => dBm D i * ann_j2 i)
            (fun i => dB0 D i * ann_j2 i) (fun i => dB2 D i * ann_j2 (i + 2))
  else D.
(** cython/la.pyx 735-751: the in-place divisions by pow(i, 2), and the zero mode *)
Definition pre_cython (neumann : bool) (al be : R) (D : diags) : diags :=
  if neumann then
    let sq := fun i : nat => INR i ^ 2 in
    mkDiags (fun i => if Nat.eqb i 0 then (if small8 be then 1 / al else dA0 D 0%nat) else dA0 D i / sq i)
            (fun i => dA2 D i / sq (i + 2)%nat) (fun i => dA4 D i / sq (i + 4)%nat)
            (fun i => if Nat.eqb i 0 then dBm D 0%nat else dBm D i / sq i)
            (fun i => if Nat.eqb i 0 then (if small8 be then 0 else dB0 D 0%nat) else dB0 D i / sq i)
            (fun i => dB2 D i / sq (i + 2)%nat)
  else D.

(** the arrays d0, d1, d2, L (u0, u1, u2, L of chebyshev/la.py 271-274) *)
Record lu := mkLU { l_d0 : nat -> R; l_d1 : nat -> R; l_d2 : nat -> R; l_L : nat -> R }.
(** 80-87, cython/la.pyx 756-762: one iteration *)
Definition lu_step (M : nat) (D : diags) (al be : R) (i : nat) (s : lu) : lu :=
  let L := upd (l_L s) (i - 2) (be * dBm D (i - 2)%nat / l_d0 s (i - 2)%nat) in
  let d0 := upd (l_d0 s) i (al * dA0 D i + be * dB0 D i - L (i - 2)%nat * l_d1 s (i - 2)%nat) in
  let d1 := if Nat.ltb i (M - 2) then upd (l_d1 s) i (al * dA2 D i + be * dB2 D i - L (i - 2)%nat * l_d2 s (i - 2)%nat) else l_d1 s in
  let d2 := if Nat.ltb i (M - 4) then upd (l_d2 s) i (al * dA4 D i - L (i - 2)%nat * l_d2 s (i - 2)%nat) else l_d2 s in
  mkLU d0 d1 d2 L.
(** 74-87, cython/la.pyx 753-762; the arrays are zero on entry *)
Definition lu_factor (M : nat) (D : diags) (al be : R) : lu :=
  let z := fun _ : nat => 0 in
  let d0 := upd (upd z 0 (al * dA0 D 0%nat + be * dB0 D 0%nat)) 1 (al * dA0 D 1%nat + be * dB0 D 1%nat) in
  let d1 := upd (upd z 0 (al * dA2 D 0%nat + be * dB2 D 0%nat)) 1 (al * dA2 D 1%nat + be * dB2 D 1%nat) in
  let d2 := upd (upd z 0 (al * dA4 D 0%nat)) 1 (al * dA4 D 1%nat) in
  for_up (M - 2) 2 (lu_step M D al be) (mkLU d0 d1 d2 z).

(** 69-73: numba's LU_Helmholtz_1D writes A_0[0] into the array it was given *)
Definition numba_A0 (neumann : bool) (al be : R) (D : diags) : diags :=
  if neumann && small8 be
  then mkDiags (upd (dA0 D) 0 (1 / al)) (dA2 D) (dA4 D) (dBm D) (dB0 D) (dB2 D) else D.
Definition lu_line (im : impl) (neumann : bool) (M : nat) (D : diags) (al be : R) : lu :=
  match im with
  | Numba => lu_factor M (numba_A0 neumann al be (pre_numba neumann D)) al be
  | Cython => lu_factor M (pre_cython neumann al be D) al be
  end.
(** 89-153 LU_Helmholtz_2D and 3D: the lines, in the order of the loops; numba passes the same
    arrays to every line, cython copies A[0], ... each time *)
Fixpoint numba_lines (neumann : bool) (M : nat) (D : diags) (l : list (R * R)) : list lu :=
  match l with
  | [] => []
  | (al, be) :: r => let D := numba_A0 neumann al be D in lu_factor M D al be :: numba_lines neumann M D r
  end.
Definition lu_lines (im : impl) (neumann : bool) (M : nat) (D : diags) (l : list (R * R)) : list lu :=
  match im with
  | Numba => numba_lines neumann M (pre_numba neumann D) l
  | Cython => map (fun ab => lu_factor M (pre_cython neumann (fst ab) (snd ab) D) (fst ab) (snd ab)) l
  end.

(** ** Solve_Helmholtz_1D, 156-184; cython/la.pyx 871-912.  [f] may be the same array as u: y is
    complete before u is written *)
Definition back_step (s : lu) (y : nat -> R) (i : nat) (st : (nat -> R) * R * R) : (nat -> R) * R * R :=
  let '(u, se, so) := st in
  let u := upd u i (y i - l_d1 s i * u (i + 2)%nat) in
  if Nat.even i then
    let se := se + u (i + 4)%nat in
    let u := upd u i (u i - l_d2 s i * se) in
    (upd u i (u i / l_d0 s i), se, so)
  else
    let so := so + u (i + 4)%nat in
    let u := upd u i (u i - l_d2 s i * so) in
    (upd u i (u i / l_d0 s i), se, so).
Definition forward (M : nat) (L f y : nat -> R) : nat -> R :=
  let y := upd (upd y 0 (f 0%nat)) 1 (f 1%nat) in
  for_up (M - 2) 2 (fun i y => upd y i (f i - L (i - 2)%nat * y (i - 2)%nat)) y.
Definition backward (M : nat) (s : lu) (y u : nat -> R) : nat -> R :=
  let u := upd u (M - 1) (y (M - 1)%nat / l_d0 s (M - 1)%nat) in
  let u := upd u (M - 2) (y (M - 2)%nat / l_d0 s (M - 2)%nat) in
  let u := upd u (M - 3) ((y (M - 3)%nat - l_d1 s (M - 3)%nat * u (M - 1)%nat) / l_d0 s (M - 3)%nat) in
  let u := upd u (M - 4) ((y (M - 4)%nat - l_d1 s (M - 4)%nat * u (M - 2)%nat) / l_d0 s (M - 4)%nat) in
  let '(u, _, _) := for_down (M - 4) (back_step s y) (u, 0, 0) in u.
Definition solve_helmholtz_1D (neumann : bool) (M : nat) (s : lu) (f u : nat -> R) : nat -> R :=
  let u := backward M s (forward M (l_L s) f (fun _ => 0)) u in
  if neumann then
    let u := if small16 (l_d0 s 0%nat - 1) then upd u 0 0 else u in
    for_up (M - 1) 1 (fun i u => upd u i (u i / INR (i * i))) u
  else u.

(** ** chebyshev/la.py 226-276 Helmholtz.__init__ and 289-318 __call__ (no inhomogeneous boundary
    conditions, no constraints), one-dimensional.  The matrices must have the keys read at 249-259
    and in preLU *)
Definition helmholtz_keys (A B : smat RFld) : option diags :=
  match key A 0, key A 2, key A 4, key B (-2), key B 0, key B 2 with
  | Some a0, Some a2, Some a4, Some bm, Some b0, Some b2 => Some (mkDiags a0 a2 a4 bm b0 b2)
  | _, _, _, _, _, _ => None
  end.
(** Helmholtz(A, B, alfa, beta)(f, u) *)
Definition helmholtz4 (im : impl) (neumann : bool) (A B : smat RFld) (al be : R) (f u : nat -> R) : option (nat -> R) :=
  match helmholtz_keys A B with
  | Some D => Some (solve_helmholtz_1D neumann (sm_rows RFld A) (lu_line im neumann (sm_rows RFld A) D al be) f u)
  | None => None
  end.
(** Helmholtz(A, B)(f, u): 236-238 *)
Definition helmholtz2 (im : impl) (neumann : bool) (A B : smat RFld) (f u : nat -> R) : option (nat -> R) :=
  helmholtz4 im neumann A B (sm_scale RFld A) (sm_scale RFld B) f u.
(** Helmholtz(A, B, alfa, beta) with arrays alfa and beta: one right hand side and one solution per line *)
Definition helmholtz_lines (im : impl) (neumann : bool) (A B : smat RFld) (l : list (R * R)) (f u : list (nat -> R)) : option (list (nat -> R)) :=
  match helmholtz_keys A B with
  | Some D => Some (map (fun sfu => solve_helmholtz_1D neumann (sm_rows RFld A) (fst (fst sfu)) (snd (fst sfu)) (snd sfu))
                        (combine (combine (lu_lines im neumann (sm_rows RFld A) D l) f) u))
  | None => None
  end.

(** ** Helmholtz_matvec1D, 219-243; cython/Matvec.pyx 656-695.  b is zero on entry
    (chebyshev/la.py 331); the state of the loop is b, s1, s2 *)
Definition hmv_step (al be : R) (dd ud bd v : nat -> R) (k0 : nat) (s : (nat -> R) * R * R) : (nat -> R) * R * R :=
  let k := (k0 + 2)%nat in
  let '(b, s1, s2) := s in
  let p := ud k * al in
  if Nat.even k then
    let s2 := s2 + v (k + 2)%nat in
    (upd b k ((dd k * al + bd k * be) * v k - PI / 2 * be * (v (k - 2)%nat + v (k + 2)%nat) + p * s2), s1, s2)
  else
    let s1 := s1 + v (k + 2)%nat in
    (upd b k ((dd k * al + bd k * be) * v k - PI / 2 * be * (v (k - 2)%nat + v (k + 2)%nat) + p * s1), s1, s2).
Definition helmholtz_matvec_1D (M : nat) (al be : R) (dd ud bd v : nat -> R) : nat -> R :=
  let b := fun _ : nat => 0 in
  let k := (M - 1)%nat in
  let b := upd b k ((dd k * al + bd k * be) * v k - PI / 2 * be * v (k - 2)%nat) in
  let b := upd b (k - 1) ((dd (k - 1)%nat * al + bd (k - 1)%nat * be) * v (k - 1)%nat - PI / 2 * be * v (k - 3)%nat) in
  (* for k in range(N-3, 1, -1) *)
  let '(b, s1, s2) := for_down (M - 4) (hmv_step al be dd ud bd v) (b, 0, 0) in
  let s1 := s1 + v 3%nat in
  let s2 := s2 + v 2%nat in
  let b := upd b 1 ((dd 1%nat * al + bd 1%nat * be) * v 1%nat - PI / 2 * be * v 3%nat + ud 1%nat * al * s1) in
  upd b 0 ((dd 0%nat * al + bd 0%nat * be) * v 0%nat - PI / 2 * be * v 2%nat + ud 0%nat * al * s2).
(** chebyshev/la.py 320-333 matvec, Dirichlet; cython reads A[0], A[2], B[0], numba all six keys *)
Definition helmholtz_matvec (A B : smat RFld) (al be : R) (v : nat -> R) : option (nat -> R) :=
  match key A 0, key A 2, key B 0 with
  | Some a0, Some a2, Some b0 => Some (helmholtz_matvec_1D (sm_rows RFld A) al be a0 a2 b0 v)
  | _, _, _ => None
  end.

(** ** Helmholtz_Neumann_matvec1D, 286-312 (numba) and cython/Matvec.pyx 722-767 *)
Definition sqn (k : nat) : R := INR (k ^ 2).
Definition hnmv_step (al be : R) (dd ud bl bd bu v : nat -> R) (k0 : nat) (s : (nat -> R) * R * R) : (nat -> R) * R * R :=
  let k := (k0 + 2)%nat in
  let '(b, s1, s2) := s in
  let p := ud k * al in
  let base := (dd k * al + bd k * be) * v k * sqn k
              + be * (bl (k - 2)%nat * v (k - 2)%nat * sqn (k - 2) + bu k * v (k + 2)%nat * sqn (k + 2)) in
  if Nat.even k then let s2 := s2 + v (k + 2)%nat * sqn (k + 2) in (upd b k (base + p * s2), s1, s2)
  else let s1 := s1 + v (k + 2)%nat * sqn (k + 2) in (upd b k (base + p * s1), s1, s2).
Definition helmholtz_neumann_matvec_1D (im : impl) (M : nat) (al be : R) (dd ud bl bd bu v : nat -> R) : nat -> R :=
  let b := fun _ : nat => 0 in
  (* the last two rows: numba multiplies v[k-2] by (k-2)**2, cython by j2 = k*k *)
  let last := fun k => (dd k * al + bd k * be) * v k * sqn k
                       + bl (k - 2)%nat * be * v (k - 2)%nat * (match im with Numba => sqn (k - 2) | Cython => sqn k end) in
  let b := upd b (M - 1) (last (M - 1)%nat) in
  let b := upd b (M - 2) (last (M - 2)%nat) in
  let '(b, s1, s2) := for_down (M - 4) (hnmv_step al be dd ud bl bd bu v) (b, 0, 0) in
  let s1 := s1 + v 3%nat * sqn 3 in
  let b := upd b 1 ((dd 1%nat * al + bd 1%nat * be) * v 1%nat * sqn 1 + be * (bu 1%nat * v 3%nat * sqn 3) + ud 1%nat * al * s1) in
  let s2 := s2 + v 2%nat * sqn 2 in
  let b := upd b 0 ((dd 0%nat * al + bd 0%nat * be) * v 0%nat * sqn 0 + be * (bu 0%nat * v 2%nat * sqn 2) + ud 0%nat * al * s2) in
  let b := upd b 0 (b 0%nat + bd 0%nat * v 0%nat * be) in
  upd b 2 (b 2%nat + bl 0%nat * v 0%nat * be).
(** cython/Matvec.pyx 778-793: j2 is an integer array, so j2[:] = 1/j2 keeps only the integer part:
    1 for k <= 1 and 0 for k >= 2 *)
Definition int_j2 (i : nat) : R := if Nat.leb i 1 then 1 else 0.
Definition pre_cython_matvec (D : diags) : diags :=
  mkDiags (fun i => dA0 D i * (if Nat.eqb i 0 then 0 else int_j2 i)) (fun i => dA2 D i * int_j2 (i + 2))
          (dA4 D) (fun i => dBm D i * int_j2 i) (fun i => dB0 D i * int_j2 i) (fun i => dB2 D i * int_j2 (i + 2)).
(** 375-386 and cython/Matvec.pyx 769-800 *)
Definition helmholtz_neumann_matvec (im : impl) (A B : smat RFld) (al be : R) (v : nat -> R) : option (nat -> R) :=
  match helmholtz_keys A B with
  | Some D =>
      let P := match im with Numba => pre_numba true D | Cython => pre_cython_matvec D end in
      Some (helmholtz_neumann_matvec_1D im (sm_rows RFld A) al be (dA0 P) (dA2 P) (dBm P) (dB0 P) (dB2 P) v)
  | None => None
  end.

(** ** ANN_matvec1D, 448-463; v and c have M + 2 entries, c is the array given by the caller *)
Definition annmv_step (d0 d2 v : nat -> R) (k : nat) (s : (nat -> R) * R * R) : (nat -> R) * R * R :=
  let '(c, s0, s1) := s in
  let c := upd c k (d0 k * v k) in
  if Nat.even k then
    let s0 := s0 + v (k + 2)%nat * sqn (k + 2) in (upd c k (c k + s0 * d2 k / sqn (k + 2)), s0, s1)
  else
    let s1 := s1 + v (k + 2)%nat * sqn (k + 2) in (upd c k (c k + s1 * d2 k / sqn (k + 2)), s0, s1).
Definition ann_matvec_numba (M : nat) (A : smat RFld) (v c : nat -> R) : option (nat -> R) :=
  match key A 0, key A 2 with
  | Some d0, Some d2 =>
      let c := upd c (M - 1) (d0 (M - 1)%nat * v (M - 1)%nat) in
      let c := upd c (M - 2) (d0 (M - 2)%nat * v (M - 2)%nat) in
      let '(c, _, _) := for_down (M - 2) (annmv_step d0 d2 v) (c, 0, 0) in
      Some (if Req_EM_T (sm_scale RFld A) 1 then c else for_up (M + 2) 0 (fun k c => upd c k (c k / sm_scale RFld A)) c)
  | _, _ => None
  end.
(** chebyshev/matrices.py 1135-1165 ASNSNmat.matvec, the default; [ks] is self._keyscale *)
Definition ann_matvec_step (d0 d2 vc : nat -> R) (k : nat) (s : (nat -> R) * R * R) : (nat -> R) * R * R :=
  let '(c, s0, s1) := s in
  let c := upd c k (d0 k * vc k) in
  if Nat.even k then
    let s0 := s0 + vc (k + 2)%nat in (upd c k (c k + s0 * d2 k), s0, s1)
  else
    let s1 := s1 + vc (k + 2)%nat in (upd c k (c k + s1 * d2 k), s0, s1).
Definition ann_matvec_py (N : nat) (ks scale : R) (v c : nat -> R) : nat -> R :=
  let M := (N - 2)%nat in
  let vc := fun k => v k * sqn k in
  let d0 := fun k => -2 * PI * (INR k + 1) / (INR k + 2) * scale * ks in
  let d2 := fun k => -4 * PI * (INR k + 1) / (INR k + 2) ^ 2 * scale * ks in
  let c := upd c (M - 1) (d0 (M - 1)%nat * vc (M - 1)%nat) in
  let c := upd c (M - 2) (d0 (M - 2)%nat * vc (M - 2)%nat) in
  let '(c, _, _) := for_down (M - 2) (ann_matvec_step d0 d2 vc) (c, 0, 0) in
  for_up N 0 (fun k c => upd c k (c k * scale)) c.

(** matrixbase.py 687-691 and 396-405: SpectralMatrix multiplies the diagonals by the power
    [c] of the domain factor (and by the constant measure) *)
Definition scaled (c : R) (A : smat RFld) : smat RFld :=
  mkSmat RFld (sm_rows RFld A) (sm_cols RFld A) (sm_scale RFld A)
         (map (fun kv => (fst kv, dscale RFld (snd kv) c)) (sm_items RFld A)).
