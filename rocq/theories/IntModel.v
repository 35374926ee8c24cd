(** IntModel.v -- unweighted integrals: points_and_weights(weighted=False), dx and inner(number, array).

    Exact real arithmetic.  FFTW's transforms by their defining sums (ChebTransModel, UTransModel). *)
From Coq Require Import Reals List Arith Bool.
From Verif Require Import Base RPoly LegMatrixModel ChebQuadModel ChebTransModel UTransModel.
Import ListNotations.
Local Open Scope R_scope.

(** ** the weights *)
(** chebyshev/bases.py 226-228, 236-238 and chebyshevu/bases.py 145-147: d[::2] = (2/m)/hstack((1, 1-k*k)) with k = 2, 4, ..., the
    rest is zero *)
Definition fejer_d (m : R) (k : nat) : R := if Nat.even k then (2 / m) / (if Nat.eqb k 0 then 1 else 1 - INR k * INR k) else 0.
(** 224-232: Gauss-Lobatto; 234-241: Gauss (written LG); chebyshevu/bases.py 142-150 has the same for quad='GC' *)
Definition cheb_unweighted (q : quad) (N j : nat) : R :=
  match q with
  | GL => let w := dct1 N (fejer_d (INR (N - 1))) in
          let w0 := if Nat.eqb j 0 then w j * (1 / 2) else w j in
          if Nat.eqb j (N - 1) then w0 * (1 / 2) else w0
  | LG => dct3 N (fejer_d (INR N)) j
  end.
(** chebyshev/bases.py 243-252 and chebyshevu/bases.py 131-140: d[::2] = 2/(k[::2]+1) *)
Definition fejer2_d (k : nat) : R := if Nat.even k then 2 / (INR k + 1) else 0.
Definition gu_unweighted (N j : nat) : R := dst1 N fejer2_d j * (sin ((INR j + 1) * PI / (INR N + 1)) / (INR N + 1)).
(** chebyshevu/bases.py 118-153 *)
Definition u_unweighted (q : uquad) (N j : nat) : R := match q with GU => gu_unweighted N j | GC => cheb_unweighted LG N j end.
(** sympy's Poly.integrate *)
Fixpoint integrate_from (d : nat) (p : poly) : poly := match p with [] => [] | a :: p => a / INR (S d) :: integrate_from (S d) p end.
Definition poly_integrate (p : poly) : poly := 0 :: integrate_from 0 p.
(** jacobi/bases.py 66-90 unweighted_quadrature_weights, called for weighted=False by jacobi/bases.py 183-193, ultraspherical/bases.py
    111-121 and gegenbauer/bases.py 119-129: P the orthogonal polynomials, h = l2_norm_sq(), (x, w) the weighted rule, N = self.N *)
Definition jacobi_fi (P : nat -> poly) (i : nat) : R :=
  if Nat.eqb i 0 then 2 else peval (poly_integrate (P i)) 1 - peval (poly_integrate (P i)) (-1).
Definition jacobi_unweighted (P : nat -> poly) (h x w : nat -> R) (N j : nat) : R :=
  gsum 0 Rplus N (fun i => peval (P i) (x j) / h i * jacobi_fi P i) * w j.
(** laguerre/bases.py 69-79: w the weights of numpy's laggauss; hermite/bases.py 76-86 has exp(points**2) *)
Definition laguerre_weights (weighted : bool) (x w : nat -> R) (j : nat) : R := if weighted then w j * exp (x j) else w j.
(** fourier/bases.py 73-82: an array with one element, broadcast *)
Definition fourier_unweighted (N : nat) : R := 2 * PI / INR N.
(** spectralbase.py 675-689 map_true_domain of the domain starting at a, c the start of the reference domain; 873-887 domain_factor *)
Definition domain_factor (L Rf : R) : R := Rf / L.
Definition map_true (a c df x : R) : R := a + (x - c) / df.

(** ** dx *)
(** utilities/__init__.py 46-49, one dimension *)
Definition dx1 (n : nat) (w u : nat -> R) : R := gsum 0 Rplus n (fun j => u j * w j).
(** arrays by their multi-index *)
Definition arr := list nat -> R.
Fixpoint set_nth (ax i : nat) (idx : list nat) : list nat :=
  match idx, ax with [], _ => [] | _ :: r, O => i :: r | a :: r, S ax => a :: set_nth ax i r end.
(** 52-60: one round of the loop; every entry along the axis becomes the sum *)
Definition dx_axis (n ax : nat) (w : nat -> R) (u : arr) : arr := fun idx => gsum 0 Rplus n (fun i => u (set_nth ax i idx) * w i).
Fixpoint dx_loop (ax : nat) (axes : list (nat * (nat -> R))) (u : arr) : arr :=
  match axes with [] => u | (n, w) :: r => dx_loop (S ax) r (dx_axis n ax w u) end.
(** 61: uc.flat[0] is the first entry of the process; [start] its multi-index *)
Definition dx_nd (axes : list (nat * (nat -> R))) (u : arr) (start : list nat) : R := dx_loop 0 axes u start.

(** ** inner(number, array): forms/inner.py 180-216 *)
(** get_measured_array (spectralbase.py 1073-1109, tensorproductspace.py 1083-1106) multiplies the array with sqrt(det g) at the points,
    but is called only when space.hi.prod() != 1 *)
Definition measured (hi_prod_is_1 : bool) (m u : arr) : arr := if hi_prod_is_1 then u else fun idx => u idx * m idx.
Definition inner_number (c : R) (dfs : list R) (axes : list (nat * (nat -> R))) (hi_prod_is_1 : bool) (m u : arr) (start : list nat) : R :=
  c / fold_right Rmult 1 dfs * dx_nd axes (measured hi_prod_is_1 m u) start.
(** the same in one dimension *)
Definition inner_number1 (c df : R) (n : nat) (w : nat -> R) (hi_prod_is_1 : bool) (m u : nat -> R) : R :=
  c / df * dx1 n w (if hi_prod_is_1 then u else fun j => u j * m j).
(** coordinates.py 100-135 for two coordinates with constant basis vectors (b i a: component a of vector i): the scaling factors and
    the square root of the determinant of the metric *)
Definition lin_hi (b : nat -> nat -> R) (i : nat) : R := sqrt (b i 0%nat * b i 0%nat + b i 1%nat * b i 1%nat).
Definition lin_g (b : nat -> nat -> R) (i j : nat) : R := b i 0%nat * b j 0%nat + b i 1%nat * b j 1%nat.
Definition lin_sqrt_det_g (b : nat -> nat -> R) : R := sqrt (lin_g b 0 0 * lin_g b 1 1 - lin_g b 0 1 * lin_g b 1 0).
