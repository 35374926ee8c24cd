(** Leg2ChebModel.v -- conversion between Legendre and Chebyshev coefficients: leg2cheb and cheb2leg of
    legendre/dlt.py with their numba and cython versions, the direct branch of the classes Leg2Cheb and
    Cheb2Leg, and the mass matrix BTLmat of chebyshev/matrices.py.

    One line of the array (the iterators over the other axes call the line kernel for every line).
    Exact real arithmetic; Lambda(k) = Gamma(k+1/2)/Gamma(k+1) is taken by its value for integers
    (Gamma(1/2) = sqrt(pi), Gamma(z+1) = z Gamma(z)), not by the approximations of cython/transforms.pyx 499-524. *)
From Coq Require Import Reals ZArith List Arith Bool.
From Verif Require Import Base Fld SparseModel RPoly StencilModel StencilModel2 LegMatrixModel.
Import ListNotations.
Local Open Scope R_scope.

(** cython/transforms.pyx 482-524, numba/transforms.py 231 Omega, dlt.py Lambda *)
Fixpoint Lam (k : nat) : R := match k with O => sqrt PI | S j => Lam j * (INR j + / 2) / (INR j + 1) end.
Definition zero_array : nat -> R := fun _ => 0.
(** the number of elements of range(0, N, 2) *)
Definition evens (N : nat) : nat := ((N + 1) / 2)%nat.

(** ** leg2cheb *)
(** numba/transforms.py 233-252 and cython/transforms.pyx 588-627; N >= 1 *)
Definition leg2cheb_loops (N : nat) (a c : nat -> R) : nat -> R :=
  let v := for_up (evens N) 0 (fun h v => for_up (N - 2 * h) 0 (fun i v => upd v i (v i + a h * a (h + i)%nat * c (2 * h + i)%nat)) v) zero_array in
  let v := upd v 0 (v 0%nat / 2) in
  for_up N 0 (fun i v => upd v i (v i * (2 / PI))) v.
Definition leg2cheb_loops_T (N : nat) (a c : nat -> R) : nat -> R :=
  let cv := for_up N 0 (fun i v => upd v i (c i * (2 / PI))) zero_array in
  let cv := upd cv 0 (cv 0%nat / 2) in
  for_up (evens N) 0 (fun h v => for_up (N - 2 * h) 0 (fun i v => upd v (i + 2 * h) (v (i + 2 * h)%nat + a h * a (h + i)%nat * cv i)) v) zero_array.
Definition leg2cheb (N : nat) (transpose : bool) (c : nat -> R) : nat -> R :=
  if transpose then leg2cheb_loops_T N Lam c else leg2cheb_loops N Lam c.
(** dlt.py 361-420, slices; ck = pi, pi/2, pi/2, ... *)
Definition py_ck (i : nat) : R := if Nat.eqb i 0 then PI else PI / 2.
Definition leg2cheb_py (N : nat) (transpose : bool) (cl : nat -> R) : nat -> R :=
  if transpose then
    let cx := fun i => cl i / py_ck i in
    for_up (evens N) 0 (fun h cc i => if (Nat.leb (2 * h) i && Nat.ltb i N)%bool then cc i + Lam h * Lam (h + (i - 2 * h)) * cx (i - 2 * h)%nat else cc i) zero_array
  else
    let cc := for_up (evens N) 0 (fun h cc i => if Nat.ltb i (N - 2 * h) then cc i + Lam h * Lam (h + i) * cl (2 * h + i)%nat else cc i) zero_array in
    fun i => cc i / py_ck i.

(** ** cheb2leg *)
(** a[k] = 1/(2*Lambda(k)*k*(k+0.5)), a[0] = 2/sqrt(pi); dn[h] = Lambda(h-1)/(2h), h >= 1 *)
Definition c2l_a (k : nat) : R := if Nat.eqb k 0 then 2 / sqrt PI else 1 / (2 * Lam k * INR k * (INR k + / 2)).
Definition c2l_dn (h : nat) : R := Lam (h - 1) / INR (2 * h).
(** numba/transforms.py 283-292, cython/transforms.pyx 630-663 *)
Definition c2l_vn (N : nat) (v : nat -> R) : nat -> R := for_up (N - 1) 1 (fun i vn => upd vn i (v i * INR i)) (upd zero_array 0 (v 0%nat)).
Definition c2l_sub (H N : nat) (a dn vn : nat -> R) (c : nat -> R) : nat -> R :=
  for_up H 1 (fun h c => for_up (N - 2 * h) 0 (fun i c => upd c i (c i - dn h * a (h + i)%nat * vn (2 * h + i)%nat)) c) c.
Definition cheb2leg (N : nat) (v : nat -> R) : nat -> R :=
  let vn := c2l_vn N v in
  let c := for_up N 0 (fun n c => upd c n (sqrt PI * c2l_a n * vn n)) zero_array in
  (* range(2, N, 2): h = 1, ..., (N-1)/2 *)
  let c := c2l_sub ((N - 1) / 2) N c2l_a c2l_dn vn c in
  for_up N 0 (fun n c => upd c n (c n * (INR n + / 2))) c.
(** dlt.py 422-475, slices *)
Definition cheb2leg_py (N : nat) (cc : nat -> R) : nat -> R :=
  let vn := fun i => if Nat.eqb i 0 then cc 0%nat else cc i * INR i in
  let cl := fun i => if Nat.ltb i N then sqrt PI * c2l_a i * vn i else 0 in
  let cl := for_up ((N - 1) / 2) 1 (fun h cl i => if Nat.ltb i (N - 2 * h) then cl i - c2l_dn h * c2l_a (h + i) * vn (2 * h + i)%nat else cl i) cl in
  fun i => if Nat.ltb i N then cl i * (INR i + / 2) else cl i.

(** ** the classes, N <= use_direct, arrays with more than one dimension *)
(** cython/leg2chebm.pyx 150-177 with transforms.pyx 905-934 (n0 = N) *)
Definition direct1 (n0 N : nat) (trans : bool) (a u : nat -> R) : nat -> R :=
  if trans then for_up n0 0 (fun h v => for_up (N - 2 * h) 0 (fun i v => upd v (2 * h + i) (v (2 * h + i)%nat + a h * a (h + i)%nat * u i)) v) zero_array
  else for_up n0 0 (fun h v => for_up (N - 2 * h) 0 (fun i v => upd v i (v i + a h * a (h + i)%nat * u (2 * h + i)%nat)) v) zero_array.
Definition Leg2Cheb_direct (N : nat) (transpose : bool) (u : nat -> R) : nat -> R :=
  let scale := fun f => let f := for_up N 0 (fun i f => upd f i (f i * (2 / PI))) f in upd f 0 (f 0%nat * / 2) in
  if transpose then direct1 N N true Lam (scale u) else scale (direct1 N N false Lam u).
(** cython/leg2chebm.pyx 218-243 with transforms.pyx 1059-1083 (n0 = N//2; range(2, 2*n0, 2)) *)
Definition direct4 (n0 N : nat) (a dn u v : nat -> R) : nat -> R :=
  let v := for_up N 0 (fun i v => upd v i (v i + sqrt PI * a i * u i)) v in
  c2l_sub (n0 - 1) N a dn u v.
Definition Cheb2Leg_direct (N : nat) (v : nat -> R) : nat -> R :=
  let w0 := for_up (N - 1) 1 (fun i w => upd w i (w i * INR i)) v in
  let out := direct4 (N / 2) N c2l_a c2l_dn w0 zero_array in
  for_up N 0 (fun i c => upd c i (c i * (INR i + / 2))) out.

(** dlt.py 1038-1072 FMMLeg2Cheb.__call__: the same with n0 = N//2 *)
Definition FMMLeg2Cheb_direct (N : nat) (transpose : bool) (u : nat -> R) : nat -> R :=
  let scale := fun f => let f := for_up N 0 (fun i f => upd f i (f i * (2 / PI))) f in upd f 0 (f 0%nat * / 2) in
  if transpose then direct1 (N / 2) N true Lam (scale u) else scale (direct1 (N / 2) N false Lam u).

(** ** BTLmat, chebyshev/matrices.py 190-204 (test and trial of the same size N): for n in range(0, N, 2);
    with Gauss-Lobatto points of the test space the last entry of the main diagonal is doubled *)
Definition c_BTL (q : quad) (N : nat) : smat RFld :=
  mkSmat RFld N N 1 (map (fun h => (Z.of_nat (2 * h), Arr RFld (N - 2 * h) (fun i =>
     Lam h * Lam (i + h) * (if (match q with GL => true | LG => false end && Nat.eqb h 0 && Nat.eqb i (N - 1))%bool then 2 else 1)))) (seq 0 (evens N))).
(** 206-221 matvec: a[n//2]*a[n//2:N-n//2]*v[n:] *)
Definition BTL_matvec (N : nat) (v : nat -> R) : nat -> R :=
  for_up (evens N) 0 (fun h c i => if Nat.ltb i (N - 2 * h) then c i + Lam h * Lam (h + i) * v (2 * h + i)%nat else c i) zero_array.
