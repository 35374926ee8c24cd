(** EvalModel.v -- evaluation of expansions: Clenshaw (optimization/numba/chebyshev.py,
    optimization/cython/{Cheb,transforms}.pyx) and the three term recursions of
    optimization/{numba/transforms.py,cython/transforms.pyx}. *)
From Coq Require Import Arith ZArith Reals List.
From Verif Require Import Base Fld.
Import ListNotations.

Section Eval.
  Variable K : Fld.
  Local Open Scope fld_scope.

  (** numba/chebyshev.py:22-44 _chebval, cython/Cheb.pyx:35-61 _chebval,
      cython/transforms.pyx:451-480 chebval, for one point x[j] (every loop over points
      treats them independently); c[-i] is c[N-i].  N >= 1. *)
  Definition chebval (x : K) (c : nat -> K) (N : nat) : K :=
    let '(c0, c1) :=
      if Nat.eqb N 1 then (c 0%nat, 0)
      else if Nat.eqb N 2 then (c 0%nat, c 1%nat)
      else
        let x2 := (1 + 1) * x in
        for_up (N + 1 - 3) 3 (fun i s => let '(c0, c1) := s in (c (N - i)%nat - c1, c0 + c1 * x2)) (c (N - 2)%nat, c (N - 1)%nat) in
    c0 + x * c1.
  (** cython/transforms.pyx:417-449 chebvalS, chebvalC: no special cases (M >= 2) *)
  Definition chebvalS (x : K) (c : nat -> K) (M : nat) : K :=
    let x2 := (1 + 1) * x in
    let '(c0, c1) := for_up (M + 1 - 3) 3 (fun i s => let '(c0, c1) := s in (c (M - i)%nat - c1, c0 + c1 * x2)) (c (M - 2)%nat, c (M - 1)%nat) in
    c0 + c1 * x.

  (** The recursion matrix in scipy's dia format: column j of the row of offset d holds A[j-d, j].
      Offsets -1, (0), 1 give anm[j] = A[j+1,j], ann[j] = A[j,j], anp[j] = A[j-1,j] *)
  Record rec_coeffs := mkRec { anm : nat -> K; ann : nat -> K; anp : nat -> K }.

  (** the work arrays Lnm, Ln, Lnp over the points *)
  Record rec_state := mkRecSt { Lnm : nat -> K; Ln : nat -> K; Lnp : nat -> K }.
  (** numba/transforms.py:170-171, 202-203; transforms.pyx:265-267, 321-323: start values *)
  Definition rec_start (a : rec_coeffs) (xj : nat -> K) : rec_state :=
    let L0 := fun _ : nat => 1 in
    let L1 := fun j => (xj j - ann a 0%nat) / anm a 0%nat in
    mkRecSt L0 L1 (fun j => (xj j - ann a 1%nat) / anm a 1%nat * L1 j - anp a 1%nat / anm a 1%nat * L0 j).
  (** the three assignments Lnm[j] = Ln[j]; Ln[j] = Lnp[j]; Lnp[j] = s1*(xj[j]-a00)*Ln[j] - s2*Lnm[j]
      with s1 = 1/anm[k+2], s2 = anp[k+2]/anm[k+2], a00 = ann[k+2] *)
  Definition rec_shift (a : rec_coeffs) (xj : nat -> K) (k j : nat) (s : rec_state) : rec_state :=
    let lnm := upd (Lnm s) j (Ln s j) in
    let ln := upd (Ln s) j (Lnp s j) in
    mkRecSt lnm ln (upd (Lnp s) j (1 / anm a (k + 2) * (xj j - ann a (k + 2)%nat) * ln j - anp a (k + 2)%nat / anm a (k + 2) * lnm j)).

  (** numba/transforms.py:188-212 and transforms.pyx:222-280 _evaluate_expansion_all: M = number of
      coefficients, N = number of points *)
  Definition evaluate_expansion_all (a : rec_coeffs) (xj u : nat -> K) (M N : nat) : nat -> K :=
    fst (for_up M 0 (fun k so =>
      for_up N 0 (fun j so => let '(out, s) := so in (upd out j (out j + Lnm s j * u k), rec_shift a xj k j s)) so)
      (fun _ => 0, rec_start a xj)).

  (** numba/transforms.py:158-185 _scalar_product: M = length of the output, N = number of points *)
  Definition scalar_product_numba (a : rec_coeffs) (xj wj u : nat -> K) (M N : nat) (out0 : nat -> K) : nat -> K :=
    fst (for_up M 0 (fun k so =>
      let '(out, st) := so in
      let '(sum, st) := for_up N 0 (fun j so => let '(sum, s) := so in (sum + Lnm s j * wj j * u j, rec_shift a xj k j s)) (0, st) in
      (upd out k sum, st)) (out0, rec_start a xj)).
  (** transforms.pyx:282-341 _scalar_product_ptr: N = length of the input, Nx = length of the output;
      line 325 loops over i in range(N), line 330 over j in range(Nx), lines 319-323 over range(Nx) *)
  Definition scalar_product_cython (a : rec_coeffs) (xj wj u : nat -> K) (N Nx : nat) (out0 : nat -> K) : nat -> K :=
    let out0 := for_up Nx 0 (fun i out => upd out i 0) out0 in
    fst (for_up N 0 (fun i so =>
      let '(out, st) := so in
      let '(sum, st) := for_up Nx 0 (fun j so => let '(sum, s) := so in (sum + Lnm s j * wj j * u j, rec_shift a xj i j s)) (0, st) in
      (upd out i sum, st)) (out0, rec_start a xj)).

  (** numba/transforms.py:214-240 _restricted_product: M outputs, points i0 <= j < i1, first mode a0;
      P0 = evaluate_basis(x, a0), P1 = evaluate_basis(x, a0+1) *)
  Definition restricted_product_numba (a : rec_coeffs) (xj P0 P1 u : nat -> K) (i0 i1 a0 M : nat) (out0 : nat -> K) : nat -> K :=
    let x := fun j => xj (i0 + j)%nat in
    let L2 := fun j => (x j - ann a (1 + a0)%nat) / anm a (1 + a0)%nat * P1 j - anp a (1 + a0)%nat / anm a (1 + a0)%nat * P0 j in
    fst (for_up M 0 (fun k so =>
      let '(out, st) := so in
      let '(sum, st) := for_up (i1 - i0) 0 (fun j so => let '(sum, s) := so in (sum + Lnm s j * u (i0 + j)%nat, rec_shift a x (k + a0) j s)) (0, st) in
      (upd out k sum, st)) (out0, mkRecSt P0 P1 L2)).
  (** transforms.pyx:133-172, 344-398 _restricted_product_ptr: the columns a0, a0+1, .. of the matrix and
      three values of the basis are passed on *)
  Definition restricted_product_cython (a : rec_coeffs) (xj P0 P1 P2 u : nat -> K) (i0 i1 a0 M : nat) (out0 : nat -> K) : nat -> K :=
    let ax := mkRec (fun j => anm a (a0 + j)%nat) (fun j => ann a (a0 + j)%nat) (fun j => anp a (a0 + j)%nat) in
    let x := fun j => xj (i0 + j)%nat in
    fst (for_up M 0 (fun k so =>
      let '(out, st) := so in
      let '(sum, st) := for_up (i1 - i0) 0 (fun j so => let '(sum, s) := so in (sum + Lnm s j * u (i0 + j)%nat, rec_shift ax x k j s)) (0, st) in
      (upd out k sum, st)) (out0, mkRecSt P0 P1 P2)).
End Eval.
