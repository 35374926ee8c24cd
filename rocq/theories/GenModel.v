(** GenModel.v -- matrices generated from stencils: assemble_stencil and assemble_phi of matrixbase.py, Lmat of
    jacobi/recursions.py.

    Matrices are functions of row and column (C08, C09 and C35 relate SparseMatrix to these); extract_diagonal_matrix keeps
    the diagonals within the given bands (C15), its tolerances are left out. *)
From Coq Require Import Reals ZArith List Bool Arith.
From Verif Require Import Base Fld SparseModel SparseSpec RPoly.
Import ListNotations.
Local Open Scope R_scope.
Notation rsum := (gsum 0 Rplus).
Definition mat := nat -> nat -> R.
Definition mmul (n : nat) (A B : mat) : mat := fun i j => rsum n (fun k => A i k * B k j).
Definition tr (A : mat) : mat := fun i j => A j i.
(** matrixbase.py 1761-1767: the diagonals -lb .. ub *)
Definition banded (lb ub : Z) (A : mat) : mat :=
  fun i j => let d := (Z.of_nat j - Z.of_nat i)%Z in if ((- lb <=? d) && (d <=? ub))%Z then A i j else 0.

(** a composite space: N, dim(), stencil_matrix(), family() *)
Record gspace := mkGspace { g_N : nat; g_dim : nat; g_S : smat RFld; g_fam : nat }.
Definition stencil (g : gspace) : mat := fun i k => mat_entry RFld (g_S g) i k.
(** the keys of the stencil matrix: the smallest and the largest *)
Definition keys (g : gspace) : list Z := map fst (sm_items RFld (g_S g)).
Definition first_key (g : gspace) : Z := fold_right Z.min (hd 0%Z (keys g)) (keys g).
Definition last_key (g : gspace) : Z := fold_right Z.max (hd 0%Z (keys g)) (keys g).

(** a polynomial measure, as split(measure, expand=True) returns it: coefficients and powers of x *)
Definition measure := list (R * nat).
(** sp.degree *)
Definition degree (m : measure) : nat := fold_right (fun t d => Nat.max (snd t) d) 0%nat m.
(** matrixbase.py 2020-2025: the sum over the terms of sc * pmat(a, qi) *)
Definition measure_matrix (Ax : nat -> mat) (m : measure) : mat :=
  fun i j => fold_right (fun t s => fst t * Ax (snd t) i j + s) 0 m.

(** 2026-2028 K * A.T * B * S.T, or K * B * S.T for measure 1 (None); B has test.N rows and trial.N columns *)
Definition product (test trial : gspace) (Ax : nat -> mat) (m : option measure) (B : mat) : mat :=
  let right := mmul (g_N trial) B (tr (stencil trial)) in
  match m with
  | None => mmul (g_N test) (stencil test) right
  | Some m => mmul (g_N test) (stencil test) (mmul (g_N test) (tr (measure_matrix Ax m)) right)
  end.
Definition degree_of (m : option measure) : Z := match m with None => 0%Z | Some m => Z.of_nat (degree m) end.

(** 2040-2060: the sparsity pattern read off rows 0 and 1 and columns 0 and 1 *)
Fixpoint last_nonzero (n : nat) (f : nat -> R) : option nat :=
  match n with O => None | S n => if Req_EM_T (f n) 0 then last_nonzero n f else Some n end.
Definition pattern_band (dim n : nat) (l0 l1 : nat -> R) : Z :=
  match last_nonzero n l0, last_nonzero n l1 with
  | None, None => 0%Z
  | r0, r1 => Z.max (match r0 with None => Z.of_nat dim | Some u => Z.of_nat u end)
                    (match r1 with None => Z.of_nat dim | Some u => (Z.of_nat u - 1)%Z end)
  end.
(** 2003-2062 _assemble_stencil; t and s are the numbers of derivatives of test and trial function *)
Definition assemble_stencil (test trial : gspace) (t s : nat) (Ax : nat -> mat) (m : option measure) (B : mat) : mat :=
  let A := product test trial Ax m B in
  let q := degree_of m in
  if ((t + s =? 0)%nat && (g_fam test =? g_fam trial)%nat)%bool then
    banded (- first_key test + last_key trial + q) (last_key test - first_key trial + q) A
  else
    let ub := pattern_band (g_dim trial) (g_dim trial) (A 0%nat) (A 1%nat) in
    let lb := pattern_band (g_dim test) (g_dim test) (fun i => A i 0%nat) (fun i => A i 1%nat) in
    banded lb ub A.

(** 1969-2001 _assemble_stencil_bc: the trial functions are the boundary functions with the nb x O matrix S; B has O columns *)
Definition assemble_stencil_bc (test : gspace) (O : nat) (S : mat) (Ax : nat -> mat) (m : option measure) (B : mat) : mat :=
  let right := mmul O B (tr S) in
  let A := match m with
           | None => mmul (g_N test) (stencil test) right
           | Some m => mmul (g_N test) (stencil test) (mmul (g_N test) (tr (measure_matrix Ax m)) right)
           end in
  banded (Z.of_nat O + degree_of m) (Z.of_nat O) A.

(** ** the test functions Phi_k *)
(** jacobi/recursions.py 604-644 Lmat; am q is the matrix of a_(k, q) and bm l the matrix b^l, ShiftedMatrix takes entries
    (m+k, n+k) and (m+k, n) (C35_shifted_matrix) *)
Definition Lmat (k q l M N : nat) (am bm : nat -> mat) : mat :=
  let eye := fun i j : nat => if (j =? i + k)%nat then 1 else 0 in
  let A := fun m n => am q (m + k)%nat (n + k)%nat in
  if ((l =? 0) && (q =? 0))%nat%bool then eye
  else if (l =? 0)%nat then mmul N A eye
  else if (q =? 0)%nat then fun m n => bm l (m + k)%nat n
  else mmul N A (fun m n => bm l (m + k)%nat n).
(** the sum over split(measure) *)
Definition Lsum (k l M N : nat) (am bm : nat -> mat) (m : measure) : mat :=
  fun i j => fold_right (fun t s => fst t * Lmat k (snd t) l M N am bm i j + s) 0 m.
(** matrixbase.py 2072-2102 _assemble_phi: orthogonal trial space of size N, or composite; s derivatives of the trial function.
    None: AssertionError.  The number of derivatives of the test function is not looked at *)
Definition assemble_phi_orth (test : gspace) (N s : nat) (am bm : nat -> mat) (m : measure) : option mat :=
  let k := ((g_N test - g_dim test) / 2)%nat in
  if (k <? s)%nat then None else
  let l := (k - s)%nat in
  let D := Lsum k l (g_dim test) N am bm m in
  let q := Z.of_nat (degree m) in
  Some (banded (q - Z.of_nat k + Z.of_nat l) (q + Z.of_nat k + Z.of_nat l) D).
Definition assemble_phi (test trial : gspace) (s : nat) (am bm : nat -> mat) (m : measure) : option mat :=
  let k := ((g_N test - g_dim test) / 2)%nat in
  if (k <? s)%nat then None else
  let l := (k - s)%nat in
  let D := Lsum k l (g_dim test) (g_N trial) am bm m in
  let q := Z.of_nat (degree m) in
  Some (banded (q - Z.of_nat k + Z.of_nat l + last_key trial) (q + Z.of_nat k + Z.of_nat l - first_key trial)
          (mmul (g_N trial) D (tr (stencil trial)))).
(** 2104-2131 _assemble_phi_bc; {0: 1} if k > N *)
Definition assemble_phi_bc (test : gspace) (O : nat) (S : mat) (s : nat) (am bm : nat -> mat) (m : measure) : option mat :=
  let k := ((g_N test - g_dim test) / 2)%nat in
  if (k <? s)%nat then None else
  let l := (k - s)%nat in
  if (k <=? O)%nat then
    Some (banded (Z.of_nat O + Z.of_nat (degree m)) (Z.of_nat O) (mmul O (Lsum k l (g_dim test) O am bm m) (tr S)))
  else Some (fun i j => if (i =? j)%nat then 1 else 0).
