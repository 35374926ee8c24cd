(** ChebUMatModel.v -- the matrices of chebyshevu/matrices.py.

    Each definition is the dictionary returned by the assemble method of the class, with the shape (test.dim(), trial.dim()) given
    by SpectralMatrix.__init__ (matrixbase.py 623-700), for a test and a trial space of the same size N.  [scaled] is
    test[0].is_scaled().  M.diagonal(d) is the function of its index, with the length scipy gives it; Lmat and the stencil
    matrix are those of GenModel.v.  Exact real arithmetic instead of doubles.  The assertions on the classes are left out. *)
From Coq Require Import Reals ZArith List Arith.
From Verif Require Import Base Fld SparseModel SparseSpec RPoly StencilModel StencilModel2 LegMatrixModel GenModel GenProofs4 GenProofs7 UTransModel.
Import ListNotations.
Local Open Scope R_scope.

(** spectralbase.py 2344-2368 get_norm_sq *)
Definition u_norm_sq (quadrature : bool) (q : uquad) (N i : nat) : R := if quadrature then u_l2_norm_sq q N i else u_L2_norm_sq.
(** chebyshevu/matrices.py 83-87 *)
Definition u_BUU (h : nat -> R) (N : nat) : smat RFld := dmat N N [(0%Z, arr N h)].
(** 101-117 (ShenDirichlet) and 156-171 (ShenNeumann): B2 * K.T, B2 with rows multiplied by k+2 unless the test space is scaled *)
Definition u_BP1 (scaled : bool) (trial : stencil_class) (N : nat) : smat RFld :=
  let B2 := fun i j => (if scaled then 1 else INR i + 2) * Lmat 2 0 2 (N - 2) N (T_am 2) T_bm i j in
  let M := mmul N B2 (tr (stencil (space_of trial N))) in
  dmat (N - 2) (N - 2)
    [((-2)%Z, arr (N - 2 - 2) (fun i => M (i + 2)%nat i)); (0%Z, arr (N - 2) (fun i => M i i));
     (2%Z, arr (N - 2 - 2) (fun i => M i (i + 2)%nat)); (4%Z, arr (N - 2 - 4) (fun i => M i (i + 4)%nat))].
Definition u_BP1SD (scaled : bool) (N : nat) : smat RFld := u_BP1 scaled chebyshev_ShenDirichlet N.
Definition u_BP1SN (scaled : bool) (N : nat) : smat RFld := u_BP1 scaled chebyshev_ShenNeumann N.
(** 131-139 *)
Definition u_AP1SD (scaled : bool) (N : nat) : smat RFld :=
  dmat (N - 2) (N - 2)
    (if scaled then [(0%Z, Scal RFld (-1)); (2%Z, Scal RFld 1)]
     else [(0%Z, arr (N - 2) (fun i => - (INR i + 2))); (2%Z, arr (N - 2 - 2) (fun i => INR i + 2))]).
(** 185-193 *)
Definition u_AP1SN (scaled : bool) (N : nat) : smat RFld :=
  dmat (N - 2) (N - 2)
    (if scaled then [(0%Z, arr (N - 2) (fun i => - (INR i / (INR i + 2)) ^ 2)); (2%Z, Scal RFld 1)]
     else [(0%Z, arr (N - 2) (fun i => - INR i ^ 2 / (INR i + 2))); (2%Z, arr (N - 2 - 2) (fun i => INR i + 2))]).

(** 200-206 the dictionary: test functions (not differentiated), trial functions (orthogonal polynomials of the second kind,
    or a class of chebyshev/bases.py), derivatives of the trial function, the matrix *)
Inductive uspace := UOrth | UPhi1 | TSD | TSN.
Record uentry := mkUentry { ue_test : uspace; ue_trial : uspace; ue_d : nat; ue_mat : smat RFld }.
Definition chebyshevu_mat (h : nat -> R) (scaled : bool) (N : nat) : list uentry :=
  [mkUentry UOrth UOrth 0 (u_BUU h N);
   mkUentry UPhi1 TSD 0 (u_BP1SD scaled N);
   mkUentry UPhi1 TSN 0 (u_BP1SN scaled N);
   mkUentry UPhi1 TSD 2 (u_AP1SD scaled N);
   mkUentry UPhi1 TSN 2 (u_AP1SN scaled N)].
