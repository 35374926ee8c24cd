(** StencilSpec.v -- specification: basis functions of a composite space and homogeneous
    boundary conditions. *)
From Coq Require Import Reals List Arith.
From Verif Require Import Base Fld SparseModel SparseSpec RPoly StencilModel.
Import ListNotations.
Local Open Scope R_scope.

(** row k of the stencil matrix S holds the coefficients of basis function k in the
    orthogonal polynomials P *)
Definition basis_function (P : nat -> poly) (S : smat RFld) (k : nat) : poly :=
  pcomb (sm_cols RFld S) (fun j => mat_entry RFld S k j) P.

(** on the reference domain [-1, 1] *)
Definition end_point (s : side) : R := match s with Left => -1 | Right => 1 end.
Definition satisfies (p : poly) (c : bcond) : Prop := deriv_at (bc_order c) p (end_point (bc_side c)) = 0.

(** every basis function of the space (there are N minus the number of boundary conditions)
    satisfies every boundary condition of the space *)
Definition bcs_ok (P : nat -> poly) (cls : stencil_class) : Prop :=
  forall N k, (k < N - length (sc_bcs cls))%nat ->
    Forall (satisfies (basis_function P (stencil_matrix cls N) k)) (sc_bcs cls).
