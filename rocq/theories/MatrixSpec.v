(** MatrixSpec.v -- specification: integrals, weighted inner products of polynomials, and what it
    means for a matrix to hold the inner products of two sets of functions.

    The integral is the Riemann integral of Coq's standard library. *)
From Coq Require Import Reals List Arith ZArith.
From Verif Require Import Base Fld SparseModel SparseSpec RPoly.
Import ListNotations.
Local Open Scope R_scope.

Definition integral (f : R -> R) (a b v : R) : Prop :=
  exists pr : Riemann_integrable f a b, RiemannInt pr = v.

(** (u, v)_w over the reference domain of the Legendre family: int_(-1)^1 w u v dx *)
Definition leg_inner (w u v : R -> R) (r : R) : Prop := integral (fun x => w x * u x * v x) (-1) 1 r.
(** The Chebyshev family has the weight 1/sqrt(1-x^2); with x = cos(t) its inner product is
    int_0^pi u(cos t) v(cos t) dt *)
Definition cheb_inner (u v : R -> R) (r : R) : Prop := integral (fun t => u (cos t) * v (cos t)) 0 PI r.

(** a matrix with the given shape, whose entry (k, j) is related to (k, j) by [val] *)
Definition holds (rows cols : nat) (A : smat RFld) (val : nat -> nat -> R -> Prop) : Prop :=
  sm_rows RFld A = rows /\ sm_cols RFld A = cols /\
  forall k j, (k < rows)%nat -> (j < cols)%nat -> val k j (mat_entry RFld A k j).
