(** MatvecSpec.v -- what a matrix-vector product must return. *)
From Coq Require Import Reals ZArith Arith.
From Verif Require Import Base Fld SparseModel SparseSpec RPoly StencilModel.
Local Open Scope R_scope.

(** row k of the product of the matrix represented by the object A with v *)
Definition product (A : smat RFld) (v : nat -> R) (k : nat) : R :=
  gsum 0 Rplus (sm_cols RFld A) (fun j => mat_entry RFld A k j * v j).
(** the returned array: the product, and zeros in the remaining entries (v and c have the size of
    the quadrature mesh) *)
Definition is_product (A : smat RFld) (v c : nat -> R) : Prop :=
  (forall k, (k < sm_rows RFld A)%nat -> c k = product A v k) /\ (forall k, (sm_rows RFld A <= k)%nat -> c k = 0).
(** a scale that SpectralMatrix.scale_array applies exactly: 1, or different from 1 by more than 1e-8 *)
Definition proper_scale (s : R) : Prop := s = 1 \/ Rabs (s - 1) > 1 / 10 ^ 8.
(** a unit vector *)
Definition unit_vec (j i : nat) : R := if Nat.eqb i j then 1 else 0.
(** the rows of a combination of matrices with n columns applied to v, and the returned array *)
Definition rows_product (n : nat) (A : nat -> nat -> R) (v c : nat -> R) : Prop :=
  forall k, (k < n)%nat -> c k = gsum 0 Rplus n (fun j => A k j * v j).
(** a call returns the product *)
Definition returns_product (o : option (nat -> R)) (A : smat RFld) (v : nat -> R) : Prop := exists c, o = Some c /\ is_product A v c.
