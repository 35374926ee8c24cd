(** StencilProofs3.v -- the Legendre stencils. *)
From Coq Require Import Reals Lra Lia ZArith String List Arith.
From Verif Require Import Base Fld SparseModel SparseSpec RPoly StencilModel StencilSpec StencilProofs.
Import ListNotations.
Local Open Scope R_scope.

Lemma legendre_ok : Forall (bcs_ok legL) legendre_classes.
Proof. unfold legendre_classes. repeat (apply Forall_cons; [ solve_class legL_right legL_left |]). apply Forall_nil. Qed.
