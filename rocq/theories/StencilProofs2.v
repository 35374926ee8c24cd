(** StencilProofs2.v -- the Chebyshev stencils (first and second kind). *)
From Coq Require Import Reals Lra Lia ZArith String List Arith.
From Verif Require Import Base Fld SparseModel SparseSpec RPoly StencilModel StencilSpec StencilProofs.
Import ListNotations.
Local Open Scope R_scope.

Lemma chebyshev_ok : Forall (bcs_ok chebT) chebyshev_classes.
Proof. unfold chebyshev_classes. repeat (apply Forall_cons; [ solve_class chebT_right chebT_left |]). apply Forall_nil. Qed.

Lemma chebyshevu_ok : Forall (bcs_ok chebU) chebyshevu_classes.
Proof. unfold chebyshevu_classes. repeat (apply Forall_cons; [ solve_class chebU_right chebU_left |]). apply Forall_nil. Qed.
Lemma chebyshevu_lower_ok : bcs_ok chebU (with_bcs chebyshevu_LowerDirichlet [mkBc Left 0]).
Proof.
  cbv [with_bcs chebyshevu_LowerDirichlet sc_name sc_stencil]. solve_class chebU_right chebU_left.
Qed.
