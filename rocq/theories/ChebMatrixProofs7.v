(** ChebMatrixProofs7.v -- Heinrichs. *)
From Coq Require Import Reals Lra Lia List Arith ZArith.
From Verif Require Import Base Fld SparseModel SparseSpec RPoly StencilModel StencilModel2 StencilSpec StencilProofs
  MatrixSpec MatrixProofs MatrixProofs2 LegMatrixModel LegMatrixSpec LegMatrixProofs LegMatrixProofs2 LegMatrixProofs5 LegMatrixProofs6
  ChebMatrixModel ChebMatrixSpec ChebMatrixProofs ChebMatrixProofs2 ChebMatrixProofs3 ChebMatrixProofs4 ChebMatrixProofs6.
Import ListNotations.
Local Open Scope R_scope.

Section Heinrichs.
  Variable h : nat -> R.
  Variable N : nat.
  Hypothesis H0 : h 0%nat = PI.
  Hypothesis Hh : forall i, (0 < i < N - 1)%nat -> h i = PI / 2.
  Ltac hht := unfold csum, c02; cbn [cterms tsumf];
    entry; decide_nat; pars; cbn [dget]; cbv zeta; decide_nat; change (@fmul RFld) with Rmult; change (@f0 RFld) with 0;
    change (@eq (car RFld)) with (@eq R); rewrite ?H0; hpi h Hh;
    cbn [Nat.add]; repeat first [rewrite plus_INR|rewrite S_INR]; cbn [INR]; absx; genPI; try ring; try (field; nz).
  Lemma c_ASDHH_v sc : cvals c02 sc N CSD CHH (c_ASDHH h N sc).
  Proof. destruct sc; unfold c_ASDHH; rows k j e hht. Qed.
End Heinrichs.
