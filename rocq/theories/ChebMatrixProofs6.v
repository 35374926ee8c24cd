(** ChebMatrixProofs6.v -- Heinrichs, CombinedShenNeumann and MikNeumann. *)
From Coq Require Import Reals Lra Lia List Arith ZArith.
From Verif Require Import Base Fld SparseModel SparseSpec RPoly StencilModel StencilModel2 StencilSpec StencilProofs
  MatrixSpec MatrixProofs MatrixProofs2 LegMatrixModel LegMatrixSpec LegMatrixProofs LegMatrixProofs2 LegMatrixProofs5 LegMatrixProofs6
  ChebMatrixModel ChebMatrixSpec ChebMatrixProofs ChebMatrixProofs2 ChebMatrixProofs3 ChebMatrixProofs4.
Import ListNotations.
Local Open Scope R_scope.

Lemma PI_neq : PI <> 0. Proof. apply PI_neq0. Qed.
Ltac genPI := let H := fresh "Hpi" in pose proof PI_RGT_0 as H; unfold Rgt in H; set (pi := PI) in *; clearbody pi.
Ltac nz := repeat split; (apply Rgt_not_eq, Rlt_gt; first [pos | lra]).
Ltac cnt := unfold csum, c02; cbn [cterms tsumf];
  entry; decide_nat; pars; cbn [dget]; cbv zeta; decide_nat; change (@fmul RFld) with Rmult; change (@f0 RFld) with 0;
  change (@eq (car RFld)) with (@eq R); cbn [Nat.add]; repeat first [rewrite plus_INR|rewrite S_INR]; cbn [INR]; absx; genPI; try ring; try (field; nz).
(** rows 0, 1, 2 are special *)
Ltac rows k j e t := intros k j ? ?; dims;
  destruct (le_lt_dec 3 k); destruct (le_lt_dec 3 j);
  [ destruct k as [|[|[|k]]]; try (exfalso; lia); destruct j as [|[|[|j]]]; try (exfalso; lia); split2 k j e; (peel e 5%nat; try (exfalso; lia)); try halve e
  | destruct j as [|[|[|j]]]; try (exfalso; lia); destruct k as [|[|[|k]]]; try (exfalso; lia); (peel k 3%nat; try (exfalso; lia)); try halve k
  | destruct k as [|[|[|k]]]; try (exfalso; lia); destruct j as [|[|[|j]]]; try (exfalso; lia); (peel j 5%nat; try (exfalso; lia)); try halve j
  | destruct k as [|[|[|k]]]; try (exfalso; lia); destruct j as [|[|[|j]]]; try (exfalso; lia) ]; t.

Section Neumann.
  Variable N : nat.
  Lemma c_ACNCN_v sc : cvals c02 sc N CCN CCN (c_ACNCN N).
  Proof. unfold c_ACNCN. rows k j e cnt. Qed.
  Lemma c_ASDMN_v sc : cvals c02 sc N CSD CMN (c_ASDMN N).
  Proof. unfold c_ASDMN. rows k j e cnt. Qed.
  Lemma c_ASNCN_v sc : cvals c02 sc N CSN CCN (c_ASNCN N).
  Proof. unfold c_ASNCN. rows k j e cnt. Qed.
End Neumann.
