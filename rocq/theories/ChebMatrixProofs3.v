(** ChebMatrixProofs3.v -- the mass matrices, for every array of squared norms that has pi/2 between
    its first and its last item. *)
From Coq Require Import Reals Lra Lia List Arith ZArith.
From Verif Require Import Base Fld SparseModel SparseSpec RPoly StencilModel StencilModel2 StencilSpec StencilProofs
  MatrixSpec MatrixProofs MatrixProofs2 LegMatrixModel LegMatrixSpec LegMatrixProofs LegMatrixProofs2 LegMatrixProofs5 LegMatrixProofs6
  ChebMatrixModel ChebMatrixSpec ChebMatrixProofs ChebMatrixProofs2.
Import ListNotations.
Local Open Scope R_scope.

Ltac dims := match goal with Hk : (_ < cspace_dim _ _)%nat, Hj : (_ < cspace_dim _ _)%nat |- _ => cbn [cspace_dim] in Hk, Hj end.
Ltac hpi h Hh := repeat match goal with |- context [h ?a] => rewrite (Hh a) by lia end.
Ltac cmass h Hh := unfold csum, T00h; cbn [cterms tsumf];
  entry; decide_nat; cbn [dget]; cbv zeta; change (@fmul RFld) with Rmult; change (@f0 RFld) with 0; change (@eq (car RFld)) with (@eq R);
  hpi h Hh; hnorm h; habs h; inrs; absx; try generalize PI; intros; try ring; try (field; neq0).
Section Mass.
  Variable h : nat -> R.
  Variable N : nat.
  Hypothesis Hh : forall i, (0 < i < N - 1)%nat -> h i = PI / 2.
  Notation D0 := (T00h h).
  Ltac go n k j e := intros k j ? ?; dims; split2 k j e; (peel e n; try (exfalso; lia)); cmass h Hh.
  Lemma c_BTT_v sc : cvals D0 sc N CT CT (c_BTT h N). Proof. unfold c_BTT. go 1%nat k j e. Qed.
  Lemma c_BSDSD_v sc : cvals D0 sc N CSD CSD (c_BSDSD h N). Proof. unfold c_BSDSD. go 3%nat k j e. Qed.
  Lemma c_BSNSD_v sc : cvals D0 sc N CSN CSD (c_BSNSD h N). Proof. unfold c_BSNSD. go 3%nat k j e. Qed.
  Lemma c_BSDSN_v sc : cvals D0 sc N CSD CSN (c_BSDSN h N). Proof. unfold c_BSDSN. go 3%nat k j e. Qed.
  Lemma c_BLDLD_v sc : cvals D0 sc N CLD CLD (c_BLDLD h N). Proof. unfold c_BLDLD. go 2%nat k j e. Qed.
  Lemma c_BSNSN_v sc : cvals D0 sc N CSN CSN (c_BSNSN h N). Proof. unfold c_BSNSN. go 3%nat k j e. Qed.
  Lemma c_BSDT_v sc : cvals D0 sc N CSD CT (c_BSDT h N). Proof. unfold c_BSDT. go 3%nat k j e. Qed.
  Lemma c_BTSD_v sc : cvals D0 sc N CT CSD (c_BTSD h N). Proof. unfold c_BTSD. go 3%nat k j e. Qed.
  Lemma c_BTSN_v sc : cvals D0 sc N CT CSN (c_BTSN h N). Proof. unfold c_BTSN. go 3%nat k j e. Qed.
  Lemma c_BSBSB_v sc : cvals D0 sc N CSB CSB (c_BSBSB h N). Proof. unfold c_BSBSB. go 5%nat k j e. Qed.
  Lemma c_BSBSD_v sc : cvals D0 sc N CSB CSD (c_BSBSD h N). Proof. unfold c_BSBSD. go 5%nat k j e. Qed.
  Lemma c_BSBT_v sc : cvals D0 sc N CSB CT (c_BSBT h N). Proof. unfold c_BSBT. go 5%nat k j e. Qed.
End Mass.
