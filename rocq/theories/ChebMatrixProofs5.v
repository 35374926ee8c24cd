(** ChebMatrixProofs5.v -- dense matrices. *)
From Coq Require Import Reals Lra Lia List Arith ZArith.
From Verif Require Import Base Fld SparseModel SparseSpec RPoly StencilModel StencilModel2 StencilSpec StencilProofs
  MatrixSpec MatrixProofs MatrixProofs2 LegMatrixModel LegMatrixSpec LegMatrixProofs LegMatrixProofs2 LegMatrixProofs5 LegMatrixProofs6
  ChebMatrixModel ChebMatrixSpec ChebMatrixProofs ChebMatrixProofs2 ChebMatrixProofs3 ChebMatrixProofs4.
Import ListNotations.
Local Open Scope R_scope.

Ltac decide_z := repeat match goal with
  | |- context [Z.leb ?a ?b] => destruct (Z.leb_spec a b); [try (exfalso; lia)|try (exfalso; lia)]
  | |- context [Z.ltb ?a ?b] => destruct (Z.ltb_spec a b); [try (exfalso; lia)|try (exfalso; lia)]
  | |- context [Z.eqb ?a ?b] => destruct (Z.eqb_spec a b); [try (exfalso; lia)|try (exfalso; lia)]
  end.
Ltac evz := try match goal with |- context [Z.even ?z] => let E := fresh "E" in destruct (Z.even z) eqn:E;
  [apply Z.even_spec in E; destruct E as [? E]; try (exfalso; lia) |
   rewrite <- Z.negb_odd in E; apply Bool.negb_false_iff in E; apply Z.odd_spec in E; destruct E as [? E]; try (exfalso; lia)] end.
Ltac zdiff := try match goal with
  | |- context [(Z.of_nat (?a + ?k) - Z.of_nat ?k)%Z] => replace (Z.of_nat (a + k) - Z.of_nat k)%Z with (Z.of_nat a) by lia
  | |- context [(Z.of_nat ?k - Z.of_nat (?a + ?k))%Z] => replace (Z.of_nat k - Z.of_nat (a + k))%Z with (- Z.of_nat a)%Z by lia
  end.
Ltac dtab := rewrite fromkeys_entry; cbv zeta; zdiff; decide_z; cbn [andb]; evz; rewrite ?Nat2Z.id;
  unfold csum, c01, c02, c04, arr; cbn [cterms tsumf];
  decide_nat; pars; cbn [dget]; cbv zeta; change (@fmul RFld) with Rmult; change (@f0 RFld) with 0;
  change (@eq (car RFld)) with (@eq R); cbn [Nat.add]; repeat first [rewrite plus_INR|rewrite S_INR]; cbn [INR]; absx; try generalize PI; intros; try ring; try (field; neq0).
Ltac god n k j e := intros k j ? ?; dims; split2 k j e; (peel e n; try (exfalso; lia)); try halve e; dtab.

Section Dense.
  Variable N : nat.
  Lemma c_CTT_v sc : cvals c01 sc N CT CT (c_CTT N). Proof. unfold c_CTT. god 2%nat k j e. Qed.
  Lemma c_CTSD_v sc : cvals c01 sc N CT CSD (c_CTSD N). Proof. unfold c_CTSD. god 3%nat k j e. Qed.
  Lemma c_CSNSD_v sc : cvals c01 sc N CSN CSD (c_CSNSD N). Proof. unfold c_CSNSD. god 4%nat k j e. Qed.
  Lemma c_ASDSD_v sc : cvals c02 sc N CSD CSD (c_ASDSD N). Proof. unfold c_ASDSD. god 4%nat k j e. Qed.
  Lemma c_ASNSN_v sc : cvals c02 sc N CSN CSN (c_ASNSN N). Proof. unfold c_ASNSN. god 4%nat k j e. Qed.
  Lemma c_ATT_v sc : cvals c02 sc N CT CT (c_ATT N). Proof. unfold c_ATT. god 3%nat k j e. Qed.
  Lemma c_ATSD_v sc : cvals c02 sc N CT CSD (c_ATSD N). Proof. unfold c_ATSD. god 3%nat k j e. Qed.
  Lemma c_ATSN_v sc : cvals c02 sc N CT CSN (c_ATSN N). Proof. unfold c_ATSN. god 3%nat k j e. Qed.
  Lemma c_SSBSB_v sc : cvals c04 sc N CSB CSB (c_SSBSB N). Proof. unfold c_SSBSB. god 6%nat k j e. Qed.
End Dense.
