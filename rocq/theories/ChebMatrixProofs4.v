(** ChebMatrixProofs4.v -- banded matrices with derivatives. *)
From Coq Require Import Reals Lra Lia List Arith ZArith.
From Verif Require Import Base Fld SparseModel SparseSpec RPoly StencilModel StencilModel2 StencilSpec StencilProofs
  MatrixSpec MatrixProofs MatrixProofs2 LegMatrixModel LegMatrixSpec LegMatrixProofs LegMatrixProofs2 LegMatrixProofs5 LegMatrixProofs6
  ChebMatrixModel ChebMatrixSpec ChebMatrixProofs ChebMatrixProofs2 ChebMatrixProofs3.
Import ListNotations.
Local Open Scope R_scope.

Ltac par := cbn [Nat.add]; repeat first [rewrite Nat.even_add | rewrite Nat.even_succ; unfold Nat.odd];
  repeat match goal with |- context [Nat.even ?v] => is_var v; destruct (Nat.even v) end; reflexivity.
Ltac pars := repeat match goal with
  | |- context [odd1 ?n ?m] => first [rewrite (odd1_0 n m) by par | rewrite (odd1_1 n m) by par]
  | |- context [even1 ?n ?m] => first [rewrite (even1_0 n m) by par | rewrite (even1_1 n m) by par]
  end.
Ltac ctab := unfold csum, c01, c02, c04; cbn [cterms tsumf];
  entry; decide_nat; pars; cbn [dget]; cbv zeta; change (@fmul RFld) with Rmult; change (@f0 RFld) with 0;
  change (@eq (car RFld)) with (@eq R); cbn [Nat.add]; repeat first [rewrite plus_INR|rewrite S_INR]; cbn [INR]; absx; try generalize PI; intros; try ring; try (field; neq0).
(** e = 2 i or 2 i + 1 *)
Lemma halves (e : nat) : exists i, e = (i + i)%nat \/ e = S (i + i).
Proof. exists (Nat.div2 e). pose proof (Nat.div2_odd e). destruct (Nat.odd e); cbn [Nat.b2n] in H; [right|left]; lia. Qed.
Ltac halve e := let i := fresh "i" in let H := fresh "H" in destruct (halves e) as [i [H|H]]; subst e.
Ltac go n k j e := intros k j ? ?; dims; split2 k j e; (peel e n; try (exfalso; lia)); try halve e; ctab.

Section Banded.
  Variable N : nat.
  Lemma c_CSDSN_v sc : cvals c01 sc N CSD CSN (c_CSDSN N). Proof. unfold c_CSDSN. go 4%nat k j e. Qed.
  Lemma c_CSDSD_v sc : cvals c01 sc N CSD CSD (c_CSDSD N). Proof. unfold c_CSDSD. go 4%nat k j e. Qed.
  Lemma c_ASBT_v sc : cvals c02 sc N CSB CT (c_ASBT N). Proof. unfold c_ASBT. go 6%nat k j e. Qed.
  Lemma c_CSDT_v sc : cvals c01 sc N CSD CT (c_CSDT N). Proof. unfold c_CSDT. go 4%nat k j e. Qed.
  Lemma c_CSBSD_v sc : cvals c01 sc N CSB CSD (c_CSBSD N). Proof. unfold c_CSBSD. go 6%nat k j e. Qed.
  Lemma c_CSDSB_v sc : cvals c01 sc N CSD CSB (c_CSDSB N). Proof. unfold c_CSDSB. go 6%nat k j e. Qed.
  Lemma c_ASBSB_v sc : cvals c02 sc N CSB CSB (c_ASBSB N). Proof. unfold c_ASBSB. go 6%nat k j e. Qed.
  Lemma c_ASBSD_v sc : cvals c02 sc N CSB CSD (c_ASBSD N). Proof. unfold c_ASBSD. go 6%nat k j e. Qed.
End Banded.
