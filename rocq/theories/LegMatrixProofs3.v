(** LegMatrixProofs3.v -- derivative, stiffness and weighted matrices. *)
From Coq Require Import Reals Lra Lia List Arith ZArith.
From Verif Require Import Base Fld SparseModel SparseSpec RPoly StencilModel StencilModel2 StencilSpec StencilProofs
  MatrixSpec MatrixProofs MatrixProofs2 LegMatrixModel LegMatrixSpec LegMatrixProofs LegMatrixProofs2.
Import ListNotations.
Local Open Scope R_scope.

Definition tsum (D : nat -> nat -> R) (s1 s2 : lspace) (k j : nat) : R :=
  stencil_sum (space_stencil false s1) (INR k) (fun o => stencil_sum (space_stencil false s2) (INR j) (fun o' => D (o + k)%nat (o' + j)%nat)).

Ltac tab := unfold tsum, T01, T11, T02, T11w1, T01w1, T02w1, T11w2, T02w2, T01, T11w1, T01w1, T11w2;
  cbn [space_stencil space_class sc_stencil unit_stencil legendre_ShenDirichlet legendre_ShenNeumann legendre_ShenBiharmonic
       legendre_UpperDirichlet legendre_LowerDirichlet legendre_DirichletNeumann stencil_sum sval Nat.add];
  entry; decide_nat; cbn [dget]; cbv zeta; change (@fmul RFld) with Rmult; change (@f0 RFld) with 0;
  change (@eq (car RFld)) with (@eq R); unfold v1; rewrite <- ?plus_n_Sm; inrs; pows; inrs; absx; try ring; try (field; neq0).

Section Plain.
  Variable N : nat.
  Lemma CLSD_sum k j : mat_entry RFld (CLSDmat N false) k j = tsum T01 SpL SpSD k j.
  Proof. unfold CLSDmat. split2 k j e; (peel e 3%nat; try (exfalso; lia)); tab. Qed.
  Lemma CSDSD_sum k j : mat_entry RFld (CSDSDmat N false) k j = tsum T01 SpSD SpSD k j.
  Proof. unfold CSDSDmat. split2 k j e; (peel e 4%nat; try (exfalso; lia)); tab. Qed.
  Lemma ASDSD_sum k j : mat_entry RFld (ASDSDmat N false) k j = tsum T11 SpSD SpSD k j.
  Proof. unfold ASDSDmat. split2 k j e; (peel e 4%nat; try (exfalso; lia)); tab. Qed.
  Lemma ASBSB_sum k j : mat_entry RFld (ASBSBmat N) k j = tsum T11 SpSB SpSB k j.
  Proof. unfold ASBSBmat. split2 k j e; (peel e 6%nat; try (exfalso; lia)); tab. Qed.
  Lemma ASNSN_sum k j : mat_entry RFld (ASNSNmat N) k j = tsum T11 SpSN SpSN k j.
  Proof. unfold ASNSNmat. split2 k j e; (peel e 3%nat; try (exfalso; lia)); tab. Qed.
  Lemma ADNDN_sum k j : mat_entry RFld (ADNDNmat N) k j = tsum T11 SpDN SpDN k j.
  Proof. unfold ADNDNmat. split2 k j e; (peel e 3%nat; try (exfalso; lia)); tab. Qed.
  Lemma ASDSDrp1_sum k j : mat_entry RFld (ASDSDrp1mat N) k j = tsum T11w1 SpSD SpSD k j.
  Proof. unfold ASDSDrp1mat. split2 k j e; (peel e 3%nat; try (exfalso; lia)); tab. Qed.
  Lemma ASDSD2rp1_sum k j : mat_entry RFld (ASDSD2rp1mat N) k j = tsum T02w1 SpSD SpSD k j.
  Proof. unfold ASDSD2rp1mat. split2 k j e; (peel e 3%nat; try (exfalso; lia)); tab. Qed.
  Lemma AUDUDrp1_sum k j : mat_entry RFld (AUDUDrp1mat N) k j = tsum T11w1 SpUD SpUD k j.
  Proof. unfold AUDUDrp1mat. split2 k j e; (peel e 2%nat; try (exfalso; lia)); tab. Qed.
  Lemma AUDUDrp1s_sum k j : mat_entry RFld (AUDUDrp1smat N) k j = tsum T11w2 SpUD SpUD k j.
  Proof. unfold AUDUDrp1smat. split2 k j e; (peel e 2%nat; try (exfalso; lia)); tab. Qed.
  Lemma GUDUDrp1s_sum k j : mat_entry RFld (GUDUDrp1smat N) k j = tsum T02w2 SpUD SpUD k j.
  Proof. unfold GUDUDrp1smat. split2 k j e; (peel e 2%nat; try (exfalso; lia)); tab. Qed.
  Lemma CUDUDrp1_sum k j : mat_entry RFld (CUDUDrp1mat N) k j = tsum T01w1 SpUD SpUD k j.
  Proof. unfold CUDUDrp1mat. split2 k j e; (peel e 2%nat; try (exfalso; lia)); tab. Qed.
End Plain.
