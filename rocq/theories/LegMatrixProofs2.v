(** LegMatrixProofs2.v -- the mass matrices, for every array of squared norms. *)
From Coq Require Import Reals Lra Lia List Arith ZArith.
From Verif Require Import Base Fld SparseModel SparseSpec RPoly StencilModel StencilModel2 StencilSpec StencilProofs
  MatrixSpec MatrixProofs MatrixProofs2 LegMatrixModel LegMatrixSpec LegMatrixProofs.
Import ListNotations.
Local Open Scope R_scope.

Definition T00h (h : nat -> R) (n m : nat) : R := if Nat.eqb n m then h n else 0.
Definition mass_sum (h : nat -> R) (st1 st2 : list (nat * sitem)) (k j : nat) : R :=
  stencil_sum st1 (INR k) (fun o => stencil_sum st2 (INR j) (fun o' => T00h h (o + k)%nat (o' + j)%nat)).

Ltac hnorm h := repeat match goal with |- context [h ?a] => match goal with |- context [h ?b] =>
  tryif constr_eq a b then fail else replace (h b) with (h a) by (f_equal; lia) end end.
Ltac habs h := repeat match goal with |- context [h ?a] => let y := fresh "y" in set (y := h a) in *; clearbody y end.
Ltac entry := unfold mat_entry, dmat, arr; cbn [sm_items sm_scale lookup].
Ltac mass h := unfold mass_sum, T00h;
  cbn [space_stencil space_class sc_stencil unit_stencil legendre_ShenDirichlet legendre_ShenNeumann legendre_ShenBiharmonic
       legendre_UpperDirichlet legendre_LowerDirichlet legendre_DirichletNeumann stencil_sum sval Nat.add];
  entry; decide_nat; cbn [dget]; cbv zeta; change (@fmul RFld) with Rmult; change (@f0 RFld) with 0; change (@eq (car RFld)) with (@eq R);
  hnorm h; habs h; inrs; absx; try ring; try (field; neq0).

Ltac peel e n := match n with O => idtac | S ?m => destruct e as [|e]; [|peel e m] end.
Ltac split2 k j e := destruct (le_lt_dec k j); [above j k e | above k j e].
Section Mass.
  Variable h : nat -> R.
  Variable N : nat.

  Lemma BLL_sum k j : mat_entry RFld (BLLmat h N) k j = mass_sum h unit_stencil unit_stencil k j.
  Proof. unfold BLLmat. split2 k j e; (peel e 1%nat; try (exfalso; lia)); mass h. Qed.
  Lemma BSDSD_sum k j : mat_entry RFld (BSDSDmat h N false) k j = mass_sum h (space_stencil false SpSD) (space_stencil false SpSD) k j.
  Proof. unfold BSDSDmat. split2 k j e; (peel e 3%nat; try (exfalso; lia)); mass h. Qed.
  Lemma BSNSN_sum k j : mat_entry RFld (BSNSNmat h N) k j = mass_sum h (space_stencil false SpSN) (space_stencil false SpSN) k j.
  Proof. unfold BSNSNmat. split2 k j e; (peel e 3%nat; try (exfalso; lia)); mass h. Qed.
  Lemma BSDL_sum k j : mat_entry RFld (BSDLmat h N false) k j = mass_sum h (space_stencil false SpSD) unit_stencil k j.
  Proof. unfold BSDLmat. split2 k j e; (peel e 3%nat; try (exfalso; lia)); mass h. Qed.
  Lemma BLSD_sum k j : mat_entry RFld (BLSDmat h N false) k j = mass_sum h unit_stencil (space_stencil false SpSD) k j.
  Proof. unfold BLSDmat. split2 k j e; (peel e 3%nat; try (exfalso; lia)); mass h. Qed.
  Lemma BUDUD_sum k j : mat_entry RFld (BUDUDmat h N) k j = mass_sum h (space_stencil false SpUD) (space_stencil false SpUD) k j.
  Proof. unfold BUDUDmat. split2 k j e; (peel e 2%nat; try (exfalso; lia)); mass h. Qed.
  Lemma BLDLD_sum k j : mat_entry RFld (BLDLDmat h N) k j = mass_sum h (space_stencil false SpLD) (space_stencil false SpLD) k j.
  Proof. unfold BLDLDmat. split2 k j e; (peel e 2%nat; try (exfalso; lia)); mass h. Qed.
  Lemma BDNDN_sum k j : mat_entry RFld (BDNDNmat h N) k j = mass_sum h (space_stencil false SpDN) (space_stencil false SpDN) k j.
  Proof. unfold BDNDNmat. split2 k j e; (peel e 3%nat; try (exfalso; lia)); mass h. Qed.
  Lemma BSBSB_sum k j : mat_entry RFld (BSBSBmat h N) k j = mass_sum h (space_stencil false SpSB) (space_stencil false SpSB) k j.
  Proof. unfold BSBSBmat. split2 k j e; (peel e 5%nat; try (exfalso; lia)); mass h. Qed.
End Mass.
