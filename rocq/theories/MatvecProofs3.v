(** MatvecProofs3.v -- the banded products, format='self'. *)
From Coq Require Import Reals ZArith List Arith Bool Lia Lra.
From Verif Require Import Base Fld SparseModel SparseSpec SparseProofs RPoly StencilModel StencilModel2 LegMatrixModel
  LegMatrixProofs6 ChebMatrixModel HelmholtzModel HelmholtzProofs HelmholtzProofs3 HelmholtzProofs4 BiharmonicModel MatvecModel MatvecSpec MatvecProofs MatvecProofs2.
Import ListNotations.
Local Open Scope R_scope.

Lemma slice_addm_ok lo hi n f a b v c : n = (b - a)%nat -> (hi - lo)%nat = n ->
  slice_addm lo hi (n, f) a b v (Some c) = Some (fun i => c i + (if (Nat.leb lo i && Nat.ltb i hi)%bool then f (i - lo)%nat * v (a + (i - lo))%nat else 0)).
Proof.
  intros -> H. unfold slice_addm, slice_mul. cbn [fst snd]. rewrite Nat.eqb_refl. cbn [obind fst snd slice_add]. rewrite H, Nat.eqb_refl.
  f_equal. apply FunctionalExtensionality.functional_extensionality. intros i. destruct (Nat.leb lo i && Nat.ltb i hi)%bool; ring.
Qed.
Lemma slice_adds_ok lo hi x a b v c : (hi - lo)%nat = (b - a)%nat ->
  slice_adds lo hi x a b v (Some c) = Some (fun i => c i + (if (Nat.leb lo i && Nat.ltb i hi)%bool then x * v (a + (i - lo))%nat else 0)).
Proof.
  intros H. unfold slice_adds, slice_scal. cbn [obind fst snd slice_add]. rewrite H, Nat.eqb_refl.
  f_equal. apply FunctionalExtensionality.functional_extensionality. intros i. destruct (Nat.leb lo i && Nat.ltb i hi)%bool; ring.
Qed.

Section SelfFormat.
  Variables (h : nat -> R) (N : nat) (c s : R) (v : nat -> R).
  Hypothesis (Hs : proper_scale s).
  Notation obj X := (smul RFld (scaled c X) s).
  Ltac slices := repeat first [rewrite slice_addm_ok by (unfold dmax; lia) | rewrite slice_adds_ok by lia].
  Ltac fin X := apply conclude;
    [ apply (proper_one s Hs)
    | cbn [smul scaled sm_rows]; unfold X at 1; cbn [dmat sm_rows]; intros k Hk; rewrite product_terms by (nodup X);
      unfold X; cbv zeta; cbn [terms fold_right dmat sm_items sm_cols sm_scale]; term_rw; rewrite ?term_diag by lia; rewrite ?dget_sc, ?dget_ar;
      unfold zeros, below, above; rn; rewrite ?Nat.sub_0_r; cases; idx; ring
    | cbn [smul scaled sm_rows]; unfold X; cbn [dmat sm_rows]; intros k Hk; unfold zeros; cases; ring ].
  Lemma BSDSD_self_ok : (4 <= N)%nat -> exists b, BSDSD_self (obj (c_BSDSD h N)) v = Some b /\ is_product (obj (c_BSDSD h N)) v b.
  Proof. intros HN. keys BSDSD_self c_BSDSD. slices. fin c_BSDSD. Qed.
  Lemma BSBSB_self_ok : (8 <= N)%nat -> exists b, BSBSB_self N (obj (c_BSBSB h N)) v = Some b /\ is_product (obj (c_BSBSB h N)) v b.
  Proof. intros HN. keys BSBSB_self c_BSBSB. slices. fin c_BSBSB. Qed.
  Lemma BSBSD_self_ok : (6 <= N)%nat -> exists b, BSBSD_self N (obj (c_BSBSD h N)) v = Some b /\ is_product (obj (c_BSBSD h N)) v b.
  Proof. intros HN. keys BSBSD_self c_BSBSD. slices. fin c_BSBSD. Qed.
  Lemma CSDSD_self_ok : (3 <= N)%nat -> exists b, CSDSD_self (obj (c_CSDSD N)) v = Some b /\ is_product (obj (c_CSDSD N)) v b.
  Proof. intros HN. keys CSDSD_self c_CSDSD. slices. fin c_CSDSD. Qed.
  Lemma CSBSD_self_ok : (5 <= N)%nat -> exists b, CSBSD_self (obj (c_CSBSD N)) v = Some b /\ is_product (obj (c_CSBSD N)) v b.
  Proof. intros HN. keys CSBSD_self c_CSBSD. slices. fin c_CSBSD. Qed.
  Lemma CSDSB_self_ok : (5 <= N)%nat -> exists b, CSDSB_self (obj (c_CSDSB N)) v = Some b /\ is_product (obj (c_CSDSB N)) v b.
  Proof. intros HN. keys CSDSB_self c_CSDSB. slices. fin c_CSDSB. Qed.
  Lemma ASBSB_self_ok : (6 <= N)%nat -> exists b, ASBSB_self (obj (c_ASBSB N)) v = Some b /\ is_product (obj (c_ASBSB N)) v b.
  Proof. intros HN. keys ASBSB_self c_ASBSB. slices. fin c_ASBSB. Qed.
End SelfFormat.
