(** ChebMatrixProofs8.v -- Heinrichs, test and trial. *)
From Coq Require Import Reals Lra Lia List Arith ZArith.
From Verif Require Import Base Fld SparseModel SparseSpec RPoly StencilModel StencilModel2 StencilSpec StencilProofs
  MatrixSpec MatrixProofs MatrixProofs2 LegMatrixModel LegMatrixSpec LegMatrixProofs LegMatrixProofs2 LegMatrixProofs5 LegMatrixProofs6
  ChebMatrixModel ChebMatrixSpec ChebMatrixProofs ChebMatrixProofs2 ChebMatrixProofs3 ChebMatrixProofs4 ChebMatrixProofs6.
Import ListNotations.
Local Open Scope R_scope.

Definition hscale (k : nat) : R := / ((INR k + 1) * (INR k + 2)).
Lemma tsumf_scal l c f : tsumf l (fun i => c * f i) = c * tsumf l f.
Proof. induction l as [|[i a] r IH]; cbn [tsumf]; [ring|]. rewrite IH. ring. Qed.
Lemma hh_scaled k f : tsumf (cterms true CHH k) f = hscale k * tsumf (cterms false CHH k) f.
Proof. unfold hscale. destruct k as [|[|k]]; cbn [cterms tsumf]; ring. Qed.
Lemma hh_csum D k j : csum D true CHH CHH k j = hscale k * hscale j * csum D false CHH CHH k j.
Proof.
  unfold csum. rewrite hh_scaled, Rmult_assoc, <- (tsumf_scal _ (hscale j)). f_equal. apply tsumf_ext. intros n _. apply hh_scaled.
Qed.
Section Heinrichs.
  Variable h : nat -> R.
  Variable N : nat.
  Hypothesis H0 : h 0%nat = PI.
  Hypothesis Hh : forall i, (0 < i < N - 1)%nat -> h i = PI / 2.
  Ltac hht := unfold csum, c02; cbn [cterms tsumf];
    entry; decide_nat; pars; cbn [dget]; cbv zeta; decide_nat; change (@fmul RFld) with Rmult; change (@f0 RFld) with 0;
    change (@eq (car RFld)) with (@eq R); rewrite ?H0; hpi h Hh;
    cbn [Nat.add]; repeat first [rewrite plus_INR|rewrite S_INR]; cbn [INR]; absx; genPI; try ring; try (field; nz).
  Lemma c_AHHHH_false : cvals c02 false N CHH CHH (c_AHHHH h N false).
  Proof. unfold c_AHHHH; rows k j e hht. Qed.
  Lemma c_AHHHH_scale k j : (k < N - 2)%nat -> (j < N - 2)%nat ->
    mat_entry RFld (c_AHHHH h N true) k j = hscale k * hscale j * mat_entry RFld (c_AHHHH h N false) k j.
  Proof.
    intros Hk Hj. unfold c_AHHHH, hscale. entry.
    destruct (Z.eq_dec 0 _); [|destruct (Z.eq_dec 2 _); [|destruct (Z.eq_dec (-2) _); [|change (@eq (car RFld)) with (@eq R); change (@f0 RFld) with 0; ring]]].
    - assert (j = k) by lia. subst. rewrite Nat.min_id. rn. cbv zeta.
      set (y := - PI / 8 * _ * _). clearbody y. absx. field. nz.
    - assert (j = S (S k)) by lia. subst. rewrite Nat.min_l by lia. rn. cbv zeta.
      set (y := PI / 8 * _ * _ * _). clearbody y. rewrite !S_INR. absx. field. nz.
    - assert (k = S (S j)) by lia. subst. rewrite Nat.min_r by lia. rn. cbv zeta.
      set (y := PI / 8 * _ * _ * _). clearbody y. rewrite !plus_INR, !S_INR. cbn [INR]. absx. field. nz.
  Qed.
  Lemma c_AHHHH_v sc : cvals c02 sc N CHH CHH (c_AHHHH h N sc).
  Proof.
    destruct sc; [|apply c_AHHHH_false]. intros k j Hk Hj. rewrite hh_csum, c_AHHHH_scale by assumption.
    rewrite (c_AHHHH_false k j Hk Hj). reflexivity.
  Qed.
End Heinrichs.
