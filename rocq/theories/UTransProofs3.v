(** UTransProofs3.v -- the transforms of the composite spaces of the second kind. *)
From Coq Require Import Reals Lra Lia List Arith ZArith.
From Verif Require Import Base Fld SparseModel SparseSpec SparseProofs RPoly StencilModel StencilModel2 StencilSpec ChebTransModel ChebTransProofs ChebTransProofs2 ChebTransProofs3
  StencilProofs StencilProofs8 StencilProofs9 UTransModel UTransSpec UTransProofs UTransProofs2.
Import ListNotations.
Local Open Scope R_scope.

Section Cls.
Variable cls : stencil_class.
Hypothesis HC : good_head cls.
Notation nbc := (List.length (sc_bcs cls)).
Notation S_ N k j := (mat_entry RFld (stencil_matrix cls N) k j).
Definition phiU (N k : nat) (x : R) : R := peval (basis_function chebU (stencil_matrix cls N) k) x.
Lemma phiU_val N k x : phiU N k x = rsum N (fun j => S_ N k j * peval (chebU j) x).
Proof. unfold phiU, basis_function. change (peval ?p x) with (deriv_at 0 p x). rewrite deriv_at_pcomb. reflexivity. Qed.
Lemma u_comp_expansion q N c : (0 < N)%nat ->
  yields (u_comp_backward q cls N N c) N (fun i => rsum (N - nbc) (fun k => c k * phiU N k (u_point q N i))).
Proof.
  intros HN. unfold u_comp_backward. destruct (u_expansion_values q N (to_ortho (stencil_matrix cls N) (comp_dim cls N) (utrunc (comp_dim cls N) c)) HN) as [v [E H]].
  exists v. split; [exact E|]. intros i Hi. rewrite H by exact Hi. unfold comp_dim.
  rewrite (gsum_ext_R N _ (fun j => rsum (N - nbc) (fun k => c k * S_ N k j * Uk j q N i))).
  - rewrite gsum_swap. apply gsum_ext_R. intros k Hk. rewrite phiU_val, <- gsum_scal. apply gsum_ext_R. intros. ring.
  - intros j Hj. rewrite (to_ortho_val cls HC) by assumption. rewrite Rmult_comm, <- gsum_scal. apply gsum_ext_R. intros k Hk.
    unfold utrunc. destruct (Nat.ltb_spec k (N - nbc)); [ring|lia].
Qed.
Lemma u_comp_scalar q N df u : (nbc < N)%nat -> df <> 0 ->
  yields (u_comp_scalar_product q cls N N df u) (N - nbc) (fun k => rsum N (fun i => u_weight q N i / df * u i * phiU N k (u_point q N i))).
Proof.
  intros Hb Hdf. unfold u_comp_scalar_product. destruct (u_scalar_values q N df u ltac:(lia) Hdf) as [w [E Hw]]. rewrite E.
  destruct (matvec_correct RFld (stencil_matrix cls N) N N w (stencil_wf cls HC N Hb) (le_n N) (le_n N)) as [out [E2 [Hout _]]]. rewrite E2, Nat.eqb_refl.
  exists out. split; [reflexivity|]. intros k Hk.
  rewrite Hout by (cbn; lia). unfold mat_vec, fsum. cbn [sm_cols stencil_matrix]. change (@f0 RFld) with 0. change (@fadd RFld) with Rplus. change (@fmul RFld) with Rmult.
  rewrite (gsum_ext_R N _ (fun j => rsum N (fun i => S_ N k j * (u_weight q N i / df * u i * Uk j q N i)))).
  - rewrite gsum_swap. apply gsum_ext_R. intros i Hi. rewrite phiU_val, <- gsum_scal. apply gsum_ext_R. intros. ring.
  - intros j Hj. rewrite Hw by exact Hj. rewrite <- gsum_scal. reflexivity.
Qed.
Definition massU q N k j : R := rsum N (fun i => u_weight q N i * (phiU N k (u_point q N i) * phiU N j (u_point q N i))).
Lemma u_comp_mass q N df c v : (nbc < N)%nat -> df <> 0 -> u_comp_backward q cls N N c = Some v ->
  yields (u_comp_scalar_product q cls N N df v) (N - nbc) (fun k => rsum (N - nbc) (fun j => massU q N k j / df * c j)).
Proof.
  intros Hb Hdf Ev. destruct (u_comp_expansion q N c ltac:(lia)) as [v' [E Hv]]. rewrite Ev in E. injection E as <-.
  destruct (u_comp_scalar q N df v Hb Hdf) as [b [Eb Hbv]].
  exists b. split; [exact Eb|]. intros k Hk. rewrite Hbv by exact Hk.
  rewrite (gsum_ext_R N _ (fun i => rsum (N - nbc) (fun j => c j / df * (u_weight q N i * (phiU N k (u_point q N i) * phiU N j (u_point q N i)))))).
  - rewrite gsum_swap. apply gsum_ext_R. intros j Hj. rewrite gsum_scal. unfold massU, Rdiv. ring.
  - intros i Hi. rewrite Hv by exact Hi. set (t := phiU N k (u_point q N i)).
    replace (u_weight q N i / df * rsum (N - nbc) (fun k0 => c k0 * phiU N k0 (u_point q N i)) * t) with
      ((u_weight q N i / df * t) * rsum (N - nbc) (fun k0 => c k0 * phiU N k0 (u_point q N i))) by ring.
    rewrite <- gsum_scal. apply gsum_ext_R. intros j Hj. unfold Rdiv. ring.
Qed.
Lemma massU_norms q N k j : massU q N k j = rsum N (fun m => u_l2_norm_sq q N m * (S_ N k m * S_ N j m)).
Proof.
  unfold massU.
  rewrite (gsum_ext_R N _ (fun i => rsum N (fun m => rsum N (fun l => S_ N k m * S_ N j l * (u_weight q N i * (Uk m q N i * Uk l q N i)))))).
  - rewrite gsum_swap. apply gsum_ext_R. intros m Hm. rewrite gsum_swap.
    rewrite (gsum_ext_R N _ (fun l => if Nat.eqb l m then u_l2_norm_sq q N m * (S_ N k m * S_ N j m) else 0)).
    + apply gsum_one, Hm.
    + intros l Hl. rewrite gsum_scal, u_quad_orth by assumption. rewrite (Nat.eqb_sym m l). destruct (Nat.eqb_spec l m) as [->|]; ring.
  - intros i Hi. rewrite !phiU_val.
    rewrite <- Rmult_assoc, (Rmult_comm (u_weight q N i)), Rmult_assoc, rsum_mul. apply gsum_ext_R. intros m Hm.
    set (B := rsum N _). replace (S_ N k m * Uk m q N i * (u_weight q N i * B)) with ((S_ N k m * Uk m q N i * u_weight q N i) * B) by ring. unfold B.
    rewrite <- gsum_scal. apply gsum_ext_R. intros l Hl. ring.
Qed.
Lemma massU_form q N a :
  rsum (N - nbc) (fun k => a k * rsum (N - nbc) (fun j => massU q N k j * a j)) =
  rsum N (fun m => u_l2_norm_sq q N m * (rsum (N - nbc) (fun k => a k * S_ N k m)) ^ 2).
Proof.
  rewrite (gsum_ext_R (N - nbc) _ (fun k => rsum N (fun m => rsum (N - nbc) (fun j => u_l2_norm_sq q N m * (a k * S_ N k m) * (a j * S_ N j m))))).
  - rewrite gsum_swap. apply gsum_ext_R. intros m Hm. cbn [pow]. rewrite Rmult_1_r.
    rewrite rsum_mul, <- gsum_scal. apply gsum_ext_R. intros k Hk. rewrite (Rmult_comm (a k * S_ N k m)).
    rewrite rsum_mul, <- gsum_scal. apply gsum_ext_R. intros j Hj. ring.
  - intros k Hk. rewrite gsum_swap, <- gsum_scal. apply gsum_ext_R. intros j Hj. rewrite massU_norms.
    rewrite Rmult_comm, rsum_mul. rewrite (Rmult_comm _ (a k)), <- gsum_scal. apply gsum_ext_R. intros m Hm. ring.
Qed.
Lemma massU_injective q N a : (forall k, (k < N - nbc)%nat -> rsum (N - nbc) (fun j => massU q N k j * a j) = 0) -> forall k, (k < N - nbc)%nat -> a k = 0.
Proof.
  intros H. apply (good_independent cls HC N a). intros m Hm.
  assert (Z : u_l2_norm_sq q N m * (rsum (N - nbc) (fun k => a k * S_ N k m)) ^ 2 = 0).
  { apply (rsum_nonneg_zero N (fun m => u_l2_norm_sq q N m * (rsum (N - nbc) (fun k => a k * S_ N k m)) ^ 2)); [|rewrite <- massU_form|exact Hm].
    - intros i Hi. pose proof (u_norm_pos q N i). apply Rmult_le_pos; [lra|apply pow2_ge_0].
    - apply gsum_zero. intros k Hk. rewrite H by exact Hk. ring. }
  apply Rmult_integral in Z. pose proof (u_norm_pos q N m). destruct Z as [Z|Z]; [lra|].
  set (x := rsum _ _) in *. cbn [pow] in Z. nra.
Qed.
Lemma u_comp_fwd_bck q N df c v : (nbc < N)%nat -> df <> 0 -> u_comp_backward q cls N N c = Some v ->
  exists b, u_comp_scalar_product q cls N N df v = Some b /\
    forall a, (forall k, (k < N - nbc)%nat -> rsum (N - nbc) (fun j => massU q N k j / df * a j) = b k) <-> (forall k, (k < N - nbc)%nat -> a k = c k).
Proof.
  intros Hb Hdf Ev. destruct (u_comp_mass q N df c v Hb Hdf Ev) as [b [E Hv]]. exists b. split; [exact E|]. intros a. split.
  - intros H k Hk. apply Rminus_diag_uniq. revert k Hk. apply (massU_injective q N (fun k => a k - c k)).
    intros k Hk. specialize (H k Hk). rewrite Hv in H by exact Hk.
    rewrite (gsum_ext_R (N - nbc) _ (fun j => df * (massU q N k j / df * a j) + (- df) * (massU q N k j / df * c j))) by (intros; field; exact Hdf).
    rewrite gsum_add, !gsum_scal, H. ring.
  - intros H k Hk. rewrite Hv by exact Hk. apply gsum_ext_R. intros j Hj. rewrite H by exact Hj. reflexivity.
Qed.
End Cls.
