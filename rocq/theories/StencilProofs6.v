(** StencilProofs6.v -- the Jacobi stencils with alpha = beta, and the Laguerre stencils. *)
From Coq Require Import Reals Lra Lia ZArith String List Arith.
From Verif Require Import Base Fld SparseModel SparseSpec RPoly StencilModel StencilSpec StencilProofs StencilProofs5.
Import ListNotations.
Local Open Scope R_scope.

(** a stencil with the same non-zero terms gives the same basis functions *)
Lemma bcs_ok_transfer P c1 c2 :
  sc_bcs c1 = sc_bcs c2 ->
  NoDup (map fst (sc_stencil c1)) -> Forall (fun it => (fst it <= length (sc_bcs c1))%nat) (sc_stencil c1) ->
  NoDup (map fst (sc_stencil c2)) -> Forall (fun it => (fst it <= length (sc_bcs c2))%nat) (sc_stencil c2) ->
  (forall x d, stencil_sum (sc_stencil c2) x d = stencil_sum (sc_stencil c1) x d) ->
  bcs_ok P c1 -> bcs_ok P c2.
Proof.
  intros Hb N1 F1 N2 F2 Hs H. apply bcs_ok_intro; auto. intros k. rewrite <- Hb.
  specialize (H (k + length (sc_bcs c1) + 1)%nat k ltac:(lia)). rewrite Forall_forall in H. apply Forall_forall. intros c Hc.
  rewrite Hs, <- (basis_deriv P c1 (k + length (sc_bcs c1) + 1)) by (auto; lia). apply H, Hc.
Qed.

Section Jac.
Variables (G : R -> R) (a : R).
Hypothesis HG : forall x, 0 < x -> 0 < G x.
Hypothesis HG1 : forall x, 0 < x -> G (x + 1) = x * G x.
Hypothesis Ha : -1 < a.

Ltac transfer c1 :=
  unf; match goal with |- bcs_ok _ ?c => let h := eval hnf in c1 in apply (bcs_ok_transfer _ h c) end;
  [ reflexivity | nodup | nodup | nodup | nodup
  | intros x d; cbn [stencil_sum sval sc_stencil]; replace (a - a) with 0 by ring; unfold Rdiv; ring
  | pose proof (jacobi_ne_ok G a a HG HG1 Ha Ha) as H; unfold jacobi_ne_classes in H;
    rewrite Forall_forall in H; apply (H c1); simpl; tauto].
Lemma jacobi_ok : Forall (bcs_ok (jacP a a)) (jacobi_classes G a a).
Proof.
  unfold jacobi_classes.
  apply Forall_cons; [transfer (jacobi_Phi1_ne G a a)|].
  apply Forall_cons; [transfer (jacobi_Phi2_ne G a a)|].
  apply Forall_cons; [transfer (jacobi_Phi3_ne G a a)|].
  apply Forall_cons; [transfer (jacobi_Phi4_ne G a a)|].
  apply Forall_cons; [transfer (jacobi_CompactDirichlet_ne a a)|].
  apply Forall_cons; [transfer (jacobi_CompactNeumann_ne a a)|].
  apply Forall_cons; [transfer (jacobi_UpperDirichlet a a)|].
  apply Forall_cons; [transfer (jacobi_LowerDirichlet a a)|].
  apply Forall_nil.
Qed.
End Jac.

(** ** Laguerre: La_n(0) = 1, La_n'(0) = -n *)
Definition vLa (k : nat) (x : R) : R := match k with 0%nat => 1 | 1%nat => - x | _ => 0 end.
Lemma lag_zero n k : (k <= 1)%nat -> deriv_at k (lagL n) 0 = vLa k (INR n).
Proof.
  apply three_term_values with (v := fun k n => vLa k (INR n)).
  - intros j Hj. destruct j as [|[|j]]; [| |exfalso; lia]; unfold deriv_at, vLa; simpl; (split; lra).
  - intros j q Hj. rewrite !S_INR. inr q. destruct j as [|[|j]]; [| |exfalso; lia]; cbn [vLa pred INR]; field; lra.
Qed.
