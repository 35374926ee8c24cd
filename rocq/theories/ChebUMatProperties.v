(** ChebUMatProperties.v -- C36: the matrices of chebyshevu/matrices.py hold the inner products they stand for. *)
From Coq Require Import Reals ZArith List Bool Arith Lia Lra.
From Verif Require Import Base Fld SparseModel SparseSpec RPoly StencilModel MatrixSpec UTransModel UTransSpec UTransProofs2 GenModel GenSpec GenProofs4 GenProofs6 GenProofs7 GenProofs8 GenProofs9
  ChebUMatModel ChebUMatSpec ChebUMatProofs.
Import ListNotations.
Local Open Scope R_scope.

(** Every entry of the dictionary, for test spaces that are scaled or not, every N, both kinds of points and both ways of assembling:
    the exact inner products with the weight sqrt(1-x^2), but for the mass matrix of the orthogonal polynomials assembled with the points 'GC' *)
Theorem C36_chebyshevu_dictionary : forall quadrature q scaled N,
  Forall (fun e => (quadrature = true -> q = GU) \/ ue_test e = UPhi1 -> uentry_ok scaled N e) (chebyshevu_mat (u_norm_sq quadrature q N) scaled N).
Proof.
  intros quadrature q scaled N. unfold chebyshevu_mat. repeat (apply Forall_cons; [cbn [ue_test]; intros HQ|]); [..|apply Forall_nil];
    (unfold uentry_ok, holds; cbn [ue_test ue_trial ue_d ue_mat udim]; split; [reflexivity|]; split; [reflexivity|]; intros k j Hk Hj).
  - rewrite u_BUU_entry by assumption. cbn [ufn].
    refine (eq_ind _ (fun r => chebu_inner (fun x => deriv_at 0 (chebU j) x) (fun x => peval (chebU k) x) r) (uip_int (chebU j) (chebU k)) _ _).
    rewrite uip_orth. destruct (j =? k)%nat; [|reflexivity]. unfold u_norm_sq, u_l2_norm_sq, u_L2_norm_sq. destruct quadrature; [|reflexivity].
    destruct HQ as [HQ|HQ]; [rewrite (HQ eq_refl); reflexivity|discriminate HQ].
  - apply (entry_int true N scaled 0 k j); [exact Hk|]. change (u_BP1SD scaled N) with (u_BP1 scaled (tcls true) N). rewrite u_BP1_entry by assumption. apply umat_val.
  - apply (entry_int false N scaled 0 k j); [exact Hk|]. change (u_BP1SN scaled N) with (u_BP1 scaled (tcls false) N). rewrite u_BP1_entry by assumption. apply umat_val.
  - apply (entry_int true N scaled 2 k j); [exact Hk|]. apply u_AP1SD_entry; assumption.
  - apply (entry_int false N scaled 2 k j); [exact Hk|]. apply u_AP1SN_entry; assumption.
Qed.
Print Assumptions C36_chebyshevu_dictionary.
(** BUUmat assembled with quadrature holds the sums over the points and weights; with 'GC' the last entry is twice the integral *)
Theorem C36_chebyshevu_mass_quadrature : forall q N k j, (k < N)%nat -> (j < N)%nat ->
  mat_entry RFld (u_BUU (u_norm_sq true q N) N) k j = gsum 0 Rplus N (fun i => u_weight q N i * (peval (chebU j) (u_point q N i) * peval (chebU k) (u_point q N i))).
Proof.
  intros q N k j Hk Hj. rewrite u_BUU_entry by assumption. symmetry.
  etransitivity; [exact (u_quad_orth q N j k Hj Hk)|]. destruct (Nat.eqb_spec j k) as [->|]; reflexivity.
Qed.
Print Assumptions C36_chebyshevu_mass_quadrature.

(** non-vacuity *)
Example C36_chebyshevu_instance : length (chebyshevu_mat (u_norm_sq false GU 8) false 8) = 5%nat /\ mat_entry RFld (u_AP1SD false 8) 1 3 = 3 /\ mat_entry RFld (u_AP1SN true 8) 1 1 = - (1 / 3) ^ 2.
Proof. split; [reflexivity|]. unfold u_AP1SD, u_AP1SN, mat_entry. cbn. split; field. Qed.
