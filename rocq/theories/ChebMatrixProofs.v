(** ChebMatrixProofs.v -- the Chebyshev inner product, and tables of (T_n, D^q T_m). *)
From Coq Require Import Reals Lra Lia List Arith ZArith.
From Verif Require Import Base Fld RPoly StencilProofs MatrixSpec MatrixProofs MatrixProofs2 JacobiProofs2 LegMatrixProofs.
Import ListNotations.
Local Open Scope R_scope.

(** ** the integral of p(cos t) over [0, pi] *)
Lemma cont_pcos p : continuity (fun t => peval p (cos t)).
Proof. apply (continuity_comp cos (peval p)); [apply continuity_cos|apply continuity_peval]. Qed.
Definition cint_pr (p : poly) : Riemann_integrable (fun t => peval p (cos t)) 0 PI :=
  continuity_implies_RiemannInt (Rlt_le _ _ PI_RGT_0) (fun x _ => cont_pcos p x).
Definition cint (p : poly) : R := RiemannInt (cint_pr p).
Lemma cint_integral p : integral (fun t => peval p (cos t)) 0 PI (cint p).
Proof. exists (cint_pr p). reflexivity. Qed.
Lemma cint_ext p q : (forall t, peval p (cos t) = peval q (cos t)) -> cint p = cint q.
Proof. intros H. apply RiemannInt_P18; [apply Rlt_le, PI_RGT_0|]. intros x _. apply H. Qed.
Lemma cint_lin c p q : cint (padd p (pscale c q)) = cint p + c * cint q.
Proof.
  pose proof (RiemannInt_P10 c (cint_pr p) (cint_pr q)) as pr3.
  unfold cint. rewrite <- (RiemannInt_P13 (cint_pr p) (cint_pr q) pr3).
  apply RiemannInt_P18; [apply Rlt_le, PI_RGT_0|]. intros x _. rewrite peval_padd, peval_pscale. reflexivity.
Qed.
Lemma cint_nil : cint [] = 0.
Proof.
  pose proof (cint_lin 1 [] []) as H. assert (E : cint (padd [] (pscale 1 [])) = cint []) by (apply cint_ext; intros; reflexivity). lra.
Qed.
Lemma cint_padd p q : cint (padd p q) = cint p + cint q.
Proof. rewrite <- (Rmult_1_l (cint q)), <- cint_lin. apply cint_ext. intros t. rewrite !peval_padd, peval_pscale. ring. Qed.
Lemma cint_pscale c p : cint (pscale c p) = c * cint p.
Proof. transitivity (cint (padd [] (pscale c p))); [apply cint_ext; reflexivity|]. rewrite cint_lin, cint_nil. ring. Qed.

Definition cip (p q : poly) : R := cint (pmul p q).
Lemma cip_ext p p' q q' : (forall t, peval p (cos t) = peval p' (cos t)) -> (forall t, peval q (cos t) = peval q' (cos t)) -> cip p q = cip p' q'.
Proof. intros H1 H2. apply cint_ext. intros x. rewrite !peval_pmul, H1, H2. reflexivity. Qed.
Lemma cip_comm p q : cip p q = cip q p.
Proof. apply cint_ext. intros x. rewrite !peval_pmul. ring. Qed.
Lemma cip_padd_r p q r : cip p (padd q r) = cip p q + cip p r.
Proof. unfold cip. rewrite <- cint_padd. apply cint_ext. intros x. rewrite peval_padd, !peval_pmul, peval_padd. ring. Qed.
Lemma cip_pscale_r p c q : cip p (pscale c q) = c * cip p q.
Proof. unfold cip. rewrite <- cint_pscale. apply cint_ext. intros x. rewrite peval_pscale, !peval_pmul, peval_pscale. ring. Qed.
Lemma cip_pX p q : cip (pX p) q = cip p (pX q).
Proof. apply cint_ext. intros x. rewrite !peval_pmul, !peval_pX. ring. Qed.
Lemma cip_nil_r p : cip p [] = 0.
Proof. rewrite (cip_ext p p [] (pscale 0 [])); [rewrite cip_pscale_r; ring| |]; intros; simpl; ring. Qed.
Lemma cheb_inner_cip a b u v : cheb_inner (deriv_at a u) (deriv_at b v) (cip (dn a u) (dn b v)).
Proof.
  destruct (cint_integral (pmul (dn a u) (dn b v))) as (pr & E).
  assert (pr2 : Riemann_integrable (fun t => deriv_at a u (cos t) * deriv_at b v (cos t)) 0 PI).
  { apply (continuity_implies_RiemannInt (Rlt_le _ _ PI_RGT_0)). intros x _.
    apply (continuity_pt_mult (fun t => deriv_at a u (cos t)) (fun t => deriv_at b v (cos t))); apply cont_pcos. }
  exists pr2. unfold cip. rewrite <- E. apply RiemannInt_P18; [apply Rlt_le, PI_RGT_0|]. intros x _. rewrite peval_pmul. reflexivity.
Qed.

(** ** recurrences *)
Lemma chebT_cos n t : peval (chebT n) (cos t) = cos (INR n * t).
Proof.
  assert (H : peval (chebT n) (cos t) = cos (INR n * t) /\ peval (chebT (S n)) (cos t) = cos (INR (S n) * t)); [|tauto].
  induction n as [|n [IH1 IH2]].
  - split; simpl; [rewrite Rmult_0_l, cos_0; ring|rewrite Rmult_1_l; ring].
  - split; [exact IH2|]. unfold chebT in *. rewrite three_term_SS, !peval_padd, !peval_pscale, peval_pX, IH1, IH2.
    replace (INR (S (S n)) * t) with (INR (S n) * t + t) by (rewrite (S_INR (S n)); ring).
    replace (INR n * t) with (INR (S n) * t - t) by (rewrite (S_INR n); ring).
    rewrite cos_plus, cos_minus. ring.
Qed.
Lemma chebT_SS n x : peval (chebT (S (S n))) x = 2 * x * peval (chebT (S n)) x - peval (chebT n) x.
Proof. unfold chebT. rewrite three_term_SS, !peval_padd, !peval_pscale, peval_pX. ring. Qed.
Lemma chebU_SS n x : peval (chebU (S (S n))) x = 2 * x * peval (chebU (S n)) x - peval (chebU n) x.
Proof. unfold chebU. rewrite three_term_SS, !peval_padd, !peval_pscale, peval_pX. ring. Qed.
(** 2 T_(n+2) = U_(n+2) - U_n *)
Lemma TU n x : 2 * peval (chebT (S (S n))) x = peval (chebU (S (S n))) x - peval (chebU n) x.
Proof.
  assert (H : 2 * peval (chebT (S (S n))) x = peval (chebU (S (S n))) x - peval (chebU n) x /\
              2 * peval (chebT (S (S (S n)))) x = peval (chebU (S (S (S n)))) x - peval (chebU (S n)) x); [|tauto].
  induction n as [|n [IH1 IH2]].
  - rewrite !chebT_SS, !chebU_SS. simpl. split; ring.
  - split; [exact IH2|]. rewrite (chebT_SS (S (S n))), (chebU_SS (S (S n))).
    rewrite (chebU_SS n) in IH1. rewrite (chebU_SS (S n)) in IH2. rewrite (chebU_SS (S n)), (chebU_SS n).
    rewrite !(chebU_SS n) in IH2.
    replace (2 * (2 * x * peval (chebT (S (S (S n)))) x - peval (chebT (S (S n))) x))
      with (2 * x * (2 * peval (chebT (S (S (S n)))) x) - 2 * peval (chebT (S (S n))) x) by ring.
    rewrite IH2, IH1. ring.
Qed.
(** T_(n+1)' = (n+1) U_n *)
Lemma dT_SS n x : peval (pderiv (chebT (S (S n)))) x =
  2 * peval (chebT (S n)) x + 2 * x * peval (pderiv (chebT (S n))) x - peval (pderiv (chebT n)) x.
Proof.
  unfold chebT. rewrite three_term_SS, !pderiv_padd, !pderiv_pscale, pderiv_pX. ring.
Qed.
Lemma T_deriv n x : peval (pderiv (chebT (S n))) x = (INR n + 1) * peval (chebU n) x.
Proof.
  assert (H : peval (pderiv (chebT (S n))) x = (INR n + 1) * peval (chebU n) x /\
              peval (pderiv (chebT (S (S n)))) x = (INR n + 2) * peval (chebU (S n)) x); [|tauto].
  induction n as [|n [IH1 IH2]].
  - split; [simpl; ring|]. rewrite dT_SS. simpl. ring.
  - rewrite S_INR. split; [rewrite IH2; ring|]. rewrite dT_SS, IH1, IH2.
    rewrite (TU n), (chebU_SS n). ring.
Qed.
(** ** (T_n, T_m) *)
Definition c00 (n m : nat) : R := if Nat.eqb n m then if Nat.eqb n 0 then PI else PI / 2 else 0.
Lemma cint_cos m p : (forall t, peval p (cos t) = cos (INR m * t)) -> cint p = if Nat.eqb m 0 then PI else 0.
Proof.
  intros H. eapply integral_unique; [apply cint_integral|]. apply newton_integral; [apply Rlt_le, PI_RGT_0|apply cont_pcos|].
  destruct (Nat.eqb_spec m 0) as [->|Hm].
  - exists (fun t => t). split; [|ring]. intros x. rewrite H. cbn [INR]. rewrite Rmult_0_l, cos_0. apply derivable_pt_lim_id.
  - assert (INR m <> 0) by (apply not_0_INR; exact Hm).
    exists (fun t => / INR m * sin (INR m * t)). split.
    + intros x. rewrite H. replace (cos (INR m * x)) with (/ INR m * (cos (INR m * x) * (INR m * 1))) by (field; assumption).
      apply (derivable_pt_lim_scal (fun t => sin (INR m * t))).
      apply (derivable_pt_lim_comp (fun t => INR m * t) sin); [|apply derivable_pt_lim_sin].
      apply (derivable_pt_lim_scal (fun t => t)), derivable_pt_lim_id.
    + rewrite Rmult_0_r, sin_0. replace (sin (INR m * PI)) with 0; [ring|]. symmetry. apply sin_eq_0_1. exists (Z.of_nat m). rewrite <- INR_IZR_INZ. reflexivity.
Qed.
Lemma cos_prod a b : cos a * cos b = / 2 * (cos (a + b) + cos (a - b)).
Proof. rewrite cos_plus, cos_minus. field. Qed.
Lemma cint_T m : cint (chebT m) = if Nat.eqb m 0 then PI else 0.
Proof. apply cint_cos. intros t. apply chebT_cos. Qed.
Lemma cc00 n m : cip (chebT n) (chebT m) = c00 n m.
Proof.
  assert (G : forall n m, (n <= m)%nat -> cip (chebT n) (chebT m) = c00 n m).
  { clear. intros n m H. unfold cip.
    rewrite (cint_ext _ (pscale (/ 2) (padd (chebT (n + m)) (chebT (m - n))))).
    - rewrite cint_pscale, cint_padd, !cint_T. unfold c00.
      destruct (Nat.eqb_spec n m); destruct (Nat.eqb_spec (n + m) 0); destruct (Nat.eqb_spec (m - n) 0);
        destruct (Nat.eqb_spec n 0); try lia; try lra.
    - intros t. rewrite peval_pmul, peval_pscale, peval_padd, !chebT_cos, Rmult_comm, cos_prod, plus_INR, minus_INR by exact H.
      f_equal. f_equal; f_equal; ring. }
  destruct (Nat.le_gt_cases n m) as [H|H]; [apply G, H|]. rewrite cip_comm, G by lia. unfold c00. rewrite (Nat.eqb_sym m n).
  destruct (Nat.eqb_spec n m); [lia|]. reflexivity.
Qed.

(** ** (T_n, D^q T_m) *)
Definition cD (q n m : nat) : R := cip (chebT n) (dn q (chebT m)).
Definition cE (q n m : nat) : R := cip (chebT n) (dn q (chebU m)).
Lemma cD_S q n m : cD (S q) n (S m) = (INR m + 1) * cE q n m.
Proof.
  unfold cD, cE. rewrite <- cip_pscale_r. apply cip_ext; [reflexivity|]. intros t. rewrite peval_pscale.
  change (peval (dn (S q) (chebT (S m))) (cos t)) with (deriv_at (S q) (chebT (S m)) (cos t)). rewrite deriv_at_S.
  rewrite (peq_dn q _ (pscale (INR m + 1) (chebU m))); [apply deriv_at_pscale|]. intros x. rewrite peval_pscale. apply T_deriv.
Qed.
Lemma cD_S0 q n : cD (S q) n 0 = 0.
Proof.
  unfold cD. rewrite <- (cip_nil_r (chebT n)). apply cip_ext; [reflexivity|]. intros t. apply (deriv_at_const q 1).
Qed.
Lemma cE_0 q n : cE q n 0 = cD q n 0. Proof. reflexivity. Qed.
Lemma cE_1 q n : cE q n 1 = 2 * cD q n 1.
Proof.
  unfold cD, cE. rewrite <- cip_pscale_r. apply cip_ext; [reflexivity|]. intros t. rewrite peval_pscale.
  change (deriv_at q (chebU 1) (cos t) = 2 * deriv_at q (chebT 1) (cos t)).
  rewrite <- (deriv_at_pscale q 2). apply peq_dn. intros x. simpl. ring.
Qed.
Lemma cE_SS q n m : cE q n (S (S m)) = cE q n m + 2 * cD q n (S (S m)).
Proof.
  unfold cD, cE. rewrite <- cip_pscale_r, <- cip_padd_r. apply cip_ext; [reflexivity|]. intros t.
  rewrite peval_padd, peval_pscale.
  change (deriv_at q (chebU (S (S m))) (cos t) = deriv_at q (chebU m) (cos t) + 2 * deriv_at q (chebT (S (S m))) (cos t)).
  rewrite <- (deriv_at_pscale q 2), <- (deriv_at_padd q). apply peq_dn. intros x.
  rewrite peval_padd, peval_pscale. pose proof (TU m x). lra.
Qed.
Lemma two_step (F G : nat -> R) : F 0%nat = G 0%nat -> F 1%nat = G 1%nat ->
  (forall m, F m = G m -> F (S (S m)) = G (S (S m))) -> forall m, F m = G m.
Proof.
  intros H0 H1 HS m. assert (H : F m = G m /\ F (S m) = G (S m)); [|tauto].
  induction m as [|m [A B]]; [tauto|]. split; [exact B|]. apply HS, A.
Qed.

Definition odd1 (n m : nat) : R := (1 - (-1) ^ (n + m)) / 2.
Definition even1 (n m : nat) : R := (1 + (-1) ^ (n + m)) / 2.
Definition c01 (n m : nat) : R := if Nat.leb m n then 0 else PI * INR m * odd1 n m.
Definition c02 (n m : nat) : R := if Nat.leb m n then 0 else PI / 2 * INR m * (INR m ^ 2 - INR n ^ 2) * even1 n m.
Definition c03 (n m : nat) : R := if Nat.leb m n then 0 else
  PI / 8 * INR m * (INR m ^ 4 - 2 * INR m ^ 2 - 2 * INR m ^ 2 * INR n ^ 2 + (INR n ^ 2 - 1) ^ 2) * odd1 n m.
Definition c04 (n m : nat) : R := if Nat.leb m n then 0 else
  PI / 48 * INR m * (INR m ^ 2 * (INR m ^ 2 - 4) ^ 2 - 3 * INR m ^ 4 * INR n ^ 2 + 3 * INR m ^ 2 * INR n ^ 4 - INR n ^ 2 * (INR n ^ 2 - 4) ^ 2) * even1 n m.
(** the table of U: (T_n, D^q U_m) = table (q+1) (n, m+1) / (m+1) *)
Lemma from_E q n (D : nat -> nat -> R) : D n 0%nat = 0 ->
  (forall m, cE q n m = D n (S m) / (INR m + 1)) -> forall m, cD (S q) n m = D n m.
Proof.
  intros H0 H [|m]; [rewrite H0; apply cD_S0|]. rewrite cD_S, H. pose proof (pos_INR m). field. lra.
Qed.
Ltac cstep := unfold odd1, even1; rewrite <- ?plus_n_Sm; cbn [pow Nat.add]; inrs; pows; inrs; absx; try (field; lra).
Ltac cbase n := destruct n as [|[|[|n]]]; decide_nat; cstep.
(** n <= k, n = k + 1, n = k + 2, or above *)
Ltac csplit n k := let H := fresh "L" in
  destruct (Nat.le_gt_cases n k) as [H|H]; [|destruct (Nat.eq_dec n (S k)) as [->|]; [|destruct (Nat.eq_dec n (S (S k))) as [->|]]];
  decide_nat; cstep.
Lemma cc01 n m : cD 1 n m = c01 n m.
Proof.
  apply (from_E 0 n c01); [reflexivity|]. apply two_step.
  - rewrite cE_0. change (cD 0 n 0) with (cip (chebT n) (chebT 0)). rewrite cc00. unfold c00, c01. cbase n.
  - rewrite cE_1. change (cD 0 n 1) with (cip (chebT n) (chebT 1)). rewrite cc00. unfold c00, c01. cbase n.
  - intros k IH. rewrite cE_SS, IH. change (cD 0 n (S (S k))) with (cip (chebT n) (chebT (S (S k)))). rewrite cc00. unfold c00, c01.
    csplit n k.
Qed.
Lemma cc02 n m : cD 2 n m = c02 n m.
Proof.
  apply (from_E 1 n c02); [reflexivity|]. apply two_step.
  - rewrite cE_0, cc01. unfold c01, c02. cbase n.
  - rewrite cE_1, cc01. unfold c01, c02. cbase n.
  - intros k IH. rewrite cE_SS, IH, cc01. unfold c01, c02. csplit n k.
Qed.
Lemma cc03 n m : cD 3 n m = c03 n m.
Proof.
  apply (from_E 2 n c03); [reflexivity|]. apply two_step.
  - rewrite cE_0, cc02. unfold c02, c03. cbase n.
  - rewrite cE_1, cc02. unfold c02, c03. cbase n.
  - intros k IH. rewrite cE_SS, IH, cc02. unfold c02, c03. csplit n k.
Qed.
Lemma cc04 n m : cD 4 n m = c04 n m.
Proof.
  apply (from_E 3 n c04); [reflexivity|]. apply two_step.
  - rewrite cE_0, cc03. unfold c03, c04. cbase n.
  - rewrite cE_1, cc03. unfold c03, c04. cbase n.
  - intros k IH. rewrite cE_SS, IH, cc03. unfold c03, c04. csplit n k.
Qed.
