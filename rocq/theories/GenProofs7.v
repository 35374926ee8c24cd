(** GenProofs7.v -- Chebyshev polynomials of both kinds: scaled Jacobi polynomials, scalar products, and the test functions Phi_k. *)
From Coq Require Import Reals ZArith List Bool Arith Lia Lra.
From Verif Require Import Base Fld SparseModel SparseSpec RPoly StencilModel StencilSpec StencilProofs StencilProofs8 MatrixSpec MatrixProofs ChebMatrixProofs UTransSpec UTransProofs2
  JacobiModel JacobiProofs2 JacobiProofs3 JacobiProofs4 GenModel GenSpec GenProofs GenProofs2 GenProofs3 GenProofs4 GenProofs5 GenProofs6.
Import ListNotations.
Local Open Scope R_scope.
Notation rsum := (gsum 0 Rplus).

(** ** T_n and U_n are P_n^(-1/2,-1/2) / P_n(1) and (n+1) P_n^(1/2,1/2) / P_n(1) *)
Fixpoint rT (n : nat) : R := match n with O => 1 | S n => rT n * (INR n + 1 / 2) / (INR n + 1) end.
Fixpoint rU (n : nat) : R := match n with O => 1 | S n => rU n * (INR n + 3 / 2) / (INR n + 2) end.
Lemma rT_pos n : 0 < rT n.
Proof. induction n as [|n IH]; cbn [rT]; [lra|]. pose proof (pos_INR n). apply Rmult_lt_0_compat; [apply Rmult_lt_0_compat; lra|apply Rinv_0_lt_compat; lra]. Qed.
Lemma rU_pos n : 0 < rU n.
Proof. induction n as [|n IH]; cbn [rU]; [lra|]. pose proof (pos_INR n). apply Rmult_lt_0_compat; [apply Rmult_lt_0_compat; lra|apply Rinv_0_lt_compat; lra]. Qed.
Lemma jac_T n x : peval (jacP (- / 2) (- / 2) n) x = rT n * peval (chebT n) x.
Proof.
  enough (peval (jacP (- / 2) (- / 2) n) x = rT n * peval (chebT n) x /\ peval (jacP (- / 2) (- / 2) (S n)) x = rT (S n) * peval (chebT (S n)) x) by tauto.
  induction n as [|n [H1 H2]].
  - split; cbn; field.
  - split; [exact H2|]. rewrite chebT_SS. unfold jacP in *. cbn [three_term]. cbn [three_term] in H2. pose proof (pos_INR n). rewrite !peval_padd, !peval_pscale, !peval_pX.
    rewrite H1, H2. cbn [rT]. rewrite S_INR. field. repeat split; lra.
Qed.
Lemma jac_U n x : peval (jacP (/ 2) (/ 2) n) x = rU n * peval (chebU n) x.
Proof.
  enough (peval (jacP (/ 2) (/ 2) n) x = rU n * peval (chebU n) x /\ peval (jacP (/ 2) (/ 2) (S n)) x = rU (S n) * peval (chebU (S n)) x) by tauto.
  induction n as [|n [H1 H2]].
  - split; cbn; field.
  - split; [exact H2|]. rewrite chebU_SS. unfold jacP in *. cbn [three_term]. cbn [three_term] in H2. pose proof (pos_INR n). rewrite !peval_padd, !peval_pscale, !peval_pX.
    rewrite H1, H2. cbn [rU]. rewrite S_INR. field. repeat split; lra.
Qed.
Lemma chebT_1 n : peval (chebT n) 1 = 1.
Proof.
  enough (peval (chebT n) 1 = 1 /\ peval (chebT (S n)) 1 = 1) by tauto.
  induction n as [|n [H1 H2]]; [split; cbn; ring|]. split; [exact H2|]. rewrite chebT_SS, H1, H2. ring.
Qed.
Lemma chebU_1 n : peval (chebU n) 1 = INR n + 1.
Proof.
  enough (peval (chebU n) 1 = INR n + 1 /\ peval (chebU (S n)) 1 = INR (S n) + 1) by tauto.
  induction n as [|n [H1 H2]]; [split; cbn; ring|]. split; [exact H2|]. rewrite chebU_SS, H1, H2, !S_INR. ring.
Qed.
(** cn and un of jacobi/recursions.py 63-101 *)
Definition cn (a b : R) (n : nat) : R := 1 / peval (jacP a b n) 1.
Definition un (a b : R) (n : nat) : R := (INR n + 1) / peval (jacP a b n) 1.
Lemma cn_T n : cn (- / 2) (- / 2) n = / rT n.
Proof. unfold cn. rewrite jac_T, chebT_1. pose proof (rT_pos n). field. lra. Qed.
Lemma un_U n : un (/ 2) (/ 2) n = / rU n.
Proof. unfold un. rewrite jac_U, chebU_1. pose proof (rU_pos n). pose proof (pos_INR n). field. lra. Qed.
Definition gT := cn (- / 2) (- / 2).
Definition gU := un (/ 2) (/ 2).
Lemma gT_nz n : gT n <> 0. Proof. unfold gT. rewrite cn_T. pose proof (rT_pos n). apply Rinv_neq_0_compat. lra. Qed.
Lemma gU_nz n : gU n <> 0. Proof. unfold gU. rewrite un_U. pose proof (rU_pos n). apply Rinv_neq_0_compat. lra. Qed.
Lemma jacQ_T n x : peval (jacQ gT (- / 2) (- / 2) n) x = peval (chebT n) x.
Proof. unfold jacQ, gT. rewrite peval_pscale, cn_T, jac_T. pose proof (rT_pos n). field. lra. Qed.
Lemma jacQ_U n x : peval (jacQ gU (/ 2) (/ 2) n) x = peval (chebU n) x.
Proof. unfold jacQ, gU. rewrite peval_pscale, un_U, jac_U. pose proof (rU_pos n). field. lra. Qed.
Definition T_am := jac_am gT (- / 2) (- / 2).
Definition T_bm := jac_bm gT (- / 2) (- / 2).
Definition U_am := jac_am gU (/ 2) (/ 2).
Definition U_bm := jac_bm gU (/ 2) (/ 2).
Lemma T_dpowers k : (0 < k)%nat -> dpowers chebT k (T_am k).
Proof. intros H. apply (dpowers_ext _ _ _ _ jacQ_T). apply jac_dpowers; [lra|lra|exact gT_nz|lia]. Qed.
Lemma T_integrates : integrates chebT T_bm.
Proof. apply (integrates_ext _ _ _ jacQ_T). apply jac_integrates; [lra|lra|exact gT_nz]. Qed.
Lemma U_dpowers k : (0 < k)%nat -> dpowers chebU k (U_am k).
Proof. intros H. apply (dpowers_ext _ _ _ _ jacQ_U). apply jac_dpowers; [lra|lra|exact gU_nz|lia]. Qed.
Lemma U_integrates : integrates chebU U_bm.
Proof. apply (integrates_ext _ _ _ jacQ_U). apply jac_integrates; [lra|lra|exact gU_nz]. Qed.

(** ** the scalar products with weights 1/sqrt(1-x^2) and sqrt(1-x^2) *)
Lemma cip_form : is_form cip.
Proof.
  split; [intros p p' q q' H1 H2; apply cip_ext; intros; [apply H1|apply H2]|].
  split; [intros; rewrite !(cip_comm _ r); apply cip_padd_r|]. split; [intros; rewrite !(cip_comm _ q); apply cip_pscale_r|].
  split; [intros; apply cip_padd_r|]. split; [intros; apply cip_pscale_r|]. intros; apply cip_pX.
Qed.
(** (p, q)_U = (p, (1-x^2) q)_T *)
Definition oneminus (q : poly) : poly := padd q (pscale (-1) (pX (pX q))).
Lemma peval_oneminus q x : peval (oneminus q) x = (1 - x ^ 2) * peval q x.
Proof. unfold oneminus. rewrite peval_padd, peval_pscale, !peval_pX. ring. Qed.
Definition uip (p q : poly) : R := cip p (oneminus q).
Lemma uip_form : is_form uip.
Proof.
  pose proof cip_form as (E & A1 & S1 & A2 & S2 & X). unfold uip. split; [|split; [|split; [|split; [|split]]]].
  - intros p p' q q' H1 H2. apply E; [exact H1|]. intros x. rewrite !peval_oneminus, H2. reflexivity.
  - intros. apply A1.
  - intros. apply S1.
  - intros p q r. rewrite <- A2. apply E; [reflexivity|]. intros x. rewrite peval_padd, !peval_oneminus, peval_padd. ring.
  - intros c p q. rewrite <- S2. apply E; [reflexivity|]. intros x. rewrite peval_pscale, !peval_oneminus, peval_pscale. ring.
  - intros p q. rewrite X. apply E; [reflexivity|]. intros x. rewrite peval_pX, !peval_oneminus, peval_pX. ring.
Qed.
(** the values are the integrals *)
Definition cheb_inner_m (w : R -> R) (u v : R -> R) (r : R) : Prop := cheb_inner (fun x => w x * u x) v r.
Definition chebu_inner_m (w : R -> R) (u v : R -> R) (r : R) : Prop := chebu_inner (fun x => w x * u x) v r.
Lemma integral_ext (f g : R -> R) a b v : (forall x, f x = g x) -> integral f a b v -> integral g a b v.
Proof.
  intros E (prf & V). assert (prf' : Riemann_integrable g a b) by (eapply Riemann_integrable_ext; [intros x _; apply E|exact prf]).
  exists prf'. rewrite <- V. destruct (Rle_dec a b) as [L|L].
  - apply RiemannInt_P18; [exact L|]. intros x _. symmetry. apply E.
  - assert (a >= b) by lra. rewrite (RiemannInt_P8 prf' (RiemannInt_P1 prf')), (RiemannInt_P8 prf (RiemannInt_P1 prf)). f_equal.
    apply RiemannInt_P18; [lra|]. intros x _. symmetry. apply E.
Qed.
Lemma cip_integral m p q : cheb_inner_m (mval m) (peval p) (peval q) (cip (times m p) q).
Proof.
  unfold cheb_inner_m, cheb_inner. eapply integral_ext; [|apply cint_integral]. intros t. cbn beta. rewrite peval_pmul, times_val. reflexivity.
Qed.
Lemma uip_integral m p q : chebu_inner_m (mval m) (peval p) (peval q) (uip (times m p) q).
Proof.
  unfold chebu_inner_m, chebu_inner. eapply integral_ext; [|apply cint_integral]. intros t. cbn beta. rewrite peval_pmul, times_val, peval_oneminus.
  pose proof (sin2_cos2 t) as H. unfold Rsqr in H. replace (1 - cos t ^ 2) with (sin t ^ 2) by (cbn [pow]; lra). ring.
Qed.
Lemma cip_orth i j : cip (chebT i) (chebT j) = if (i =? j)%nat then (if (i =? 0)%nat then PI else PI / 2) else 0.
Proof.
  rewrite cc00. unfold c00. destruct (Nat.eqb_spec i j) as [->|]; [destruct (Nat.eqb_spec j 0); reflexivity|reflexivity].
Qed.
Lemma uip_orth i j : uip (chebU i) (chebU j) = if (i =? j)%nat then PI / 2 else 0.
Proof.
  pose proof (u_exact_orth i j) as H. pose proof (uip_integral None (chebU i) (chebU j)) as H'. unfold chebu_inner_m, chebu_inner in *.
  cbn [times mval] in H'. eapply integral_ext in H'; [|intros t; rewrite Rmult_1_l; reflexivity].
  destruct H as (p1 & V1). destruct H' as (p2 & V2). rewrite <- V2, (RiemannInt_P5 p2 p1), V1. destruct (i =? j)%nat; [|reflexivity]. reflexivity.
Qed.
