(** MatrixProofs.v -- integrals of polynomials. *)
From Coq Require Import Reals Lra Lia List Arith ZArith.
From Verif Require Import Base Fld RPoly MatrixSpec.
Import ListNotations.
Local Open Scope R_scope.

(** ** Newton's integral, and from it the Riemann integral *)
Definition newton (f : R -> R) (a b v : R) : Prop :=
  exists F, (forall x, derivable_pt_lim F x (f x)) /\ F b - F a = v.

Lemma newton_ext f g a b v : (forall x, f x = g x) -> newton f a b v -> newton g a b v.
Proof. intros E (F & HF & V). exists F. split; [intros x; rewrite <- E; apply HF|exact V]. Qed.
Lemma newton_0 a b : newton (fun _ => 0) a b 0.
Proof. exists (fun _ => 0). split; [intros x; apply derivable_pt_lim_const|ring]. Qed.
Lemma newton_add f g a b u v : newton f a b u -> newton g a b v -> newton (fun x => f x + g x) a b (u + v).
Proof.
  intros (F & HF & <-) (G & HG & <-). exists (fun x => F x + G x).
  split; [intros x; apply (derivable_pt_lim_plus F G); auto|ring].
Qed.
Lemma newton_scal c f a b u : newton f a b u -> newton (fun x => c * f x) a b (c * u).
Proof.
  intros (F & HF & <-). exists (fun x => c * F x).
  split; [intros x; apply (derivable_pt_lim_scal F); auto|ring].
Qed.

Lemma newton_integral f a b v : a <= b -> continuity f -> newton f a b v -> integral f a b v.
Proof.
  intros Hab C (F & HF & V).
  assert (D : derivable F) by (intros x; exists (f x); apply HF).
  assert (E : forall x, derive F D x = f x).
  { intros x. unfold derive. apply derive_pt_eq_0, HF. }
  assert (C1 : continuity (derive F D)).
  { intros x. intros e He. destruct (C x e He) as (d & Hd & H). exists d. split; [exact Hd|].
    intros y Hy. rewrite !E. apply H, Hy. }
  pose (FF := @mkC1 F D C1).
  assert (P1 : Riemann_integrable f a b) by (apply continuity_implies_RiemannInt; [exact Hab|intros x _; apply C]).
  assert (P2 : Riemann_integrable (derive (c1 FF) (diff0 FF)) a b) by (apply continuity_implies_RiemannInt; [exact Hab|intros x _; apply C1]).
  exists P1. rewrite <- V. change F with (c1 FF). rewrite <- (FTC_Riemann FF P2).
  apply RiemannInt_P18; [exact Hab|]. intros x _. symmetry. apply E.
Qed.

Lemma continuity_peval p : continuity (peval p).
Proof. intros x. apply derivable_continuous_pt. exists (peval (pderiv p) x). apply pderiv_correct. Qed.

(** the value of an integral is unique *)
Lemma integral_unique f a b u v : integral f a b u -> integral f a b v -> u = v.
Proof. intros (p & <-) (q & <-). apply RiemannInt_P5. Qed.

(** ** products of polynomials *)
Fixpoint pmul (p q : poly) : poly := match p with [] => [] | a :: p => padd (pscale a q) (pX (pmul p q)) end.
Lemma peval_pmul p q x : peval (pmul p q) x = peval p x * peval q x.
Proof. induction p as [|a p IH]; simpl; [ring|]. rewrite peval_padd, peval_pscale, peval_pX, IH. ring. Qed.
Lemma pderiv_pmul p q x : peval (pderiv (pmul p q)) x = peval (pderiv p) x * peval q x + peval p x * peval (pderiv q) x.
Proof.
  induction p as [|a p IH]; simpl; [ring|].
  rewrite pderiv_padd, pderiv_pscale, pderiv_pX, peval_pmul, IH, peval_padd, peval_pX. ring.
Qed.

(** ** the integral of a polynomial over [-1, 1] *)
(** antiderivative with p_i/(d+i+1): the list of coefficients *)
Fixpoint prim_from (d : nat) (p : poly) : poly :=
  match p with [] => [] | a :: p => a / INR (S d) :: prim_from (S d) p end.
Definition pprim (p : poly) : poly := 0 :: prim_from 0 p.
Lemma pderiv_prim_from d p x :
  INR d * peval (prim_from d p) x + x * peval (pderiv (prim_from d p)) x + peval (prim_from d p) x = peval p x.
Proof.
  revert d. induction p as [|a p IH]; intros d; cbn [prim_from peval pderiv]; [ring|].
  rewrite peval_padd, peval_pX. specialize (IH (S d)). rewrite S_INR in IH. rewrite <- IH.
  pose proof (pos_INR d). rewrite S_INR. field. lra.
Qed.
Lemma pderiv_pprim p x : peval (pderiv (pprim p)) x = peval p x.
Proof.
  unfold pprim. change (0 :: prim_from 0 p) with (pX (prim_from 0 p)). rewrite pderiv_pX.
  pose proof (pderiv_prim_from 0 p x) as H. cbn [INR] in H. rewrite <- H. ring.
Qed.

Definition pint (p : poly) : R := peval (pprim p) 1 - peval (pprim p) (-1).
Lemma pint_newton p : newton (peval p) (-1) 1 (pint p).
Proof. exists (peval (pprim p)). split; [|reflexivity]. intros x. rewrite <- pderiv_pprim. apply pderiv_correct. Qed.
Lemma newton_unique f a b u v : newton f a b u -> newton f a b v -> u = v.
Proof.
  intros (F & HF & <-) (G & HG & <-).
  assert (E : forall x y, F x - G x = F y - G y); [|pose proof (E a b); lra].
  assert (D : derivable (fun x => F x - G x)).
  { intros x. exists (f x - f x). apply (derivable_pt_lim_minus F G); auto. }
  intros x y. apply (null_derivative_1 (fun x => F x - G x) D).
  intros z. apply derive_pt_eq_0. replace 0 with (f z - f z) by ring. apply (derivable_pt_lim_minus F G); auto.
Qed.
Lemma pint_ext p q : (forall x, peval p x = peval q x) -> pint p = pint q.
Proof. intros H. eapply newton_unique; [apply pint_newton|]. eapply newton_ext; [|apply pint_newton]. intros x; rewrite H; reflexivity. Qed.
Lemma pint_deriv p q : (forall x, peval p x = peval (pderiv q) x) -> pint p = peval q 1 - peval q (-1).
Proof.
  intros H. eapply newton_unique; [apply pint_newton|]. exists (peval q). split; [|reflexivity].
  intros x. rewrite H. apply pderiv_correct.
Qed.
Lemma pint_padd p q : pint (padd p q) = pint p + pint q.
Proof.
  eapply newton_unique; [apply pint_newton|]. eapply newton_ext; [|apply newton_add; apply pint_newton].
  intros x. cbv beta. rewrite peval_padd. reflexivity.
Qed.
Lemma pint_pscale c p : pint (pscale c p) = c * pint p.
Proof.
  eapply newton_unique; [apply pint_newton|]. eapply newton_ext; [|apply newton_scal; apply pint_newton].
  intros x. cbv beta. rewrite peval_pscale. reflexivity.
Qed.

(** ** the inner product *)
Definition ip (p q : poly) : R := pint (pmul p q).
Lemma ip_ext p p' q q' : (forall x, peval p x = peval p' x) -> (forall x, peval q x = peval q' x) -> ip p q = ip p' q'.
Proof. intros H1 H2. apply pint_ext. intros x. rewrite !peval_pmul, H1, H2. reflexivity. Qed.
Lemma ip_comm p q : ip p q = ip q p.
Proof. apply pint_ext. intros x. rewrite !peval_pmul. ring. Qed.
Lemma ip_padd_r p q r : ip p (padd q r) = ip p q + ip p r.
Proof. unfold ip. rewrite <- pint_padd. apply pint_ext. intros x. rewrite peval_padd, !peval_pmul, peval_padd. ring. Qed.
Lemma ip_pscale_r p c q : ip p (pscale c q) = c * ip p q.
Proof. unfold ip. rewrite <- pint_pscale. apply pint_ext. intros x. rewrite peval_pscale, !peval_pmul, peval_pscale. ring. Qed.
Lemma ip_padd_l p q r : ip (padd p q) r = ip p r + ip q r.
Proof. rewrite !(ip_comm _ r). apply ip_padd_r. Qed.
Lemma ip_pscale_l p c q : ip (pscale c p) q = c * ip p q.
Proof. rewrite !(ip_comm _ q). apply ip_pscale_r. Qed.
Lemma ip_pX p q : ip (pX p) q = ip p (pX q).
Proof. apply pint_ext. intros x. rewrite !peval_pmul, !peval_pX. ring. Qed.
Lemma ip_parts p q : ip (pderiv p) q = peval p 1 * peval q 1 - peval p (-1) * peval q (-1) - ip p (pderiv q).
Proof.
  assert (H : ip (pderiv p) q + ip p (pderiv q) = peval p 1 * peval q 1 - peval p (-1) * peval q (-1)); [|lra].
  unfold ip. rewrite <- pint_padd, <- !peval_pmul. apply pint_deriv. intros x.
  rewrite pderiv_pmul, peval_padd, !peval_pmul. reflexivity.
Qed.
Lemma ip_nil_r p : ip p [] = 0.
Proof. rewrite (ip_ext p p [] (pscale 0 [])); [rewrite ip_pscale_r; ring| |]; intros; simpl; ring. Qed.

Lemma ip_leg w p q : leg_inner (peval w) (peval p) (peval q) (ip (pmul w p) q).
Proof.
  unfold leg_inner. apply newton_integral; [lra| |].
  - intros x e He. destruct (continuity_peval (pmul (pmul w p) q) x e He) as (d & Hd & H). exists d. split; [exact Hd|].
    intros y Hy. specialize (H y Hy). rewrite !peval_pmul in H. exact H.
  - eapply newton_ext; [|apply pint_newton]. intros x. rewrite !peval_pmul. reflexivity.
Qed.

(** ** Legendre polynomials *)
Lemma leg_rec n x : (INR n + 2) * peval (legL (S (S n))) x =
  (2 * INR n + 3) * x * peval (legL (S n)) x - (INR n + 1) * peval (legL n) x.
Proof.
  pose proof (pos_INR n). pose proof (deriv_at_three_term (fun n => (2 * INR n + 3) / (INR n + 2)) (fun _ => 0)
    (fun n => (INR n + 1) / (INR n + 2)) [0; 1] 0 n x) as E.
  unfold deriv_at in E. cbn [dn] in E. fold legL in E. rewrite E. cbn [INR]. field. lra.
Qed.
Lemma leg_rec' n x : (INR n + 2) * peval (pderiv (legL (S (S n)))) x =
  (2 * INR n + 3) * (x * peval (pderiv (legL (S n))) x + peval (legL (S n)) x) - (INR n + 1) * peval (pderiv (legL n)) x.
Proof.
  pose proof (pos_INR n). pose proof (deriv_at_three_term (fun n => (2 * INR n + 3) / (INR n + 2)) (fun _ => 0)
    (fun n => (INR n + 1) / (INR n + 2)) [0; 1] 1 n x) as E.
  unfold deriv_at in E. cbn [dn pred] in E. fold legL in E. rewrite E. cbn [INR]. field. lra.
Qed.
(** the two classical derivative identities *)
Lemma leg_AB n x :
  peval (pderiv (legL (S n))) x - x * peval (pderiv (legL n)) x = (INR n + 1) * peval (legL n) x /\
  x * peval (pderiv (legL (S n))) x - peval (pderiv (legL n)) x = (INR n + 1) * peval (legL (S n)) x.
Proof.
  induction n as [|n [A B]].
  - cbn. split; ring.
  - pose proof (pos_INR n) as Hn. pose proof (leg_rec n x) as R0. pose proof (leg_rec' n x) as R1.
    rewrite S_INR. set (y := INR n) in *. clearbody y.
    set (l2 := peval (legL (S (S n))) x) in *. set (l1 := peval (legL (S n)) x) in *. set (l0 := peval (legL n) x) in *.
    set (d2 := peval (pderiv (legL (S (S n)))) x) in *. set (d1 := peval (pderiv (legL (S n))) x) in *.
    set (d0 := peval (pderiv (legL n)) x) in *. clearbody l2 l1 l0 d2 d1 d0.
    assert (A1 : d2 - x * d1 = (y + 1 + 1) * l1).
    { apply Rmult_eq_reg_l with (y + 2); [|lra]. rewrite Rmult_minus_distr_l, R1.
      replace d0 with (x * d1 - (y + 1) * l1) by lra. ring. }
    split; [exact A1|].
    assert (C : (x * x - 1) * d1 = (y + 1) * (x * l1 - l0)).
    { replace ((x * x - 1) * d1) with (x * (x * d1) - d1) by ring.
      replace (x * d1) with (d0 + (y + 1) * l1) by lra. replace d1 with (x * d0 + (y + 1) * l0) at 1 by lra. ring. }
    replace d2 with (x * d1 + (y + 1 + 1) * l1) by lra.
    replace ((y + 1 + 1) * l2) with ((2 * y + 3) * x * l1 - (y + 1) * l0) by lra.
    replace (x * (x * d1 + (y + 1 + 1) * l1) - d1) with ((x * x - 1) * d1 + (y + 2) * x * l1) by ring.
    rewrite C. ring.
Qed.
(** (2n+3) L_(n+1) = L'_(n+2) - L'_n *)
Lemma leg_diff n x : (2 * INR n + 3) * peval (legL (S n)) x = peval (pderiv (legL (S (S n)))) x - peval (pderiv (legL n)) x.
Proof.
  destruct (leg_AB (S n) x) as [A _]. destruct (leg_AB n x) as [_ B]. rewrite S_INR in A. lra.
Qed.
(** Legendre's equation: (x^2 L_n')' = L_n'' + n(n+1) L_n, in the form used below *)
Lemma leg_C n x : (x * x - 1) * peval (pderiv (legL (S n))) x = (INR n + 1) * (x * peval (legL (S n)) x - peval (legL n) x).
Proof.
  destruct (leg_AB n x) as [A B].
  replace ((x * x - 1) * peval (pderiv (legL (S n))) x) with (x * (x * peval (pderiv (legL (S n))) x) - peval (pderiv (legL (S n))) x) by ring.
  replace (x * peval (pderiv (legL (S n))) x) with (peval (pderiv (legL n)) x + (INR n + 1) * peval (legL (S n)) x) by lra.
  replace (peval (pderiv (legL (S n))) x) with (x * peval (pderiv (legL n)) x + (INR n + 1) * peval (legL n) x) by lra. ring.
Qed.

(** values at the ends *)
From Verif Require Import StencilModel StencilSpec StencilProofs.
Lemma legr n : peval (legL n) 1 = 1. Proof. exact (legL_right n 0 (Nat.le_0_l 5)). Qed.
Lemma legl n : peval (legL n) (-1) = (-1) ^ n.
Proof. pose proof (legL_left n 0 (Nat.le_0_l 5)) as H. cbn [vL pow] in H. rewrite !Rmult_1_r in H. exact H. Qed.

Lemma leg_int_0 n : pint (legL (S n)) = 0.
Proof.
  assert (H : (2 * INR n + 3) * pint (legL (S n)) = 0).
  { rewrite <- pint_pscale.
    rewrite (pint_deriv _ (padd (legL (S (S n))) (pscale (-1) (legL n)))).
    - rewrite !peval_padd, !peval_pscale, !legr, !legl. cbn [pow]. ring.
    - intros x. rewrite peval_pscale, pderiv_padd, pderiv_pscale, leg_diff. ring. }
  pose proof (pos_INR n). apply Rmult_integral in H. destruct H; [lra|assumption].
Qed.

(** L_n is orthogonal to every polynomial of lower degree *)
Lemma ip_leg_rec n q : (2 * INR n + 3) * ip (legL (S n)) (pX q) = (INR n + 2) * ip (legL (S (S n))) q + (INR n + 1) * ip (legL n) q.
Proof.
  rewrite <- ip_pX, <- !ip_pscale_l, <- ip_padd_l. apply ip_ext; [|reflexivity]. intros x.
  rewrite peval_padd, !peval_pscale, peval_pX. pose proof (leg_rec n x). lra.
Qed.
Lemma leg_orth q : forall n, (length q <= n)%nat -> ip (legL n) q = 0.
Proof.
  induction q as [|a q IH]; intros n H; [apply ip_nil_r|].
  cbn [length] in H. destruct n as [|n]; [lia|].
  rewrite (ip_ext _ (legL (S n)) _ (padd (pscale a [1]) (pX q))); [|reflexivity|].
  2: { intros x. rewrite peval_padd, peval_pscale, peval_pX. simpl. ring. }
  rewrite ip_padd_r, ip_pscale_r.
  replace (ip (legL (S n)) [1]) with 0.
  2: { symmetry. rewrite <- (leg_int_0 n). apply pint_ext. intros x. rewrite peval_pmul. simpl. ring. }
  pose proof (ip_leg_rec n q) as E. rewrite (IH (S (S n))), (IH n) in E by lia.
  pose proof (pos_INR n).
  assert (ip (legL (S n)) (pX q) = 0) as ->; [|ring].
  apply Rmult_eq_reg_l with (2 * INR n + 3); [|lra]. rewrite E. ring.
Qed.

(** degrees *)
Definition deglt (d : nat) (p : poly) : Prop := exists q, (length q <= d)%nat /\ forall x, peval p x = peval q x.
Lemma length_padd p q : length (padd p q) = Nat.max (length p) (length q).
Proof. revert q; induction p as [|a p IH]; intros [|b q]; simpl; auto. Qed.
Lemma deglt_mono d e p : (d <= e)%nat -> deglt d p -> deglt e p.
Proof. intros H (q & Hq & E). exists q. split; [lia|exact E]. Qed.
Lemma deglt_ext d p q : (forall x, peval p x = peval q x) -> deglt d p -> deglt d q.
Proof. intros H (r & Hr & E). exists r. split; [exact Hr|]. intros x. rewrite <- H. apply E. Qed.
Lemma deglt_padd d p q : deglt d p -> deglt d q -> deglt d (padd p q).
Proof.
  intros (p' & Hp & Ep) (q' & Hq & Eq). exists (padd p' q'). split; [rewrite length_padd; lia|].
  intros x. rewrite !peval_padd, Ep, Eq. reflexivity.
Qed.
Lemma deglt_pscale d c p : deglt d p -> deglt d (pscale c p).
Proof.
  intros (p' & Hp & Ep). exists (pscale c p'). split; [unfold pscale; rewrite map_length; lia|].
  intros x. rewrite !peval_pscale, Ep. reflexivity.
Qed.
Lemma deglt_pX d p : deglt d p -> deglt (S d) (pX p).
Proof.
  intros (p' & Hp & Ep). exists (pX p'). split; [unfold pX; cbn [length]; lia|].
  intros x. rewrite !peval_pX, Ep. reflexivity.
Qed.
Fixpoint dfrom (d : nat) (p : poly) : poly := match p with [] => [] | a :: p => INR d * a :: dfrom (S d) p end.
Lemma peval_dfrom d p x : peval (dfrom d p) x = INR d * peval p x + x * peval (pderiv p) x.
Proof.
  revert d. induction p as [|a p IH]; intros d; cbn [dfrom peval pderiv]; [ring|].
  rewrite IH, peval_padd, peval_pX, S_INR. ring.
Qed.
Lemma length_dfrom d p : length (dfrom d p) = length p.
Proof. revert d. induction p as [|a p IH]; intros d; cbn [dfrom length]; auto. Qed.
Lemma deglt_pderiv d p : deglt d p -> deglt (pred d) (pderiv p).
Proof.
  intros (p' & Hp & Ep). destruct p' as [|a p'].
  - exists []. split; [simpl; lia|]. intros x. rewrite (peq_deriv _ _ Ep). reflexivity.
  - exists (dfrom 1 p'). split; [rewrite length_dfrom; cbn [length] in Hp; lia|].
    intros x. rewrite (peq_deriv _ _ Ep), peval_dfrom. cbn [pderiv]. rewrite peval_padd, peval_pX. cbn [INR]. ring.
Qed.
Lemma deglt_dn k d p : deglt d p -> deglt (d - k) (dn k p).
Proof.
  intros H. induction k; cbn [dn]; [replace (d - 0)%nat with d by lia; exact H|].
  replace (d - S k)%nat with (pred (d - k)) by lia. apply deglt_pderiv, IHk.
Qed.
Lemma deglt_three_term A B C p1 n : deglt 2 p1 -> deglt (S n) (three_term A B C p1 n).
Proof.
  intros H1.
  assert (deglt (S n) (three_term A B C p1 n) /\ deglt (S (S n)) (three_term A B C p1 (S n))) as [? ?]; [|assumption].
  induction n as [|n [IH1 IH2]].
  - split; [exists [1]; split; [simpl; lia|reflexivity]|exact H1].
  - split; [exact IH2|]. rewrite three_term_SS.
    repeat apply deglt_padd; apply deglt_pscale; [apply deglt_pX; exact IH2| |]; (eapply deglt_mono; [|eassumption]); lia.
Qed.
Lemma deglt_legL n : deglt (S n) (legL n).
Proof. apply deglt_three_term. exists [0; 1]. split; [simpl; lia|reflexivity]. Qed.
Lemma leg_orthd n q : deglt n q -> ip (legL n) q = 0.
Proof. intros (p & Hp & E). rewrite (ip_ext _ (legL n) _ p); [apply leg_orth, Hp|reflexivity|exact E]. Qed.
Lemma deglt_leg_dn k n d : (S n - k <= d)%nat -> deglt d (dn k (legL n)).
Proof. intros H. eapply deglt_mono; [exact H|]. apply deglt_dn, deglt_legL. Qed.

(** ** the tables *)
Lemma t00_neq n m : n <> m -> ip (legL n) (legL m) = 0.
Proof.
  intros H. destruct (Nat.lt_trichotomy n m) as [L|[->|L]]; [|lia|].
  - rewrite ip_comm. apply leg_orthd, (deglt_leg_dn 0). lia.
  - apply leg_orthd, (deglt_leg_dn 0). lia.
Qed.
Lemma t00_eq n : ip (legL n) (legL n) = 2 / (2 * INR n + 1).
Proof.
  induction n as [|n IH].
  - unfold ip. rewrite (pint_deriv _ [0; 1]); [simpl; field|]. intros x. simpl. ring.
  - pose proof (pos_INR n) as Hn. destruct n as [|n].
    + unfold ip. rewrite (pint_deriv _ [0; 0; 0; 1 / 3]); [simpl; field|]. intros x. simpl. field.
    + pose proof (ip_leg_rec n (legL (S (S n)))) as E. rewrite (t00_neq n (S (S n))) in E by lia.
      rewrite <- ip_pX, ip_comm in E.
      pose proof (ip_leg_rec (S n) (legL (S n))) as E2. rewrite (t00_neq (S (S (S n)))) in E2 by lia.
      rewrite IH in E2. rewrite !S_INR in *. set (y := INR n) in *. pose proof (pos_INR n). fold y in H. clearbody y.
      set (u := ip (legL (S (S n))) (legL (S (S n)))) in *.
      set (v := ip (legL (S (S n))) (pX (legL (S n)))) in *. clearbody u v.
      assert (v = 2 * (y + 2) / ((2 * y + 3) * (2 * y + 5))).
      { apply Rmult_eq_reg_l with (2 * (y + 1) + 3); [|lra]. rewrite E2. field. lra. }
      apply Rmult_eq_reg_l with (y + 2); [|lra]. replace ((y + 2) * u) with ((2 * y + 3) * v) by lra. subst v. field. lra.
Qed.
Definition T00 (n m : nat) : R := if Nat.eqb n m then 2 / (2 * INR n + 1) else 0.
Lemma t00 n m : ip (legL n) (legL m) = T00 n m.
Proof. unfold T00. destruct (Nat.eqb_spec n m) as [->|]; [apply t00_eq|apply t00_neq; assumption]. Qed.

Definition T01 (n m : nat) : R := if Nat.leb m n then 0 else 1 - (-1) ^ (n + m).
Lemma t01 n m : ip (legL n) (pderiv (legL m)) = T01 n m.
Proof.
  unfold T01. destruct (Nat.leb_spec m n).
  - apply leg_orthd, (deglt_leg_dn 1). lia.
  - rewrite ip_comm, ip_parts, !legr, !legl, leg_orthd by (apply (deglt_leg_dn 1); lia). rewrite pow_add. ring.
Qed.
