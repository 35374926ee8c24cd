(** GaussInt.v -- the Gaussian integral, from the standard library. *)
From Coq Require Import Reals List Arith Lia Lra.
From Verif Require Import Base RPoly MatrixProofs LHSpec LHProofs2.
Local Open Scope R_scope.

(** ** antiderivatives of continuous functions *)
Lemma any_integrable f a b : continuity f -> Riemann_integrable f a b.
Proof.
  intros C. destruct (Rle_dec a b) as [H|H].
  - apply continuity_implies_RiemannInt; [exact H|intros x _; apply C].
  - apply RiemannInt_P1, continuity_implies_RiemannInt; [lra|intros x _; apply C].
Defined.
Definition prim (f : R -> R) (C : continuity f) (x : R) : R := RiemannInt (any_integrable f 0 x C).
Lemma prim_deriv f C x : derivable_pt_lim (prim f C) x (f x).
Proof.
  set (B := Rabs x + 1). assert (PB : 0 < B) by (unfold B; pose proof (Rabs_pos x); lra).
  assert (Hab : - B <= B) by lra.
  assert (C0 : forall y, - B <= y <= B -> continuity_pt f y) by (intros y _; apply C).
  assert (Hx : - B < x < B) by (unfold B; split; [pose proof (Rle_abs (- x)); rewrite Rabs_Ropp in *; lra|pose proof (Rle_abs x); lra]).
  clearbody B. pose (P := primitive Hab (FTC_P1 Hab C0)).
  assert (DP : derivable_pt_lim P x (f x)) by (apply RiemannInt_P28; lra).
  assert (E : forall y, - B <= y <= B -> prim f C y = P y - P 0).
  { intros y Hy. assert (V : forall z (h1 : - B <= z) (h2 : z <= B), P z = RiemannInt (FTC_P1 Hab C0 h1 h2)).
    { intros z h1 h2. unfold P, primitive. destruct (Rle_dec (- B) z); [|contradiction]. destruct (Rle_dec z B); [|contradiction]. apply RiemannInt_P5. }
    destruct Hy as [y1 y2]. assert (z1 : - B <= 0) by lra. assert (z2 : 0 <= B) by lra.
    rewrite (V y y1 y2), (V 0 z1 z2).
    pose proof (RiemannInt_P26 (FTC_P1 Hab C0 z1 z2) (any_integrable f 0 y C) (FTC_P1 Hab C0 y1 y2)) as Q. unfold prim. lra. }
  intros e He. destruct (DP e He) as [d Hd].
  assert (Pd : 0 < Rmin d (Rmin (B - x) (x + B))) by (repeat apply Rmin_pos; [apply cond_pos|lra|lra]).
  exists (mkposreal _ Pd). cbn. intros h H1 H2.
  assert (L1 : Rabs h < d) by (eapply Rlt_le_trans; [exact H2|apply Rmin_l]).
  assert (L2 : Rabs h < B - x) by (eapply Rlt_le_trans; [exact H2|eapply Rle_trans; [apply Rmin_r|apply Rmin_l]]).
  assert (L3 : Rabs h < x + B) by (eapply Rlt_le_trans; [exact H2|eapply Rle_trans; [apply Rmin_r|apply Rmin_r]]).
  pose proof (Rle_abs h). pose proof (Rle_abs (- h)). rewrite Rabs_Ropp in *.
  rewrite !E by lra. replace (P (x + h) - P 0 - (P x - P 0)) with (P (x + h) - P x) by ring. apply Hd; auto.
Qed.
Lemma prim_0 f C : prim f C 0 = 0. Proof. unfold prim. apply RiemannInt_P9. Qed.

Lemma same_anti f F G a b : (forall x, derivable_pt_lim F x (f x)) -> (forall x, derivable_pt_lim G x (f x)) -> F b - F a = G b - G a.
Proof. intros HF HG. apply (newton_unique f a b); [exists F|exists G]; auto. Qed.
Lemma prim_newton f C F x : (forall y, derivable_pt_lim F y (f y)) -> prim f C x = F x - F 0.
Proof. intros H. rewrite <- (same_anti f (prim f C) F 0 x) by (auto using prim_deriv). rewrite prim_0. ring. Qed.
(** a function with a non-negative derivative on [0, b] does not decrease *)
Lemma mono F f b : 0 <= b -> (forall x, derivable_pt_lim F x (f x)) -> (forall x, 0 <= x <= b -> 0 <= f x) -> F 0 <= F b.
Proof.
  intros Hb D N. destruct (Req_dec b 0) as [->|Nb]; [lra|].
  destruct (MVT_cor2 F f 0 b) as (c & E & Hc); [lra|intros; apply D|]. pose proof (N c ltac:(lra)). nra.
Qed.
Lemma prim_le f g Cf Cg b : 0 <= b -> (forall x, 0 <= x <= b -> f x <= g x) -> prim f Cf b <= prim g Cg b.
Proof.
  intros Hb H. pose proof (mono (fun x => prim g Cg x - prim f Cf x) (fun x => g x - f x) b Hb) as M. cbn beta in M.
  rewrite !prim_0 in M. assert (0 - 0 <= prim g Cg b - prim f Cf b); [|lra]. apply M.
  - intros x. apply (derivable_pt_lim_minus (prim g Cg) (prim f Cf)); apply prim_deriv.
  - intros x Hx. pose proof (H x Hx). lra.
Qed.

(** ** the two functions of the classical proof *)
Lemma sq1_pos t : 0 < 1 + t ^ 2. Proof. pose proof (pow2_ge_0 t). lra. Qed.
Definition kern (x t : R) : R := exp (- x ^ 2 * (1 + t ^ 2)) / (1 + t ^ 2).
Definition mkern (x t : R) : R := exp (- x ^ 2 * (1 + t ^ 2)).
Lemma cont_mkern x : continuity (mkern x).
Proof. unfold mkern. intros t. reg. Qed.
Lemma cont_kern x : continuity (kern x).
Proof.
  intros t. unfold kern. apply (continuity_pt_div (mkern x) (fun t => 1 + t ^ 2)); [apply cont_mkern|reg|]. pose proof (sq1_pos t). lra.
Qed.
Definition gauss (t : R) : R := exp (- t ^ 2).
Lemma cont_gauss : continuity gauss. Proof. unfold gauss. intros t. reg. Qed.
Definition GF (x : R) : R := prim gauss cont_gauss x.
Definition GG (x : R) : R := prim (kern x) (cont_kern x) 1.
Definition GJ (x : R) : R := prim (mkern x) (cont_mkern x) 1.
Lemma GF_deriv x : derivable_pt_lim GF x (gauss x). Proof. apply prim_deriv. Qed.

Lemma exp_tangent a b : 0 <= exp b - exp a - (b - a) * exp a.
Proof.
  pose proof (exp_ineq1_le (b - a)) as H. replace b with (a + (b - a)) at 1 by ring. rewrite exp_plus.
  pose proof (exp_pos a). nra.
Qed.
Lemma exp_neg_le a : a <= 0 -> exp a <= 1.
Proof. intros H. destruct H as [H| ->]; [|rewrite exp_0; lra]. rewrite <- exp_0. apply Rlt_le, exp_increasing, H. Qed.
Lemma exp_second a b : a <= 0 -> b <= 0 -> Rabs (exp b - exp a - (b - a) * exp a) <= (b - a) ^ 2.
Proof.
  intros Ha Hb. pose proof (exp_tangent a b) as T1. pose proof (exp_tangent b a) as T2.
  pose proof (exp_pos a). pose proof (exp_pos b). pose proof (exp_neg_le a Ha). pose proof (exp_neg_le b Hb).
  rewrite Rabs_pos_eq by exact T1.
  assert (U : exp b - exp a <= (b - a) * exp b) by lra.
  destruct (Rle_dec a b) as [L|L].
  - assert (exp b - exp a <= b - a) by nra. assert (0 <= exp b - exp a) by nra. nra.
  - assert (b < a) by lra. assert (exp a - exp b <= a - b) by nra. assert (0 <= exp a - exp b) by nra. nra.
Qed.
Lemma kern_second x h t : 0 <= t <= 1 -> Rabs (kern (x + h) t - kern x t + (2 * x * h + h ^ 2) * mkern x t) <= 2 * (2 * x * h + h ^ 2) ^ 2.
Proof.
  intros Ht. unfold kern, mkern. pose proof (sq1_pos t) as S. set (s := 1 + t ^ 2) in *.
  assert (S2 : s <= 2) by (unfold s; nra).
  set (a := - x ^ 2 * s). set (b := - (x + h) ^ 2 * s).
  assert (Ha : a <= 0) by (unfold a; pose proof (pow2_ge_0 x); nra). assert (Hb : b <= 0) by (unfold b; pose proof (pow2_ge_0 (x + h)); nra).
  assert (D : b - a = - (2 * x * h + h ^ 2) * s) by (unfold a, b; ring).
  replace (exp b / s - exp a / s + (2 * x * h + h ^ 2) * exp a) with ((exp b - exp a - (b - a) * exp a) / s) by (rewrite D; field; lra).
  unfold Rdiv. rewrite Rabs_mult, (Rabs_pos_eq (/ s)) by (apply Rlt_le, Rinv_0_lt_compat, S).
  pose proof (exp_second a b Ha Hb) as Q. rewrite D in Q. rewrite D.
  apply (Rmult_le_reg_r s); [exact S|]. rewrite Rmult_assoc, Rinv_l, Rmult_1_r by lra.
  eapply Rle_trans; [exact Q|]. replace ((- (2 * x * h + h ^ 2) * s) ^ 2) with ((2 * x * h + h ^ 2) ^ 2 * s * s) by ring.
  pose proof (pow2_ge_0 (2 * x * h + h ^ 2)). assert (0 <= (2 * x * h + h ^ 2) ^ 2 * s) by nra. nra.
Qed.
Lemma prim_bound f C c : (forall t, 0 <= t <= 1 -> Rabs (f t) <= c) -> Rabs (prim f C 1) <= c.
Proof.
  intros H. assert (C1 : forall d, continuity (fun _ : R => d)) by (intros d t; reg).
  assert (V : forall d, prim (fun _ => d) (C1 d) 1 = d).
  { intros d. rewrite (prim_newton _ _ (fun y => d * y)); [ring|]. intros y. apply lin_deriv. }
  apply Rabs_le. split.
  - rewrite <- (V (- c)). apply prim_le; [lra|]. intros t Ht. pose proof (H t Ht) as Q. pose proof (Rle_abs (f t)). pose proof (Rle_abs (- f t)) as Q2. rewrite Rabs_Ropp in Q2. lra.
  - rewrite <- (V c). apply prim_le; [lra|]. intros t Ht. pose proof (H t Ht) as Q. pose proof (Rle_abs (f t)). pose proof (Rle_abs (- f t)) as Q2. rewrite Rabs_Ropp in Q2. lra.
Qed.
Lemma GG_second x h : Rabs (GG (x + h) - GG x + (2 * x * h + h ^ 2) * GJ x) <= 2 * (2 * x * h + h ^ 2) ^ 2.
Proof.
  set (c := 2 * x * h + h ^ 2).
  assert (C : continuity (fun t => kern (x + h) t - kern x t + c * mkern x t)).
  { intros t. apply (continuity_pt_plus (fun t => kern (x + h) t - kern x t) (fun t => c * mkern x t)).
    - apply (continuity_pt_minus (kern (x + h)) (kern x)); apply cont_kern.
    - apply (continuity_pt_scal (mkern x) c), cont_mkern. }
  replace (GG (x + h) - GG x + c * GJ x) with (prim _ C 1); [apply prim_bound; intros t Ht; apply kern_second, Ht|].
  rewrite (prim_newton _ C (fun y => prim (kern (x + h)) (cont_kern (x + h)) y - prim (kern x) (cont_kern x) y + c * prim (mkern x) (cont_mkern x) y)).
  - rewrite !prim_0. unfold GG, GJ. ring.
  - intros y. apply (derivable_pt_lim_plus (fun y => prim (kern (x + h)) (cont_kern (x + h)) y - prim (kern x) (cont_kern x) y) (fun y => c * prim (mkern x) (cont_mkern x) y)).
    + apply (derivable_pt_lim_minus (prim (kern (x + h)) (cont_kern (x + h))) (prim (kern x) (cont_kern x))); apply prim_deriv.
    + apply (derivable_pt_lim_scal (prim (mkern x) (cont_mkern x))), prim_deriv.
Qed.
Lemma GJ_F x : x * GJ x = gauss x * GF x.
Proof.
  unfold GJ. assert (E : prim (mkern x) (cont_mkern x) 1 * x = gauss x * GF x); [|lra].
  pose proof (same_anti (fun t => x * mkern x t) (fun t => x * prim (mkern x) (cont_mkern x) t) (fun t => gauss x * GF (x * t)) 0 1) as Q.
  cbn beta in Q. rewrite prim_0, Rmult_1_r, Rmult_0_r in Q. assert (Z : GF 0 = 0) by apply prim_0. rewrite Z in Q.
  assert (x * prim (mkern x) (cont_mkern x) 1 - 0 = gauss x * GF x - gauss x * 0); [|lra]. rewrite <- Q; [ring| |].
  - intros t. apply (derivable_pt_lim_scal (prim (mkern x) (cont_mkern x))), prim_deriv.
  - intros t. replace (x * mkern x t) with (gauss x * (gauss (x * t) * x)).
    + apply (derivable_pt_lim_scal (fun t => GF (x * t))). apply (derivable_pt_lim_comp (fun t => x * t) GF); [apply lin_deriv|apply GF_deriv].
    + unfold gauss, mkern. rewrite <- Rmult_assoc, <- exp_plus, Rmult_comm. f_equal. f_equal. ring.
Qed.
Lemma GG_deriv x : derivable_pt_lim GG x (- (2 * (gauss x * GF x))).
Proof.
  rewrite <- GJ_F. intros e He. set (K := Rabs (GJ x) + 2 * (2 * Rabs x + 1) ^ 2 + 1).
  assert (PK : 0 < K) by (unfold K; pose proof (Rabs_pos (GJ x)); pose proof (pow2_ge_0 (2 * Rabs x + 1)); lra).
  assert (Pd : 0 < Rmin 1 (e / K)) by (apply Rmin_pos; [lra|apply Rdiv_lt_0_compat; lra]).
  exists (mkposreal _ Pd). cbn. intros h H1 H2.
  assert (L1 : Rabs h < 1) by (eapply Rlt_le_trans; [exact H2|apply Rmin_l]).
  assert (L2 : Rabs h < e / K) by (eapply Rlt_le_trans; [exact H2|apply Rmin_r]).
  pose proof (GG_second x h) as Q. set (d := GG (x + h) - GG x) in *.
  assert (Ph : 0 < Rabs h) by (apply Rabs_pos_lt, H1).
  replace (d / h - - (2 * (x * GJ x))) with (((d + (2 * x * h + h ^ 2) * GJ x) - h ^ 2 * GJ x) / h) by (field; exact H1).
  unfold Rdiv. rewrite Rabs_mult, Rabs_inv.
  apply (Rmult_lt_reg_r (Rabs h)); [exact Ph|]. rewrite Rmult_assoc, Rinv_l, Rmult_1_r by lra.
  eapply Rle_lt_trans; [unfold Rminus; apply Rabs_triang|]. rewrite Rabs_Ropp, Rabs_mult.
  assert (A : Rabs (h ^ 2) = Rabs h * Rabs h) by (replace (h ^ 2) with (h * h) by ring; apply Rabs_mult).
  assert (B : (2 * x * h + h ^ 2) ^ 2 <= (Rabs h * Rabs h) * (2 * Rabs x + 1) ^ 2).
  { rewrite <- A. rewrite (Rabs_pos_eq (h ^ 2)) by apply pow2_ge_0.
    replace ((2 * x * h + h ^ 2) ^ 2) with (h ^ 2 * (2 * x + h) ^ 2) by ring. apply Rmult_le_compat_l; [apply pow2_ge_0|].
    assert (Rabs (2 * x + h) <= 2 * Rabs x + 1).
    { eapply Rle_trans; [apply Rabs_triang|]. rewrite Rabs_mult, (Rabs_pos_eq 2) by lra. lra. }
    rewrite <- (pow2_abs (2 * x + h)). apply pow_incr. split; [apply Rabs_pos|assumption]. }
  rewrite A. apply Rle_lt_trans with (Rabs h * Rabs h * K).
  - unfold K. assert (0 <= Rabs h * Rabs h) by nra. nra.
  - assert (EK : e / K * K = e) by (field; lra). assert (Rabs h * K < e) by nra. nra.
Qed.
Lemma GF_GG x : GF x ^ 2 + GG x = PI / 4.
Proof.
  assert (D : forall y, derivable_pt_lim (fun y => GF y ^ 2 + GG y) y 0).
  { intros y. replace 0 with ((INR 2 * GF y ^ Nat.pred 2) * gauss y + - (2 * (gauss y * GF y))) by (cbn; ring).
    apply (derivable_pt_lim_plus (fun y => GF y ^ 2) GG); [|apply GG_deriv].
    apply (derivable_pt_lim_comp GF (fun z => z ^ 2)); [apply GF_deriv|apply derivable_pt_lim_pow]. }
  pose proof (same_anti (fun _ => 0) (fun y => GF y ^ 2 + GG y) (fun _ => 0) 0 x D (fun y => derivable_pt_lim_const 0 y)) as E. cbn beta in E.
  assert (F0 : GF 0 = 0) by apply prim_0. rewrite F0 in E.
  assert (G0 : GG 0 = PI / 4); [|rewrite G0 in E; lra].
  unfold GG. rewrite (prim_newton _ _ atan); [rewrite atan_1, atan_0; field|].
  intros t. unfold kern. replace (exp (- 0 ^ 2 * (1 + t ^ 2)) / (1 + t ^ 2)) with (/ (1 + t ^ 2)).
  - apply derivable_pt_lim_atan.
  - replace (- 0 ^ 2 * (1 + t ^ 2)) with 0 by ring. rewrite exp_0. field. pose proof (sq1_pos t). lra.
Qed.
Lemma GG_bound x : 0 <= GG x <= gauss x.
Proof.
  assert (B : forall t, 0 <= kern x t <= gauss x).
  { intros t. unfold kern, gauss. pose proof (sq1_pos t) as S. pose proof (exp_pos (- x ^ 2 * (1 + t ^ 2))) as P. split.
    - apply Rlt_le, Rdiv_lt_0_compat; auto.
    - apply (Rmult_le_reg_r (1 + t ^ 2)); [exact S|]. unfold Rdiv. rewrite Rmult_assoc, Rinv_l, Rmult_1_r by lra.
      replace (- x ^ 2 * (1 + t ^ 2)) with (- x ^ 2 + - (x ^ 2 * t ^ 2)) by ring. rewrite exp_plus.
      pose proof (exp_pos (- x ^ 2)). pose proof (exp_neg_le (- (x ^ 2 * t ^ 2)) ltac:(pose proof (pow2_ge_0 x); pose proof (pow2_ge_0 t); nra)).
      pose proof (exp_pos (- (x ^ 2 * t ^ 2))). pose proof (pow2_ge_0 t). nra. }
  assert (C1 : forall d, continuity (fun _ : R => d)) by (intros d t; reg).
  assert (V : forall d, prim (fun _ => d) (C1 d) 1 = d).
  { intros d. rewrite (prim_newton _ _ (fun y => d * y)); [ring|]. intros y. apply lin_deriv. }
  split; unfold GG.
  - rewrite <- (V 0) at 1. apply prim_le; [lra|]. intros t _. apply B.
  - rewrite <- (V (gauss x)). apply prim_le; [lra|]. intros t _. apply B.
Qed.
Lemma gauss_small : limit_plus gauss 0.
Proof.
  intros e He. exists (Rmax 1 (1 / e)). intros x Hx. rewrite Rminus_0_r. unfold gauss. rewrite Rabs_pos_eq by apply Rlt_le, exp_pos.
  pose proof (Rmax_l 1 (1 / e)). pose proof (Rmax_r 1 (1 / e)).
  rewrite exp_Ropp. assert (x < exp (x ^ 2)).
  { pose proof (exp_ineq1_le (x ^ 2)). nra. }
  apply (Rmult_lt_reg_r (exp (x ^ 2))); [apply exp_pos|]. rewrite Rinv_l by (apply Rgt_not_eq, exp_pos).
  assert (1 / e * e = 1) by (field; lra). nra.
Qed.
Lemma GF_nonneg x : 0 <= x -> 0 <= GF x.
Proof.
  intros H. pose proof (mono GF gauss x H GF_deriv) as M. assert (GF 0 = 0) as Z by apply prim_0. rewrite Z in M. apply M.
  intros y _. apply Rlt_le, exp_pos.
Qed.
Lemma GF_limit : limit_plus GF (sqrt PI / 2).
Proof.
  assert (P : 0 < sqrt PI) by apply sPI_pos. assert (S : sqrt PI * sqrt PI = PI) by (apply sqrt_sqrt, Rlt_le, PI_RGT_0).
  intros e He. destruct (gauss_small (e * (sqrt PI / 2))) as [B HB]; [nra|]. exists (Rmax 0 B). intros x Hx.
  pose proof (Rmax_l 0 B). pose proof (Rmax_r 0 B). specialize (HB x ltac:(lra)). rewrite Rminus_0_r, Rabs_pos_eq in HB by apply Rlt_le, exp_pos.
  pose proof (GF_nonneg x ltac:(lra)) as N. pose proof (GG_bound x) as G. pose proof (GF_GG x) as E.
  assert (F : (sqrt PI / 2 - GF x) * (sqrt PI / 2 + GF x) = GG x).
  { transitivity (sqrt PI * sqrt PI / 4 - GF x ^ 2); [field|rewrite S; lra]. }
  assert (0 <= sqrt PI / 2 - GF x) by nra. rewrite Rabs_minus_sym, Rabs_pos_eq by lra. nra.
Qed.
Lemma GF_odd x : GF (- x) = - GF x.
Proof.
  pose proof (same_anti gauss GF (fun y => - GF (- y)) 0 x) as Q. cbn beta in Q. rewrite Ropp_0 in Q.
  assert (Z : GF 0 = 0) by apply prim_0. rewrite Z in Q. assert (GF x - 0 = - GF (- x) - - 0); [|lra]. apply Q; [apply GF_deriv|].
  intros y. replace (gauss y) with (- (gauss (- y) * -1)) by (unfold gauss; replace ((- y) ^ 2) with (y ^ 2) by ring; ring).
  apply (derivable_pt_lim_opp (fun z => GF (- z))). apply (derivable_pt_lim_comp (fun z => - z) GF); [|apply GF_deriv].
  apply (derivable_pt_lim_opp (fun z => z) y 1), derivable_pt_lim_id.
Qed.
(** the integral of exp(-x^2) over the line is the square root of pi *)
Theorem gaussian_integral : integral_line gauss (sqrt PI).
Proof.
  exists GF, (sqrt PI / 2), (- (sqrt PI / 2)). split; [apply GF_deriv|]. split; [apply GF_limit|]. split; [|field].
  intros e He. destruct (GF_limit e He) as [B HB]. exists (- B). intros x Hx. specialize (HB (- x) ltac:(lra)).
  rewrite GF_odd in HB. replace (GF x - - (sqrt PI / 2)) with (- (- GF x - sqrt PI / 2)) by ring. rewrite Rabs_Ropp. exact HB.
Qed.
