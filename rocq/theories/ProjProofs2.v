(** ProjProofs2.v -- the projection is unique. *)
From Coq Require Import Reals ZArith List Bool Arith String Lia Lra.
From Verif Require Import Base Fld SparseModel SparseSpec RPoly StencilModel StencilModel2 StencilSpec StencilProofs MatrixSpec MatrixProofs
  BndModel BndSpec BndProofs ProjModel ProjSpec ProjProofs.
Import ListNotations.
Local Open Scope R_scope.

(** a continuous non-negative function whose integral is zero vanishes inside *)
Lemma integral_pos_zero f a b : a < b -> continuity f -> (forall x, 0 <= f x) -> integral f a b 0 -> forall x, a < x < b -> f x = 0.
Proof.
  intros Hab C Hp HI.
  assert (forall x, a <= x <= b -> continuity_pt f x) as C0 by (intros; apply C).
  assert (a <= b) as h by lra.
  set (G := primitive h (FTC_P1 h C0)).
  assert (forall x, a <= x <= b -> derivable_pt_lim G x (f x)) as D by (intros x Hx; apply RiemannInt_P28; exact Hx).
  assert (G b - G a = 0) as E.
  { destruct HI as (pr & HI). rewrite <- HI. symmetry. apply RiemannInt_P20. }
  assert (forall x y, a <= x -> x < y -> y <= b -> G x <= G y) as M.
  { intros x y H1 H2 H3.
    assert (pd : forall c, x < c < y -> derivable_pt G c) by (intros c Hc; exists (f c); apply D; lra).
    assert (pi : forall c, x < c < y -> derivable_pt id c) by (intros c Hc; exists 1; apply derivable_pt_lim_id).
    destruct (MVT G id x y pd pi H2) as (c & P & HM).
    - intros c Hc. apply derivable_continuous_pt. exists (f c). apply D; lra.
    - intros c Hc. apply derivable_continuous_pt. exists 1. apply derivable_pt_lim_id.
    - assert (derive_pt G c (pd c P) = f c) as E1 by (apply derive_pt_eq_0, D; lra).
      assert (derive_pt id c (pi c P) = 1) as E2 by (apply derive_pt_eq_0, derivable_pt_lim_id).
      rewrite E1, E2 in HM. unfold id in HM. pose proof (Hp c). assert (0 <= (y - x) * f c) by (apply Rmult_le_pos; lra). lra. }
  assert (forall x, a <= x <= b -> G x = G a) as K.
  { intros x [[H1| <-] [H2|H2]]; try reflexivity.
    - pose proof (M a x ltac:(lra) H1 ltac:(lra)). pose proof (M x b ltac:(lra) H2 ltac:(lra)). lra.
    - subst x. lra. }
  intros x Hx.
  apply (uniqueness_limite G x); [apply D; lra|].
  intros e He. assert (0 < Rmin (x - a) (b - x)) as Hd by (apply Rmin_pos; lra).
  exists (mkposreal _ Hd). cbn [pos]. intros t Ht1 Ht2.
  assert (Rabs t < x - a) by (eapply Rlt_le_trans; [exact Ht2|apply Rmin_l]).
  assert (Rabs t < b - x) by (eapply Rlt_le_trans; [exact Ht2|apply Rmin_r]).
  assert (- Rabs t <= t <= Rabs t) by (split; [rewrite <- Rabs_Ropp; pose proof (Rle_abs (- t)); lra|apply Rle_abs]).
  rewrite (K (x + t)), (K x) by lra. replace ((G a - G a) / t - 0) with 0 by (field; exact Ht1). rewrite Rabs_R0. exact He.
Qed.
Lemma continuity_trans f g : continuity f -> (forall x, f x = g x) -> continuity g.
Proof. intros C E x e He. destruct (C x e He) as (d & Hd & H). exists d. split; [exact Hd|]. intros y Hy. rewrite <- !E. apply H, Hy. Qed.
(** a polynomial with zero weighted norm vanishes on (-1, 1) *)
Lemma norm_zero fam p : weighted fam (fun X => peval p X * peval p X) 0 -> forall X, -1 < X < 1 -> peval p X = 0.
Proof.
  intros H X HX. assert (peval p X * peval p X = 0) as E; [|nra].
  assert (exists t, 0 < t < PI /\ cos t = X) as (t & Ht & Et).
  { exists (acos X). split; [apply acos_bound_lt; exact HX|apply cos_acos; lra]. }
  assert (0 < PI) by apply PI_RGT_0.
  assert (continuity (fun t => peval p (cos t))) as Cc by (apply (continuity_comp cos (peval p)); [apply continuity_cos|apply continuity_peval]).
  destruct fam; cbn [weighted] in H.
  - rewrite <- Et. apply (integral_pos_zero (fun t => peval p (cos t) * peval p (cos t)) 0 PI); auto.
    + apply (continuity_mult (fun t => peval p (cos t)) (fun t => peval p (cos t))); exact Cc.
    + intros y. nra.
  - apply (integral_pos_zero (fun X => peval p X * peval p X) (-1) 1); auto; [lra| |].
    + apply (continuity_mult (peval p) (peval p)); apply continuity_peval.
    + intros y. nra.
  - rewrite <- Et. assert (0 < sin t) by (apply sin_gt_0; lra).
    assert (peval p (cos t) * peval p (cos t) * sin t ^ 2 = 0) as E.
    { apply (integral_pos_zero (fun t => peval p (cos t) * peval p (cos t) * sin t ^ 2) 0 PI); auto.
      - apply (continuity_mult (fun t => peval p (cos t) * peval p (cos t)) (fun t => sin t ^ 2)).
        + apply (continuity_mult (fun t => peval p (cos t)) (fun t => peval p (cos t))); exact Cc.
        + apply (continuity_trans (sin * sin)%F); [apply continuity_mult; apply continuity_sin|]. intros y. unfold mult_fct. ring.
      - intros y. apply Rmult_le_pos; [nra|]. apply pow2_ge_0. }
    apply Rmult_integral in E. destruct E as [E|E]; [exact E|]. pose proof (pow_lt (sin t) 2 ltac:(assumption)). lra.
Qed.

Lemma projection_unique W T u c d : good_space T ->
  (forall i, (i < cnb (s_base T))%nat -> c (sdim T + i)%nat = d (sdim T + i)%nat) ->
  is_projection W T u c -> is_projection W T u d ->
  forall x, fst (s_domain T) < x < snd (s_domain T) -> function T c x = function T d x.
Proof.
  intros (HD & _) Hb Hc Hd x Hx.
  set (w := fun k => c k - d k).
  assert (forall y, function T c y - function T d y = rsum (sdim T) (fun k => w k * basis T k y)) as E.
  { intros y. rewrite !function_sum, (sum_ext (cnb (s_base T)) (fun i => c (sdim T + i)%nat * _) (fun i => d (sdim T + i)%nat * peval (bfun (polys (s_family T)) (s_base T) i) (to_ref (s_domain T) y)))
      by (intros i Hi; rewrite Hb by exact Hi; reflexivity).
    replace (rsum (sdim T) (fun k => w k * basis T k y)) with (rsum (sdim T) (fun k => c k * basis T k y) - rsum (sdim T) (fun k => d k * basis T k y)); [ring|].
    rewrite <- sum_sub. apply sum_ext. intros k _. unfold w. ring. }
  set (p := pcomb (sdim T) w (phi (polys (s_family T)) (s_base T))).
  assert (forall X, peval p X = rsum (sdim T) (fun k => w k * basis T k (to_true (s_domain T) X))) as Ep.
  { intros X. unfold p. rewrite peval_pcomb. apply sum_ext. intros k _. unfold basis. rewrite to_ref_true by exact HD. reflexivity. }
  assert (weighted (s_family T) (fun X => peval p X * peval p X) 0) as N.
  { apply (weighted_ext _ (fun X => rsum (sdim T) (fun i => w i *
      ((function T c (to_true (s_domain T) X) - function W u (to_true (s_domain T) X)) * basis T i (to_true (s_domain T) X) +
       (-1) * ((function T d (to_true (s_domain T) X) - function W u (to_true (s_domain T) X)) * basis T i (to_true (s_domain T) X)))))).
    - intros X. rewrite (Ep X). set (y := to_true (s_domain T) X). rewrite <- (E y) at 1.
      rewrite <- sum_scal. apply sum_ext. intros i _. ring.
    - apply (weighted_val _ _ (rsum (sdim T) (fun i => w i * (0 + (-1) * 0)))); [apply sum_0; intros; ring|].
      apply (weighted_sum _ (sdim T) w (fun _ => 0 + (-1) * 0) (fun i X =>
        (function T c (to_true (s_domain T) X) - function W u (to_true (s_domain T) X)) * basis T i (to_true (s_domain T) X) +
        (-1) * ((function T d (to_true (s_domain T) X) - function W u (to_true (s_domain T) X)) * basis T i (to_true (s_domain T) X)))).
      intros i Hi. apply weighted_lin; [apply Hc; exact Hi|apply Hd; exact Hi]. }
  assert (-1 < to_ref (s_domain T) x < 1) as HX.
  { unfold to_ref. assert (0 < / (snd (s_domain T) - fst (s_domain T))) by (apply Rinv_0_lt_compat; lra).
    set (q := / _) in *. unfold Rdiv. fold q.
    assert (q * (snd (s_domain T) - fst (s_domain T)) = 1) by (unfold q; field; lra). split; nra. }
  pose proof (norm_zero _ p N _ HX) as Z. rewrite Ep in Z.
  assert (to_true (s_domain T) (to_ref (s_domain T) x) = x) as Et by (unfold to_true, to_ref; field; lra).
  rewrite Et, <- E in Z. lra.
Qed.
