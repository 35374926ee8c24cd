(** ChebTransProofs.v -- the fast transforms sum the expansion, and are inverses. *)
From Coq Require Import Reals Lra Lia List Arith.
From Verif Require Import Base RPoly LegMatrixModel LegMatrixSpec ChebMatrixModel ChebMatrixSpec ChebMatrixProofs ChebQuadModel ChebQuadProofs
  ChebTransModel StencilProofs StencilProofs8.
Import ListNotations.
Local Open Scope R_scope.

Definition theta (q : quad) (n i : nat) : R := match q with GL => INR i * PI / INR (n - 1) | LG => PI * (INR i + 1 / 2) / INR n end.
Lemma point_cos q n i : (match q with GL => 2 | LG => 1 end <= n)%nat -> cheb_point q n i = cos (theta q n i).
Proof.
  intros Hn. destruct q; cbn [cheb_point theta].
  - f_equal. rewrite plus_INR, mult_INR. simpl. assert (0 < INR n) by (apply lt_0_INR; lia). field. lra.
  - replace (- PI + INR i * (PI / INR (n - 1))) with (- (PI - INR i * PI / INR (n - 1))) by (unfold Rdiv; ring).
    rewrite cos_neg, Rtrigo_facts.cos_pi_minus. ring.
Qed.
Lemma T_point q n i k : (match q with GL => 2 | LG => 1 end <= n)%nat -> peval (chebT k) (cheb_point q n i) = cos (INR k * theta q n i).
Proof. intros Hn. rewrite point_cos by exact Hn. apply chebT_cos. Qed.

Lemma gsum_first n (f : nat -> R) : rsum (S n) f = f 0%nat + rsum n (fun i => f (S i)).
Proof. induction n as [|n IH]; [cbn; ring|]. cbn [gsum] in *. rewrite IH. ring. Qed.

Lemma gsum_last n (f : nat -> R) : rsum (S n) f = rsum n f + f n. Proof. reflexivity. Qed.

Lemma cos_k_PI k : cos (INR k * PI) = (-1) ^ k.
Proof.
  induction k as [|k IH]; [cbn [INR pow]; rewrite Rmult_0_l; apply cos_0|].
  rewrite S_INR, Rmult_plus_distr_r, Rmult_1_l, neg_cos, IH. simpl. ring.
Qed.

Lemma expansion_values q n c i : (match q with GL => 2 | LG => 1 end <= n)%nat -> (i < n)%nat ->
  evaluate_expansion_fast q n c i = rsum n (fun k => c k * peval (chebT k) (cheb_point q n i)).
Proof.
  intros Hn Hi. rewrite (gsum_ext_R n _ (fun k => c k * cos (INR k * theta q n i))) by (intros; rewrite T_point by exact Hn; reflexivity).
  unfold evaluate_expansion_fast. destruct q; cbn [xfftn_bck theta].
  - assert (0 < INR n) by (apply lt_0_INR; lia). destruct n as [|n]; [lia|]. rewrite gsum_first. unfold dct3. replace (S n - 1)%nat with n by lia.
    rewrite (gsum_ext_R n (fun k => c (S k) * cos (PI * INR (S k) * (INR i + 1 / 2) / INR (S n))) (fun k => c (S k) * cos (INR (S k) * (PI * (INR i + 1 / 2) / INR (S n)))))
      by (intros k _; f_equal; f_equal; field; lra).
    replace (INR 0 * (PI * (INR i + 1 / 2) / INR (S n))) with 0 by (cbn [INR]; ring). rewrite cos_0. field.
  - destruct n as [|[|n]]; [lia|lia|]. replace (S (S n) - 1)%nat with (S n) by lia. assert (0 < INR (S n)) by (apply lt_0_INR; lia).
    rewrite (gsum_last (S n)), gsum_first. unfold dct1. replace (S (S n) - 1)%nat with (S n) by lia. replace (S (S n) - 2)%nat with n by lia.
    rewrite (gsum_ext_R n (fun k => c (S k) * cos (PI * INR (S k) * INR i / INR (S n))) (fun k => c (S k) * cos (INR (S k) * (INR i * PI / INR (S n)))))
      by (intros k _; f_equal; f_equal; field; lra).
    replace (INR (S n) * (INR i * PI / INR (S n))) with (INR i * PI) by (field; lra). rewrite cos_k_PI.
    replace (INR 0 * (INR i * PI / INR (S n))) with 0 by (cbn [INR]; ring). rewrite cos_0.
    assert (E : (-1) ^ i = if Nat.even i then 1 else -1).
    { destruct (Nat.even i) eqn:E; [apply Nat.even_spec in E; destruct E as [m ->]; apply pow_1_even|].
      assert (O : Nat.odd i = true) by (unfold Nat.odd; rewrite E; reflexivity). apply Nat.odd_spec in O. destruct O as [m ->].
      rewrite Nat.add_1_r. apply pow_1_odd. }
    rewrite E. destruct (Nat.even i); field.
Qed.
Lemma scalar_values q n df u k : (match q with GL => 2 | LG => 1 end <= n)%nat -> df <> 0 ->
  scalar_product_fast q n df u k = rsum n (fun i => cheb_weight q n i / df * u i * peval (chebT k) (cheb_point q n i)).
Proof.
  intros Hn Hdf. rewrite (gsum_ext_R n _ (fun i => cheb_weight q n i / df * u i * cos (INR k * theta q n i))) by (intros; rewrite T_point by exact Hn; reflexivity).
  unfold scalar_product_fast. destruct q; cbn [xfftn_fwd theta cheb_weight].
  - assert (0 < INR n) by (apply lt_0_INR; lia). unfold dct2.
    rewrite (gsum_ext_R n (fun i => PI / INR n / df * u i * _) (fun i => PI / (df * INR n) * (u i * cos (PI * (INR i + 1 / 2) * INR k / INR n)))).
    + rewrite gsum_scal. set (s := rsum _ _). field. lra.
    + intros i _. replace (INR k * (PI * (INR i + 1 / 2) / INR n)) with (PI * (INR i + 1 / 2) * INR k / INR n) by (field; lra). field. lra.
  - destruct n as [|[|n]]; [lia|lia|]. replace (S (S n) - 1)%nat with (S n) by lia. assert (0 < INR (S n)) by (apply lt_0_INR; lia).
    rewrite (gsum_last (S n)), gsum_first. unfold dct1. replace (S (S n) - 1)%nat with (S n) by lia. replace (S (S n) - 2)%nat with n by lia.
    rewrite (gsum_ext_R n (fun i => _ / df * _ * _) (fun i => PI / (df * INR (S n)) * (u (S i) * cos (PI * INR (S i) * INR k / INR (S n))))).
    + rewrite gsum_scal. rewrite (S_INR (S n)). set (s := rsum _ _). rewrite !Nat.eqb_refl. cbn [Nat.eqb]. cbv zeta.
      replace (INR k * (INR 0 * PI / INR (S n))) with 0 by (cbn [INR]; unfold Rdiv; ring). rewrite cos_0.
      replace (INR k * (INR (S n) * PI / INR (S n))) with (INR k * PI) by (field; lra). rewrite cos_k_PI.
      replace (INR (S n) + 1 - 1) with (INR (S n)) by ring. field. lra.
    + intros i Hi. cbv zeta. destruct (Nat.eqb_spec (S i) (S n)); [lia|]. cbn [Nat.eqb].
      replace (INR k * (INR (S i) * PI / INR (S n))) with (PI * INR (S i) * INR k / INR (S n)) by (field; lra). field. lra.
Qed.

(** quadrature of a product of basis functions *)
Lemma quad_TT q n k m : (match q with GL => 2 | LG => 1 end <= n)%nat -> (k < n)%nat -> (m < n)%nat ->
  rsum n (fun i => cheb_weight q n i * (peval (chebT k) (cheb_point q n i) * peval (chebT m) (cheb_point q n i))) =
  if Nat.eqb k m then cheb_norm_sq true q n k else 0.
Proof.
  intros Hn Hk Hm.
  assert (RO : crule_orthogonal (cheb_rule q n) (cheb_norm_sq true q n) n) by (destruct q; [apply GC_orthogonal|apply GL_orthogonal, Hn]).
  specialize (RO k m Hk Hm). unfold cheb_rule in RO. rewrite quad_sum_seq in RO. exact RO.
Qed.
(** scalar product of an expansion *)
Lemma scalar_of_expansion q n df c k : (match q with GL => 2 | LG => 1 end <= n)%nat -> df <> 0 -> (k < n)%nat ->
  scalar_product_fast q n df (evaluate_expansion_fast q n c) k = cheb_norm_sq true q n k / df * c k.
Proof.
  intros Hn Hdf Hk. rewrite scalar_values by assumption.
  rewrite (gsum_ext_R n _ (fun i => rsum n (fun m => c m / df * (cheb_weight q n i * (peval (chebT k) (cheb_point q n i) * peval (chebT m) (cheb_point q n i)))))).
  - rewrite gsum_swap. rewrite (gsum_ext_R n _ (fun m => if Nat.eqb m k then cheb_norm_sq true q n k / df * c k else 0)).
    + apply gsum_one, Hk.
    + intros m Hm. rewrite gsum_scal, quad_TT by assumption. rewrite (Nat.eqb_sym k m). destruct (Nat.eqb_spec m k) as [->|]; [unfold Rdiv; ring|ring].
  - intros i Hi. rewrite expansion_values by assumption. rewrite <- gsum_scal, Rmult_comm, <- gsum_scal. apply gsum_ext_R. intros m _. unfold Rdiv. ring.
Qed.
