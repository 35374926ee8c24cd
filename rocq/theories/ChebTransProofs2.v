(** ChebTransProofs2.v -- forward and backward of the orthogonal space are inverses. *)
From Coq Require Import Reals Lra Lia List Arith.
From Verif Require Import Base RPoly LegMatrixModel LegMatrixSpec ChebMatrixModel ChebMatrixSpec ChebMatrixProofs ChebQuadModel ChebQuadProofs
  ChebTransModel ChebTransProofs StencilProofs StencilProofs8.
Import ListNotations.
Local Open Scope R_scope.

Lemma norm_ne0 b q N k : cheb_norm_sq b q N k <> 0.
Proof.
  pose proof PI_RGT_0. unfold cheb_norm_sq, cheb_l2_norm_sq, cheb_L2_norm_sq.
  destruct b, q, (Nat.eqb k 0); try destruct (Nat.eqb k (N - 1)); lra.
Qed.
Lemma norm_pos b q N k : 0 < cheb_norm_sq b q N k.
Proof.
  pose proof PI_RGT_0. unfold cheb_norm_sq, cheb_l2_norm_sq, cheb_L2_norm_sq.
  destruct b, q, (Nat.eqb k 0); try destruct (Nat.eqb k (N - 1)); lra.
Qed.
Lemma btt_solve_val q N df b k : btt_solve q N df b k = b k * df / cheb_norm_sq true q N k.
Proof.
  pose proof PI_RGT_0. unfold btt_solve, cheb_norm_sq, cheb_l2_norm_sq. cbv zeta.
  destruct q, (Nat.eqb k 0); try destruct (Nat.eqb k (N - 1)); field; lra.
Qed.
Lemma norm_pad q n N k : q = LG \/ n = N -> cheb_norm_sq true q n k = cheb_norm_sq true q N k.
Proof. intros [->| ->]; reflexivity. Qed.

Lemma forward_backward_gen q N n df c k : (match q with GL => 2 | LG => 1 end <= n)%nat -> (N <= n)%nat -> df <> 0 -> (k < N)%nat ->
  cheb_forward q N n df (cheb_backward q N n c) k = cheb_norm_sq true q n k / cheb_norm_sq true q N k * c k.
Proof.
  intros Hn HN Hdf Hk. unfold cheb_forward, cheb_scalar_product, cheb_backward. rewrite btt_solve_val.
  pose proof (norm_ne0 true q N k). unfold truncate at 1. destruct (Nat.ltb_spec k N); [|lia].
  rewrite scalar_of_expansion by (try assumption; lia). unfold truncate. destruct (Nat.ltb_spec k N); [|lia]. field. split; assumption.
Qed.

Lemma half_sum M (f : nat -> R) : rsum M (fun i => (f i + f (S i)) / 2) = rsum M f + (f M - f 0%nat) / 2.
Proof. induction M as [|M IH]; [cbn; field|]. rewrite !gsum_last, IH. field. Qed.
Lemma cos_full_sum M m : (1 <= M)%nat -> (m < 2 * M)%nat ->
  rsum M (fun k => cos (INR k * (INR m * PI / INR M))) = (if Nat.eqb m 0 then INR M else 0) + (1 - (-1) ^ m) / 2.
Proof.
  intros HM Hm. pose proof (GL_cos_sum M m HM ltac:(lia)) as E.
  rewrite (half_sum M (fun k => cos (INR k * (INR m * PI / INR M)))) in E.
  destruct (Nat.eqb_spec m (2 * M)); [lia|]. assert (0 < INR M) by (apply lt_0_INR; lia).
  replace (INR M * (INR m * PI / INR M)) with (INR m * PI) in E by (field; lra). rewrite cos_k_PI in E.
  replace (INR 0 * (INR m * PI / INR M)) with 0 in E by (cbn [INR]; ring). rewrite cos_0 in E.
  destruct (Nat.eqb m 0); lra.
Qed.
(** dual orthogonality *)
Lemma dual q n i j : (match q with GL => 2 | LG => 1 end <= n)%nat -> (i < n)%nat -> (j < n)%nat ->
  rsum n (fun k => peval (chebT k) (cheb_point q n i) * peval (chebT k) (cheb_point q n j) / cheb_norm_sq true q n k) =
  if Nat.eqb j i then / cheb_weight q n i else 0.
Proof.
  intros Hn Hi Hj. pose proof PI_RGT_0 as HP. unfold Rgt in HP.
  destruct q.
  - assert (HN : 0 < INR n) by (apply lt_0_INR; lia).
    rewrite (gsum_ext_R n _ (fun k => cos (INR k * theta LG n i) * cos (INR k * theta LG n j) / cheb_norm_sq true LG n k))
      by (intros; rewrite !T_point by exact Hn; reflexivity).
    rewrite (gsum_ext_R n _ (fun k => / PI * (cos (INR k * (INR (i + j + 1) * PI / INR n)) + cos (INR k * (INR (i - j + (j - i)) * PI / INR n)))
        + (if Nat.eqb k 0 then - / PI else 0))).
    + rewrite gsum_add, gsum_scal, gsum_add, gsum_one by lia. rewrite !cos_full_sum by lia.
      destruct (Nat.eqb_spec (i + j + 1) 0); [lia|].
      assert (P : (-1) ^ (i + j + 1) = - (-1) ^ (i - j + (j - i))).
      { replace (i + j + 1)%nat with (S (i - j + (j - i) + 2 * Nat.min i j)) by lia. rewrite <- tech_pow_Rmult, pow_add, pow_1_even. ring. }
      rewrite P. cbn [cheb_weight]. destruct (Nat.eqb_spec j i) as [->|]; [replace (i - i + (i - i))%nat with 0%nat by lia; rewrite Nat.eqb_refl; field; lra|].
      destruct (Nat.eqb_spec (i - j + (j - i)) 0); [lia|]. field. lra.
    + intros k Hk. rewrite cos_prod. unfold theta.
      replace (INR k * (PI * (INR i + 1 / 2) / INR n) - INR k * (PI * (INR j + 1 / 2) / INR n)) with (INR i * (INR k * PI / INR n) - INR j * (INR k * PI / INR n)) by (field; lra).
      rewrite cos_abs_diff.
      replace (INR k * (PI * (INR i + 1 / 2) / INR n) + INR k * (PI * (INR j + 1 / 2) / INR n)) with (INR k * (INR (i + j + 1) * PI / INR n)) by (rewrite !plus_INR; cbn [INR]; field; lra).
      replace (INR (i - j + (j - i)) * (INR k * PI / INR n)) with (INR k * (INR (i - j + (j - i)) * PI / INR n)) by (field; lra).
      unfold cheb_norm_sq, cheb_l2_norm_sq. destruct (Nat.eqb_spec k 0) as [->|].
      * cbn [INR]. rewrite !Rmult_0_l, cos_0. field. lra.
      * field. lra.
  - destruct n as [|M]; [lia|]. assert (HM : 0 < INR M) by (apply lt_0_INR; lia).
    pose proof (quad_TT GL (S M) i j Hn Hi Hj) as Q.
    rewrite (gsum_ext_R (S M) _ (fun k => 2 * INR M / (PI * PI) * (cheb_weight GL (S M) k * (peval (chebT i) (cheb_point GL (S M) k) * peval (chebT j) (cheb_point GL (S M) k))))).
    + rewrite gsum_scal, Q. rewrite (Nat.eqb_sym j i). destruct (Nat.eqb_spec i j) as [->|]; [|ring].
      unfold cheb_norm_sq, cheb_l2_norm_sq, cheb_weight. cbv zeta. replace (S M - 1)%nat with M by lia.
      destruct (Nat.eqb_spec j 0), (Nat.eqb_spec j M); try lia; field; lra.
    + intros k Hk. rewrite !T_point by exact Hn. unfold theta. replace (S M - 1)%nat with M by lia.
      replace (INR k * (INR i * PI / INR M)) with (INR i * (INR k * PI / INR M)) by (field; lra).
      replace (INR k * (INR j * PI / INR M)) with (INR j * (INR k * PI / INR M)) by (field; lra).
      set (u := cos _ * cos _).
      unfold cheb_norm_sq, cheb_l2_norm_sq, cheb_weight. cbv zeta. replace (S M - 1)%nat with M by lia.
      destruct (Nat.eqb_spec k 0), (Nat.eqb_spec k M); try lia; field; lra.
Qed.
Lemma weight_ne0 q n i : (match q with GL => 2 | LG => 1 end <= n)%nat -> cheb_weight q n i <> 0.
Proof.
  intros Hn. pose proof PI_RGT_0 as HP. unfold Rgt in HP. unfold cheb_weight. cbv zeta.
  assert (W : forall m, (1 <= m)%nat -> 0 < PI / INR m) by (intros m Hm; apply Rdiv_lt_0_compat; [exact HP|apply lt_0_INR; lia]).
  destruct q; [pose proof (W n Hn); lra|]. pose proof (W (n - 1)%nat ltac:(lia)).
  destruct (Nat.eqb i (n - 1)), (Nat.eqb i 0); lra.
Qed.
Lemma backward_forward q N df u i : (match q with GL => 2 | LG => 1 end <= N)%nat -> df <> 0 -> (i < N)%nat ->
  cheb_backward q N N (cheb_forward q N N df u) i = u i.
Proof.
  intros HN Hdf Hi. unfold cheb_backward. rewrite expansion_values by assumption.
  rewrite (gsum_ext_R N _ (fun k => rsum N (fun j => cheb_weight q N j * u j * (peval (chebT k) (cheb_point q N i) * peval (chebT k) (cheb_point q N j) / cheb_norm_sq true q N k)))).
  - rewrite gsum_swap. rewrite (gsum_ext_R N _ (fun j => if Nat.eqb j i then u i else 0)).
    + apply gsum_one, Hi.
    + intros j Hj. rewrite gsum_scal, dual by assumption. destruct (Nat.eqb_spec j i) as [->|]; [|ring].
      pose proof (weight_ne0 q N i HN). field. assumption.
  - intros k Hk. unfold truncate at 1. destruct (Nat.ltb_spec k N); [|lia].
    unfold cheb_forward, cheb_scalar_product. rewrite btt_solve_val. unfold truncate. destruct (Nat.ltb_spec k N); [|lia].
    rewrite scalar_values by assumption. pose proof (norm_ne0 true q N k) as Hh. set (h := cheb_norm_sq _ _ _ _) in *. set (t := peval _ _).
    replace (rsum N (fun i0 => cheb_weight q N i0 / df * u i0 * peval (chebT k) (cheb_point q N i0)) * df / h * t) with
      ((df / h * t) * rsum N (fun i0 => cheb_weight q N i0 / df * u i0 * peval (chebT k) (cheb_point q N i0))) by (unfold Rdiv; ring).
    rewrite <- gsum_scal. apply gsum_ext_R. intros j Hj. field. split; assumption.
Qed.
