(** UTransProofs2.v -- the transforms of the orthogonal space. *)
From Coq Require Import Reals Lra Lia List Arith ZArith.
From Verif Require Import Base RPoly MatrixSpec MatrixProofs LegMatrixModel ChebMatrixProofs ChebQuadModel ChebQuadProofs ChebTransModel ChebTransProofs ChebTransProofs2 ChebTransProofs3
  StencilProofs StencilProofs8 StencilProperties UTransModel UTransSpec UTransProofs.
Import ListNotations.
Local Open Scope R_scope.

Notation Uk k q N i := (peval (chebU k) (u_point q N i)).
Lemma times_same n a b : times n n a b = Some (fun i => a i * b i).
Proof. unfold times. rewrite Nat.eqb_refl. reflexivity. Qed.
Lemma U_quot q N i k : (i < N)%nat -> Uk k q N i = sin (INR (k + 1) * utheta q N i) / sin (utheta q N i).
Proof. intros H. pose proof (sin_utheta q N i H). rewrite <- (U_point q N i k H). field. lra. Qed.

Lemma even_pow i : (-1) ^ i = if Nat.even i then 1 else -1.
Proof.
  destruct (Nat.even i) eqn:E; [apply Nat.even_spec in E; destruct E as [m ->]; apply pow_1_even|].
  assert (O : Nat.odd i = true) by (unfold Nat.odd; rewrite E; reflexivity). apply Nat.odd_spec in O. destruct O as [m ->].
  rewrite Nat.add_1_r, <- tech_pow_Rmult, pow_1_even. ring.
Qed.
(** the expansion *)
Lemma u_expansion_values q N c : (0 < N)%nat -> yields (u_expansion_fast q N N c) N (fun i => rsum N (fun k => c k * Uk k q N i)).
Proof.
  intros HN. assert (H0 : 0 < INR N) by (apply lt_0_INR; lia). unfold yields, u_expansion_fast. destruct q; rewrite times_same; eexists; (split; [reflexivity|]); intros i Hi; cbv beta.
  - rewrite sines_theta by exact Hi. pose proof (sin_utheta GU N i Hi) as Hs. cbn [u_bck]. unfold dst1.
    rewrite (gsum_ext_R N (fun k => c k * Uk k GU N i) (fun k => / sin (utheta GU N i) * (c k * sin (PI * (INR k + 1) * (INR i + 1) / (INR N + 1))))).
    + rewrite gsum_scal. field. lra.
    + intros k Hk. rewrite U_quot by exact Hi. unfold utheta. rewrite plus_INR. cbn [INR].
      replace ((INR k + 1) * ((INR i + 1) * PI / (INR N + 1))) with (PI * (INR k + 1) * (INR i + 1) / (INR N + 1)) by (field; lra).
      unfold Rdiv. ring.
  - rewrite sines_theta by exact Hi. pose proof (sin_utheta GC N i Hi) as Hs. cbn [u_bck]. unfold dst3.
    destruct (Nat.ltb_spec i N); [|lia].
    rewrite (gsum_ext_R N (fun k => c k * Uk k GC N i) (fun k => / sin (utheta GC N i) * (c k * sin (PI * (INR k + 1) * (INR i + 1 / 2) / INR N)))).
    + rewrite gsum_scal. destruct N as [|M]; [lia|]. replace (S M - 1)%nat with M by lia. rewrite (gsum_last M).
      assert (E : sin (PI * (INR M + 1) * (INR i + 1 / 2) / INR (S M)) = if Nat.even i then 1 else -1).
      { rewrite S_INR in *. replace (PI * (INR M + 1) * (INR i + 1 / 2) / (INR M + 1)) with (INR i * PI + PI / 2) by (field; lra).
        rewrite sin_plus, sin_PI2, cos_PI2, cos_k_PI, <- even_pow. ring. }
      rewrite E, even_pow. destruct (Nat.even i); field; lra.
    + intros k Hk. rewrite U_quot by exact Hi. unfold utheta. rewrite !plus_INR, mult_INR. cbn [INR].
      replace ((INR k + 1) * (PI * ((1 + 1) * INR i + 1) / (2 * INR N))) with (PI * (INR k + 1) * (INR i + 1 / 2) / INR N) by (field; lra).
      unfold Rdiv. ring.
Qed.
(** the scalar product *)
Lemma u_scalar_values q N df u : (0 < N)%nat -> df <> 0 ->
  yields (u_scalar_product_fast q N N df u) N (fun k => rsum N (fun i => u_weight q N i / df * u i * Uk k q N i)).
Proof.
  intros HN Hdf. assert (H0 : 0 < INR N) by (apply lt_0_INR; lia). pose proof PI_RGT_0 as HP. unfold Rgt in HP. unfold yields, u_scalar_product_fast. rewrite times_same. eexists. split; [reflexivity|].
  intros k Hk. cbv beta zeta.
  set (m := match q with GU => INR N + 1 | GC => INR N end).
  assert (Hm : m <> 0) by (unfold m; destruct q; lra).
  rewrite (gsum_ext_R N (fun i => u_weight q N i / df * u i * Uk k q N i) (fun i => PI / (m * df) * (u i * sines q N i * sin (INR (k + 1) * utheta q N i)))).
  - rewrite gsum_scal. destruct q; cbn [u_fwd]; unfold dst1, dst2.
    + rewrite (gsum_ext_R N _ (fun i => u i * sines GU N i * sin (INR (k + 1) * utheta GU N i))).
      * unfold m. field. repeat split; try lra; assumption.
      * intros i Hi. do 2 f_equal. unfold utheta. rewrite plus_INR. cbn [INR]. field. lra.
    + rewrite (gsum_ext_R N _ (fun i => u i * sines GC N i * sin (INR (k + 1) * utheta GC N i))).
      * unfold m. field. repeat split; try lra; assumption.
      * intros i Hi. do 2 f_equal. unfold utheta. rewrite !plus_INR, mult_INR. cbn [INR]. field. lra.
  - intros i Hi. rewrite u_weight_theta, U_quot, sines_theta by exact Hi. fold m. pose proof (sin_utheta q N i Hi). field. repeat split; try assumption; lra.
Qed.
Lemma norm_count q N k : (k < N)%nat -> u_l2_norm_sq q N k = PI / (match q with GU => INR N + 1 | GC => INR N end) * ucount q N k.
Proof.
  intros Hk. assert (H0 : 0 < INR N) by (apply lt_0_INR; lia). unfold u_l2_norm_sq, ucount. destruct q; [field; lra|].
  destruct (Nat.eqb k (N - 1)); field; lra.
Qed.
Lemma u_quad_orth q N p r : (p < N)%nat -> (r < N)%nat ->
  rsum N (fun i => u_weight q N i * (Uk p q N i * Uk r q N i)) = if Nat.eqb p r then u_l2_norm_sq q N p else 0.
Proof.
  intros Hp Hr. assert (H0 : 0 < INR N) by (apply lt_0_INR; lia). set (m := match q with GU => INR N + 1 | GC => INR N end).
  assert (Hm : m <> 0) by (unfold m; destruct q; lra).
  rewrite (gsum_ext_R N _ (fun i => PI / m * (sin (INR (p + 1) * utheta q N i) * sin (INR (r + 1) * utheta q N i)))).
  - rewrite gsum_scal, sine_orth by assumption. rewrite norm_count by exact Hp. fold m. destruct (Nat.eqb p r); ring.
  - intros i Hi. rewrite u_weight_theta, !U_quot by exact Hi. fold m. pose proof (sin_utheta q N i Hi). field. split; [exact Hm|lra].
Qed.
Lemma u_dual q N i j : (i < N)%nat -> (j < N)%nat ->
  rsum N (fun k => Uk k q N i * Uk k q N j / u_l2_norm_sq q N k) * u_weight q N j = if Nat.eqb i j then 1 else 0.
Proof.
  intros Hi Hj. assert (H0 : 0 < INR N) by (apply lt_0_INR; lia). pose proof PI_RGT_0 as HP. unfold Rgt in HP.
  set (m := match q with GU => INR N + 1 | GC => INR N end). assert (Hm : 0 < m) by (unfold m; destruct q; lra).
  pose proof (sin_utheta q N i Hi). pose proof (sin_utheta q N j Hj).
  rewrite (gsum_ext_R N _ (fun k => m / (PI * sin (utheta q N i) * sin (utheta q N j)) * (sin (INR (k + 1) * utheta q N i) * sin (INR (k + 1) * utheta q N j) / ucount q N k))).
  - rewrite gsum_scal, sine_dual by assumption. rewrite u_weight_theta. fold m. destruct (Nat.eqb_spec i j) as [->|]; field; repeat split; lra.
  - intros k Hk. rewrite !U_quot, norm_count by assumption. fold m.
    assert (ucount q N k <> 0) by (unfold ucount; destruct q; [|destruct (Nat.eqb k (N - 1))]; lra).
    field. repeat split; try lra; assumption.
Qed.
Lemma u_norm_pos q N k : 0 < u_l2_norm_sq q N k.
Proof. pose proof PI_RGT_0. unfold u_l2_norm_sq. destruct q; [|destruct (Nat.eqb k (N - 1))]; lra. Qed.
Lemma buu_ne0 q N df k : df <> 0 -> buu q N df true k <> 0.
Proof. intros H. unfold buu. pose proof (u_norm_pos q N k). apply Rmult_integral_contrapositive_currified; [lra|apply Rinv_neq_0_compat, H]. Qed.

Lemma yields_trunc r N n f : yields r n f -> (N <= n)%nat -> yields (option_map (utrunc N) r) N f.
Proof.
  intros [v [-> H]] HN. eexists. split; [reflexivity|]. intros i Hi. unfold utrunc. destruct (Nat.ltb_spec i N); [apply H; lia|lia].
Qed.
Lemma backward_values q N c : (0 < N)%nat -> yields (u_backward q N N c) N (fun i => rsum N (fun k => c k * Uk k q N i)).
Proof.
  intros HN. destruct (u_expansion_values q N (utrunc N c) HN) as [v [E H]]. exists v. split; [exact E|]. intros i Hi. rewrite H by exact Hi.
  apply gsum_ext_R. intros k Hk. unfold utrunc. destruct (Nat.ltb_spec k N); [reflexivity|lia].
Qed.
Lemma scalar_values q N df u : (0 < N)%nat -> df <> 0 ->
  yields (u_scalar_product q N N df u) N (fun k => rsum N (fun i => u_weight q N i / df * u i * Uk k q N i)).
Proof. intros HN Hdf. apply (yields_trunc _ N N); [apply u_scalar_values; assumption|lia]. Qed.
Lemma forward_values q N df u : (0 < N)%nat -> df <> 0 ->
  yields (u_forward q N N df u) N (fun k => rsum N (fun i => u_weight q N i * u i * Uk k q N i) / u_l2_norm_sq q N k).
Proof.
  intros HN Hdf. destruct (scalar_values q N df u HN Hdf) as [b [E H]]. unfold u_forward. rewrite E. eexists. split; [reflexivity|].
  intros k Hk. cbv beta. rewrite H by exact Hk. unfold buu. pose proof (u_norm_pos q N k).
  rewrite (gsum_ext_R N _ (fun i => / df * (u_weight q N i * u i * Uk k q N i))) by (intros; unfold Rdiv; ring).
  rewrite gsum_scal. field. split; [lra|exact Hdf].
Qed.
Lemma fwd_bck q N df c v : (0 < N)%nat -> df <> 0 -> u_backward q N N c = Some v -> yields (u_forward q N N df v) N c.
Proof.
  intros HN Hdf E. destruct (backward_values q N c HN) as [v' [E' H]]. rewrite E in E'. injection E' as <-.
  destruct (forward_values q N df v HN Hdf) as [b [Eb Hb]]. exists b. split; [exact Eb|]. intros k Hk. rewrite Hb by exact Hk.
  rewrite (gsum_ext_R N _ (fun i => rsum N (fun l => c l * (u_weight q N i * (Uk l q N i * Uk k q N i))))).
  - rewrite gsum_swap. rewrite (gsum_ext_R N _ (fun l => if Nat.eqb l k then c k * u_l2_norm_sq q N k else 0)).
    + rewrite gsum_one by exact Hk. pose proof (u_norm_pos q N k). field. lra.
    + intros l Hl. rewrite gsum_scal, u_quad_orth by assumption. destruct (Nat.eqb_spec l k) as [->|]; ring.
  - intros i Hi. rewrite H by exact Hi. set (t := Uk k q N i).
    replace (u_weight q N i * rsum N (fun k0 => c k0 * Uk k0 q N i) * t) with ((u_weight q N i * t) * rsum N (fun k0 => c k0 * Uk k0 q N i)) by ring.
    rewrite <- gsum_scal. apply gsum_ext_R. intros l Hl. ring.
Qed.
Lemma bck_fwd q N df u b : (0 < N)%nat -> df <> 0 -> u_forward q N N df u = Some b -> yields (u_backward q N N b) N u.
Proof.
  intros HN Hdf E. destruct (forward_values q N df u HN Hdf) as [b' [E' H]]. rewrite E in E'. injection E' as <-.
  destruct (backward_values q N b HN) as [v [Ev Hv]]. exists v. split; [exact Ev|]. intros i Hi. rewrite Hv by exact Hi.
  rewrite (gsum_ext_R N _ (fun k => rsum N (fun j => u j * (u_weight q N j * (Uk k q N i * Uk k q N j / u_l2_norm_sq q N k))))).
  - rewrite gsum_swap. rewrite (gsum_ext_R N _ (fun j => if Nat.eqb j i then u i else 0)); [apply gsum_one, Hi|].
    intros j Hj. rewrite gsum_scal, gsum_scal, (Rmult_comm (u_weight q N j)), u_dual by assumption. rewrite Nat.eqb_sym. destruct (Nat.eqb_spec j i) as [->|]; ring.
  - intros k Hk. rewrite H by exact Hk. set (t := Uk k q N i). set (h := u_l2_norm_sq q N k).
    replace (rsum N (fun i0 => u_weight q N i0 * u i0 * Uk k q N i0) / h * t) with (t / h * rsum N (fun i0 => u_weight q N i0 * u i0 * Uk k q N i0)) by (unfold Rdiv; ring).
    rewrite <- gsum_scal. apply gsum_ext_R. intros j Hj. unfold Rdiv. ring.
Qed.
(** the exact norm *)
Lemma newton_cos m : newton (fun t => cos (INR m * t)) 0 PI (if Nat.eqb m 0 then PI else 0).
Proof.
  destruct (Nat.eqb_spec m 0) as [->|Hm].
  - exists (fun t => t). split; [|ring]. intros x. cbn [INR]. rewrite Rmult_0_l, cos_0. apply derivable_pt_lim_id.
  - assert (INR m <> 0) by (apply not_0_INR; exact Hm).
    exists (fun t => / INR m * sin (INR m * t)). split.
    + intros x. replace (cos (INR m * x)) with (/ INR m * (cos (INR m * x) * (INR m * 1))) by (field; assumption).
      apply (derivable_pt_lim_scal (fun t => sin (INR m * t))).
      apply (derivable_pt_lim_comp (fun t => INR m * t) sin); [|apply derivable_pt_lim_sin].
      apply (derivable_pt_lim_scal (fun t => t)), derivable_pt_lim_id.
    + rewrite Rmult_0_r, sin_0, sin_INR_PI. ring.
Qed.
Lemma cont_cosm m : continuity (fun t => cos (INR m * t)).
Proof. intros t. apply (continuity_pt_comp (fun t => INR m * t) cos); [reg|apply continuity_cos]. Qed.
Lemma u_exact_orth p r : chebu_inner (peval (chebU p)) (peval (chebU r)) (if Nat.eqb p r then u_L2_norm_sq else 0).
Proof.
  pose proof PI_RGT_0 as HP. unfold Rgt in HP.
  assert (E : forall t, / 2 * cos (INR (p - r + (r - p)) * t) + (- / 2) * cos (INR (p + r + 2) * t) = peval (chebU p) (cos t) * peval (chebU r) (cos t) * sin t ^ 2).
  { intros t. destruct (C29_chebyshev_meaning p t) as [_ E1]. destruct (C29_chebyshev_meaning r t) as [_ E2].
    replace (peval (chebU p) (cos t) * peval (chebU r) (cos t) * sin t ^ 2) with ((sin t * peval (chebU p) (cos t)) * (sin t * peval (chebU r) (cos t))) by ring.
    rewrite E1, E2, sin_prod.
    replace ((INR p + 1) * t - (INR r + 1) * t) with (INR p * t - INR r * t) by ring. rewrite cos_abs_diff.
    replace ((INR p + 1) * t + (INR r + 1) * t) with (INR (p + r + 2) * t) by (rewrite !plus_INR; cbn [INR]; ring). ring. }
  unfold chebu_inner.
  assert (C : continuity (fun t => peval (chebU p) (cos t) * peval (chebU r) (cos t) * sin t ^ 2)).
  { intros t. apply continuity_pt_mult; [apply continuity_pt_mult|]; [apply cont_pcos|apply cont_pcos|reg]. }
  apply newton_integral; [lra|exact C|].
  eapply newton_ext; [exact E|].
  replace (if Nat.eqb p r then u_L2_norm_sq else 0) with (/ 2 * (if Nat.eqb (p - r + (r - p)) 0 then PI else 0) + (- / 2) * (if Nat.eqb (p + r + 2) 0 then PI else 0)).
  - apply newton_add; apply newton_scal; apply newton_cos.
  - unfold u_L2_norm_sq. destruct (Nat.eqb_spec (p + r + 2) 0); [lia|]. destruct (Nat.eqb_spec p r), (Nat.eqb_spec (p - r + (r - p)) 0); try lia; field.
Qed.
