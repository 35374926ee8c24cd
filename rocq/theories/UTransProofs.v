(** UTransProofs.v -- the sine transforms and the Chebyshev polynomials of the second kind. *)
From Coq Require Import Reals Lra Lia List Arith ZArith.
From Verif Require Import Base RPoly LegMatrixModel ChebMatrixProofs ChebQuadModel ChebQuadProofs ChebTransModel ChebTransProofs ChebTransProofs2
  StencilProofs StencilProofs8 StencilProperties UTransModel.
Import ListNotations.
Local Open Scope R_scope.

Definition utheta (q : uquad) (N i : nat) : R :=
  match q with GU => (INR i + 1) * PI / (INR N + 1) | GC => PI * INR (2 * i + 1) / (2 * INR N) end.
Lemma u_point_theta q N i : u_point q N i = cos (utheta q N i). Proof. destruct q; reflexivity. Qed.
Lemma utheta_range q N i : (i < N)%nat -> 0 < utheta q N i < PI.
Proof.
  intros Hi. pose proof PI_RGT_0 as HP. unfold Rgt in HP. assert (HN : 0 < INR N) by (apply lt_0_INR; lia). pose proof (pos_INR i) as Hi0.
  assert (Hi1 : INR i + 1 <= INR N) by (rewrite <- S_INR; apply le_INR; lia).
  unfold utheta. destruct q.
  - replace ((INR i + 1) * PI / (INR N + 1)) with (PI * ((INR i + 1) / (INR N + 1))) by (field; lra).
    assert (0 < (INR i + 1) / (INR N + 1)) by (apply Rdiv_lt_0_compat; lra).
    assert ((INR i + 1) / (INR N + 1) < 1) by (apply Rmult_lt_reg_r with (INR N + 1); [lra|]; unfold Rdiv; rewrite Rmult_assoc, Rinv_l by lra; lra). nra.
  - rewrite plus_INR, mult_INR. cbn [INR].
    replace (PI * ((1 + 1) * INR i + 1) / (2 * INR N)) with (PI * ((INR i + 1 / 2) / INR N)) by (field; lra).
    assert (0 < (INR i + 1 / 2) / INR N) by (apply Rdiv_lt_0_compat; lra).
    assert ((INR i + 1 / 2) / INR N < 1) by (apply Rmult_lt_reg_r with (INR N); [lra|]; unfold Rdiv at 1; rewrite Rmult_assoc, Rinv_l by lra; lra). nra.
Qed.
Lemma sin_utheta q N i : (i < N)%nat -> 0 < sin (utheta q N i).
Proof. intros H. destruct (utheta_range q N i H). apply sin_gt_0; assumption. Qed.
Lemma sines_theta q N i : (i < N)%nat -> sines q N i = sin (utheta q N i).
Proof.
  intros H. assert (0 < INR N) by (apply lt_0_INR; lia). destruct q; cbn [sines utheta]; f_equal; [field; lra|].
  rewrite plus_INR, mult_INR. cbn [INR]. field. lra.
Qed.
Lemma U_point q N i k : (i < N)%nat -> sin (utheta q N i) * peval (chebU k) (u_point q N i) = sin (INR (k + 1) * utheta q N i).
Proof.
  intros H. rewrite u_point_theta. destruct (C29_chebyshev_meaning k (utheta q N i)) as [_ E]. rewrite E, plus_INR. reflexivity.
Qed.
Lemma u_weight_theta q N i : u_weight q N i = PI / (match q with GU => INR N + 1 | GC => INR N end) * (sin (utheta q N i)) ^ 2.
Proof.
  unfold u_weight. rewrite u_point_theta. pose proof (sin2_cos2 (utheta q N i)) as E. unfold Rsqr in E.
  replace (1 - cos (utheta q N i) * cos (utheta q N i)) with (sin (utheta q N i) ^ 2) by (cbn [pow]; lra). destruct q; reflexivity.
Qed.

Lemma sin_prod a b : sin a * sin b = / 2 * (cos (a - b) - cos (a + b)).
Proof. rewrite cos_minus, cos_plus. field. Qed.
Lemma rsum_minus n f g : rsum n (fun i => f i - g i) = rsum n f - rsum n g.
Proof. induction n as [|n IH]; [cbn; ring|]. cbn [gsum]. rewrite IH. ring. Qed.
Lemma pm1 n m : (-1) ^ (n + m + 2) = (-1) ^ (n - m + (m - n)).
Proof. replace (n + m + 2)%nat with (n - m + (m - n) + 2 * (Nat.min n m + 1))%nat by lia. rewrite pow_add, pow_1_even. ring. Qed.

(** orthogonality of the sines on the points *)
Definition ucount (q : uquad) (N k : nat) : R :=
  match q with GU => (INR N + 1) / 2 | GC => if Nat.eqb k (N - 1) then INR N else INR N / 2 end.
Lemma sine_GU N p r : (p < N)%nat -> (r < N)%nat ->
  rsum N (fun i => sin (INR (p + 1) * utheta GU N i) * sin (INR (r + 1) * utheta GU N i)) = if Nat.eqb p r then (INR N + 1) / 2 else 0.
Proof.
  intros Hp Hr. assert (HN : 0 < INR N) by (apply lt_0_INR; lia).
  set (a := fun m i => cos (INR i * (INR m * PI / INR (S N)))).
  set (f := fun i => / 2 * (a (p - r + (r - p))%nat i - a (p + r + 2)%nat i)).
  transitivity (rsum (S N) f).
  - rewrite gsum_first. replace (f 0%nat) with 0 by (unfold f, a; cbn [INR]; rewrite !Rmult_0_l, cos_0; ring). rewrite Rplus_0_l.
    apply gsum_ext_R. intros i Hi. rewrite sin_prod. unfold f, a, utheta. f_equal. f_equal.
    + rewrite cos_abs_diff. replace (p + 1 - (r + 1) + (r + 1 - (p + 1)))%nat with (p - r + (r - p))%nat by lia. f_equal. rewrite !S_INR. field. lra.
    + f_equal. rewrite !plus_INR, !S_INR. cbn [INR]. field. lra.
  - unfold f. rewrite gsum_scal, rsum_minus. unfold a. rewrite !cos_full_sum by lia. rewrite pm1, S_INR.
    destruct (Nat.eqb_spec (p + r + 2) 0); [lia|]. destruct (Nat.eqb_spec p r), (Nat.eqb_spec (p - r + (r - p)) 0); try lia; field.
Qed.
Lemma odd_cos_2N N : rsum N (fun i => cos (INR (2 * i + 1) * (INR (2 * N) * PI / (2 * INR N)))) = - INR N.
Proof.
  destruct N as [|M]; [cbn; ring|]. set (N := S M). assert (HN : 0 < INR N) by (apply lt_0_INR; lia).
  rewrite (gsum_ext_R N _ (fun _ => -1)).
  - generalize N. clear. induction N as [|N IH]; [cbn; ring|]. cbn [gsum]. rewrite IH, S_INR. ring.
  - intros i _. replace (INR (2 * i + 1) * (INR (2 * N) * PI / (2 * INR N))) with (INR (2 * i + 1) * PI) by (rewrite (mult_INR 2 N); cbn [INR]; field; lra).
    rewrite cos_k_PI. replace (2 * i + 1)%nat with (S (2 * i)) by lia. rewrite <- tech_pow_Rmult, pow_1_even. ring.
Qed.
Lemma odd_cos_val N m : (m <= 2 * N)%nat -> (0 < N)%nat ->
  rsum N (fun i => cos (INR (2 * i + 1) * (INR m * PI / (2 * INR N)))) = if Nat.eqb m 0 then INR N else if Nat.eqb m (2 * N) then - INR N else 0.
Proof.
  intros Hm HN. destruct (Nat.eqb_spec m 0) as [->|]; [apply odd_cos_0|]. destruct (Nat.eqb_spec m (2 * N)) as [->|]; [apply odd_cos_2N|].
  apply odd_cos_zero. lia.
Qed.
Lemma sine_GC N p r : (p < N)%nat -> (r < N)%nat ->
  rsum N (fun i => sin (INR (p + 1) * utheta GC N i) * sin (INR (r + 1) * utheta GC N i)) = if Nat.eqb p r then ucount GC N p else 0.
Proof.
  intros Hp Hr. assert (HN : 0 < INR N) by (apply lt_0_INR; lia).
  set (a := fun m i => cos (INR (2 * i + 1) * (INR m * PI / (2 * INR N)))).
  rewrite (gsum_ext_R N _ (fun i => / 2 * (a (p - r + (r - p))%nat i - a (p + r + 2)%nat i))).
  - rewrite gsum_scal, rsum_minus. unfold a. rewrite !odd_cos_val by lia. unfold ucount.
    destruct (Nat.eqb_spec (p + r + 2) 0); [lia|].
    destruct (Nat.eqb_spec p r), (Nat.eqb_spec (p - r + (r - p)) 0), (Nat.eqb_spec (p - r + (r - p)) (2 * N)), (Nat.eqb_spec (p + r + 2) (2 * N)), (Nat.eqb_spec p (N - 1)); try lia; field.
  - intros i Hi. rewrite sin_prod. unfold a, utheta. f_equal. f_equal.
    + rewrite cos_abs_diff. replace (p + 1 - (r + 1) + (r + 1 - (p + 1)))%nat with (p - r + (r - p))%nat by lia. f_equal. field. lra.
    + f_equal. rewrite (plus_INR (p + r) 2), (plus_INR p r), (plus_INR p 1), (plus_INR r 1). cbn [INR]. field. lra.
Qed.
Lemma sine_orth q N p r : (p < N)%nat -> (r < N)%nat ->
  rsum N (fun i => sin (INR (p + 1) * utheta q N i) * sin (INR (r + 1) * utheta q N i)) = if Nat.eqb p r then ucount q N p else 0.
Proof. destruct q; [apply sine_GU|apply sine_GC]. Qed.
(** orthogonality over the modes *)
Lemma sine_dual q N i j : (i < N)%nat -> (j < N)%nat ->
  rsum N (fun k => sin (INR (k + 1) * utheta q N i) * sin (INR (k + 1) * utheta q N j) / ucount q N k) = if Nat.eqb i j then 1 else 0.
Proof.
  intros Hi Hj. assert (HN : 0 < INR N) by (apply lt_0_INR; lia). destruct q.
  - rewrite (gsum_ext_R N _ (fun k => 2 / (INR N + 1) * (sin (INR (i + 1) * utheta GU N k) * sin (INR (j + 1) * utheta GU N k)))).
    + rewrite gsum_scal, sine_GU by assumption. destruct (Nat.eqb i j); field; lra.
    + intros k Hk. unfold ucount, utheta. rewrite !plus_INR. cbn [INR].
      replace ((INR k + 1) * ((INR i + 1) * PI / (INR N + 1))) with ((INR i + 1) * ((INR k + 1) * PI / (INR N + 1))) by (field; lra).
      replace ((INR k + 1) * ((INR j + 1) * PI / (INR N + 1))) with ((INR j + 1) * ((INR k + 1) * PI / (INR N + 1))) by (field; lra).
      field. lra.
  - set (a := fun m k => cos (INR k * (INR m * PI / INR N))).
    set (f := fun k => / INR N * (a (i - j + (j - i))%nat k - a (i + j + 1)%nat k)).
    assert (F : forall k, f k = 2 / INR N * (sin (INR k * utheta GC N i) * sin (INR k * utheta GC N j))).
    { intros k. rewrite sin_prod. unfold f, a, utheta.
      replace (INR k * (PI * INR (2 * i + 1) / (2 * INR N)) - INR k * (PI * INR (2 * j + 1) / (2 * INR N))) with (INR i * (INR k * PI / INR N) - INR j * (INR k * PI / INR N))
        by (rewrite !plus_INR, !mult_INR; cbn [INR]; field; lra).
      rewrite cos_abs_diff.
      replace (INR k * (PI * INR (2 * i + 1) / (2 * INR N)) + INR k * (PI * INR (2 * j + 1) / (2 * INR N))) with (INR k * (INR (i + j + 1) * PI / INR N))
        by (rewrite !plus_INR, !mult_INR; cbn [INR]; field; lra).
      replace (INR (i - j + (j - i)) * (INR k * PI / INR N)) with (INR k * (INR (i - j + (j - i)) * PI / INR N)) by (field; lra). field. lra. }
    transitivity (rsum N (fun k => (f k + f (S k)) / 2)).
    + destruct N as [|M]; [lia|]. rewrite half_sum, (gsum_first M f). replace (f 0%nat) with 0 by (rewrite F; cbn [INR]; rewrite !Rmult_0_l, sin_0; ring).
      rewrite gsum_last. unfold ucount. replace (S M - 1)%nat with M by lia. rewrite Nat.eqb_refl.
      rewrite (gsum_ext_R M _ (fun k => f (S k))).
      * rewrite F. replace (M + 1)%nat with (S M) by lia. field. lra.
      * intros k Hk. destruct (Nat.eqb_spec k M); [lia|]. rewrite F. replace (k + 1)%nat with (S k) by lia. field. lra.
    + rewrite (gsum_ext_R N _ (fun k => / INR N * ((a (i - j + (j - i))%nat k + a (i - j + (j - i))%nat (S k)) / 2 - (a (i + j + 1)%nat k + a (i + j + 1)%nat (S k)) / 2)))
        by (intros; unfold f; field; lra).
      rewrite gsum_scal, rsum_minus. unfold a. rewrite !GL_cos_sum by lia.
      destruct (Nat.eqb_spec (i + j + 1) 0); [lia|]. destruct (Nat.eqb_spec (i + j + 1) (2 * N)); [lia|].
      destruct (Nat.eqb_spec i j), (Nat.eqb_spec (i - j + (j - i)) 0), (Nat.eqb_spec (i - j + (j - i)) (2 * N)); try lia; field; lra.
Qed.
