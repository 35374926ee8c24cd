(** DLTProofs4.v -- a scalar product for which the loop of DLT stops too early: four points. *)
From Coq Require Import Reals ZArith List Arith Bool Lia Lra.
From Verif Require Import Base Fld SparseModel RPoly StencilModel LegMatrixModel ChebMatrixProofs ChebTransModel UTransModel UTransProofs
  Leg2ChebModel Leg2ChebSpec Leg2ChebProofs3 MatrixProofs FormsProofs3 InnerProofs5 CoordProofs HelmholtzProofs DLTModel DLTSpec DLTProofs DLTProofs2 DLTProofs3.
Import ListNotations.
Local Open Scope R_scope.

Lemma angle4_0 : cheb_angle 4 0 = PI / 8. Proof. unfold cheb_angle. cbn [Nat.mul Nat.add INR]. field. Qed.
Lemma angle4_1 : cheb_angle 4 1 = 3 * (PI / 8). Proof. unfold cheb_angle. cbn [Nat.mul Nat.add INR]. field. Qed.
(** the sum of (-1)^p sin(i theta_p) *)
Lemma alternating_sines N i : (1 <= i < N)%nat -> rsum N (fun p => (-1) ^ p * sin (INR i * cheb_angle N p)) = 0.
Proof.
  intros Hi. destruct i as [|i]; [lia|]. assert (HN : 0 < INR N) by (apply lt_0_INR; lia).
  pose proof (sine_orth GC N (N - 1) i ltac:(lia) ltac:(lia)) as Q. destruct (Nat.eqb_spec (N - 1) i); [lia|]. etransitivity; [|exact Q]. apply rsum_ext. intros p _.
  unfold utheta. fold (cheb_angle N p). replace (N - 1 + 1)%nat with N by lia. replace (i + 1)%nat with (S i) by lia. f_equal.
  replace (INR N * cheb_angle N p) with (INR p * PI + PI / 2) by (unfold cheb_angle; rewrite plus_INR, mult_INR; cbn [INR]; field; lra).
  rewrite sin_plus, cos_PI2, sin_PI2, Rmult_0_r, Rplus_0_l, Rmult_1_r. symmetry. apply ChebTransProofs.cos_k_PI.
Qed.
Lemma term1_zero N dt (al : R) i : (forall p, (p < N)%nat -> dt p <> 0) -> (i < N)%nat ->
  d_term ScalarProduct N dt (fun p => al * (-1) ^ p / dt p) 1 i = 0.
Proof.
  intros Hdt Hi. unfold d_term.
  rewrite (rsum_ext N _ (fun p => (- al * INR i) * ((-1) ^ p * sin (INR i * cheb_angle N p)))).
  - rewrite FormsProofs3.rsum_scal. destruct i as [|i]; [change (INR 0) with 0; ring|]. rewrite alternating_sines by lia. ring.
  - intros p Hp. unfold tay. rewrite loop_sign. change ((1 + 1) / 2 mod 2 =? 0)%nat with false. change (1 mod 2 =? 0)%nat with false. cbv iota.
    unfold d_step, d_ang. cbn [is_backward pow fact Nat.mul Nat.add INR]. field. apply Hdt, Hp.
Qed.
Definition cos2_slope (a d : R) : R := (cos (2 * a) - cos (2 * (a + d))) / d.
Lemma slope_mvt a d : 0 < d -> exists c, a < c < a + d /\ cos2_slope a d = 2 * sin (2 * c).
Proof.
  intros Hd. destruct (MVT_cor2 (fun t => - cos (2 * t)) (fun t => 2 * sin (2 * t)) a (a + d) ltac:(lra)) as (c & E & Hc).
  - intros c _. replace (2 * sin (2 * c)) with (- (- sin (2 * c) * (2 * 1))) by ring. apply (derivable_pt_lim_opp (fun t => cos (2 * t))).
    apply (derivable_pt_lim_comp (fun t => 2 * t) cos); [apply (derivable_pt_lim_scal id); apply derivable_pt_lim_id|apply derivable_pt_lim_cos].
  - exists c. split; [exact Hc|]. unfold cos2_slope. replace (cos (2 * a) - cos (2 * (a + d))) with (2 * sin (2 * c) * (a + d - a)) by (rewrite <- E; ring). field. lra.
Qed.
(** points strictly between the Chebyshev points and the middle *)
Definition four_points (x : nat -> R) : Prop :=
  cos (3 * (PI / 8)) < x 3%nat < cos (PI / 8) /\ 0 < x 2%nat < cos (3 * (PI / 8)) /\ x 0%nat = - x 3%nat /\ x 1%nat = - x 2%nat.
Lemma four_distances x : four_points x -> exists d0 d1, 0 < d0 < PI / 4 /\ 0 < d1 < PI / 8 /\
  dlt_dtheta x 4 0 = d0 /\ dlt_dtheta x 4 1 = d1 /\ dlt_dtheta x 4 2 = - d1 /\ dlt_dtheta x 4 3 = - d0.
Proof.
  intros ((A1 & A2) & (B1 & B2) & E0 & E1). pose proof PI_RGT_0 as P.
  exists (acos (x 3%nat) - PI / 8), (acos (x 2%nat) - 3 * (PI / 8)).
  pose proof (COS_bound (PI / 8)) as C1. pose proof (COS_bound (3 * (PI / 8))) as C2.
  assert (K : forall a y, 0 <= a <= PI -> -1 <= y <= 1 -> (y < cos a -> a < acos y) /\ (cos a < y -> acos y < a)).
  { intros a y Ha Hy. pose proof (acos_bound y) as Bd. pose proof (cos_acos y Hy) as Y. split; intros H; apply Rnot_le_lt; intros Hle.
    - destruct (Req_dec (acos y) a) as [Eq|Ne]; [rewrite Eq in Y; lra|]. pose proof (cos_decreasing_1 (acos y) a ltac:(lra) ltac:(lra) ltac:(lra) ltac:(lra) ltac:(lra)) as D. lra.
    - destruct (Req_dec (acos y) a) as [Eq|Ne]; [rewrite Eq in Y; lra|]. pose proof (cos_decreasing_1 a (acos y) ltac:(lra) ltac:(lra) ltac:(lra) ltac:(lra) ltac:(lra)) as D. lra. }
  destruct (K (PI / 8) (x 3%nat) ltac:(lra) ltac:(lra)) as (K1 & _). destruct (K (3 * (PI / 8)) (x 3%nat) ltac:(lra) ltac:(lra)) as (_ & K2).
  destruct (K (3 * (PI / 8)) (x 2%nat) ltac:(lra) ltac:(lra)) as (K3 & _). destruct (K (PI / 2) (x 2%nat) ltac:(lra) ltac:(lra)) as (_ & K4). rewrite cos_PI2 in K4.
  specialize (K1 A2). specialize (K2 A1). specialize (K3 B2). specialize (K4 B1).
  split; [lra|]. split; [lra|]. unfold dlt_dtheta, dlt_thetal. rewrite !thetac_angle by lia. cbn [Nat.sub].
  change (cheb_angle 4 2) with (cheb_angle 4 (4 - 1 - 1)). change (cheb_angle 4 3) with (cheb_angle 4 (4 - 1 - 0)). rewrite !cheb_angle_mirror by lia. rewrite angle4_0, angle4_1, E0, E1, !acos_opp. repeat split; ring.
Qed.
Lemma L2_in_T : same_function 4 (fun i => match i with 0%nat => 1 / 4 | 2%nat => 3 / 4 | _ => 0 end) chebT (delta_at 2) legL.
Proof. intros x. unfold delta_at. cbn. field. Qed.
Lemma sum2 (f : nat -> R) : rsum 2 f = f 0%nat + f 1%nat. Proof. cbn. ring. Qed.
Lemma sum4 (f : nat -> R) : rsum 4 f = f 0%nat + f 1%nat + f 2%nat + f 3%nat. Proof. cbn. ring. Qed.
Lemma early_stop l2c xl wl : (forall N c, same_function N (l2c N false c) chebT c legL) -> (forall N, adjoint N (l2c N false) (l2c N true)) ->
  four_points xl -> (forall j, (j < 4)%nat -> 0 < wl j) ->
  forall e, exists f, forall tol fuel, 0 < tol -> (1 <= fuel)%nat ->
    exists out, dlt l2c xl wl fuel tol ScalarProduct 1 4 (fun _ => f) = Some (1%nat, out) /\ out 0%nat 2%nat - leg_product 4 xl wl f 2 = e.
Proof.
  intros HL HA HX HW e. pose proof PI_RGT_0 as P. destruct (four_distances xl HX) as (d0 & d1 & Hd0 & Hd1 & T0 & T1 & T2 & T3).
  destruct (slope_mvt (PI / 8) d0 ltac:(lra)) as (c0 & Hc0 & S0). destruct (slope_mvt (3 * (PI / 8)) d1 ltac:(lra)) as (c1 & Hc1 & S1).
  assert (K : cos2_slope (3 * (PI / 8)) d1 < cos2_slope (PI / 8) d0).
  { rewrite S0, S1. enough (sin (2 * c1) < sin (2 * c0)) by lra. apply Rlt_trans with (sin (PI / 4)).
    - replace (sin (PI / 4)) with (sin (PI - PI / 4)) by (rewrite sin_minus, sin_PI, cos_PI; ring). apply sin_decreasing_1; lra.
    - destruct (Rle_or_lt (2 * c0) (PI / 2)) as [H|H].
      + apply sin_increasing_1; lra.
      + replace (sin (PI / 4)) with (sin (PI - PI / 4)) by (rewrite sin_minus, sin_PI, cos_PI; ring). apply sin_decreasing_1; lra. }
  set (G := cos2_slope (PI / 8) d0 - cos2_slope (3 * (PI / 8)) d1). assert (HG : 0 < G) by (unfold G; lra).
  set (al := e / (3 / 2 * G)). set (dt := dlt_dtheta xl 4) in *.
  assert (Hdt : forall p, (p < 4)%nat -> dt p <> 0).
  { intros p Hp. destruct p as [|[|[|[|p]]]]; [| | | |lia]; rewrite ?T0, ?T1, ?T2, ?T3; lra. }
  set (x := fun p => al * (-1) ^ p / dt p).
  exists (fun j => x j / wl j). intros tol fuel Ht Hf.
  assert (Ex : forall p, (p < 4)%nat -> x p / wl p * wl p = x p).
  { intros p Hp. pose proof (HW p Hp). field. lra. }
  destruct fuel as [|fuel]; [lia|].
  assert (Z : forall i, (i < 4)%nat -> d_term ScalarProduct 4 dt (fun p => x p / wl p * wl p) 1 i = 0).
  { intros i Hi. rewrite <- (term1_zero 4 dt al i Hdt Hi). unfold d_term. apply rsum_ext. intros p Hp. rewrite Ex by exact Hp. reflexivity. }
  assert (NZ : array_norm 1 4 (fun l i => d_term ScalarProduct 4 dt (fun p => x p / wl p * wl p) 1 i) < tol).
  { unfold array_norm. rewrite rsum_zero; [rewrite sqrt_0; exact Ht|]. intros l _. apply rsum_zero. intros i Hi. rewrite Z by exact Hi. ring. }
  set (u := fun _ : nat => fun j => x j / wl j).
  assert (E : exists out, dlt l2c xl wl (S fuel) tol ScalarProduct 1 4 u = Some (1%nat, out)).
  { unfold dlt. destruct (loop_result tol ScalarProduct 1 4 dt (fun l i => u l i * wl i) ltac:(lia) (S fuel) 1%nat 1 (fun l i => u l i * wl i) (fun _ => 1) (fun l => DCT (dlt_type ScalarProduct) 4 (fun i => u l i * wl i))) as (L1 & L2); cbn [Nat.sub fact INR pow]; auto.
    - intros l i. unfold x_at. cbn [pow]. ring.
    - intros l i. cbn [gsum]. rewrite (first_term ScalarProduct 4 dt) by lia. ring.
    - destruct (L2 1%nat (le_n 1) NZ ltac:(cbn; lia)) as (m' & out & EL & Hm). destruct (L1 m' out EL) as (Hm2 & _). assert (m' = 1%nat) by lia. subst m'.
      cbn [is_backward]. fold dt. rewrite EL. eexists. reflexivity. }
  destruct E as (out & E). exists out. split; [exact E|].
  destruct (dlt_value l2c xl wl (S fuel) tol ScalarProduct 1 4 u 1 out ltac:(lia) E) as (_ & _ & fk & Hfk & ->). cbn [is_backward]. unfold dlt_x in Hfk. cbn [is_backward] in Hfk. fold dt in Hfk.
  set (a := fun i : nat => match i with 0%nat => 1 / 4 | 2%nat => 3 / 4 | _ => 0 end).
  assert (Ea : forall i, (i < 4)%nat -> l2c 4%nat false (delta_at 2) i = a i).
  { apply cheb_coeffs. intros z. rewrite (HL 4%nat (delta_at 2) z). symmetry. apply L2_in_T. }
  assert (EA : l2c 4%nat true (fk 0%nat) 2%nat = 1 / 4 * fk 0%nat 0%nat + 3 / 4 * fk 0%nat 2%nat).
  { rewrite <- (delta_sum 4 2 (l2c 4%nat true (fk 0%nat)) ltac:(lia)). rewrite <- (HA 4%nat (delta_at 2) (fk 0%nat)). rewrite sum4, !Ea by lia. unfold a. ring. }
  rewrite EA.
  assert (F : forall i, (i < 4)%nat -> fk 0%nat i = rsum 4 (fun p => x p * cos (INR i * cheb_angle 4 p))).
  { intros i Hi. rewrite Hfk. change (1 + 1)%nat with 2%nat. rewrite sum2. cbv beta. unfold u. rewrite Z by exact Hi. rewrite Rplus_0_r. unfold d_term. apply rsum_ext. intros p Hp. rewrite Ex by exact Hp.
    unfold tay, d_ang. cbn [is_backward pow fact INR]. rewrite Rmult_0_l, Rplus_0_r. field. }
  rewrite !F by lia. unfold dlt_nsign. cbn [Nat.odd Nat.even negb].
  assert (HR : rule_points 4 xl).
  { destruct HX as ((A1 & A2) & (B1 & B2) & E0 & E1). pose proof (COS_bound (PI / 8)). pose proof (COS_bound (3 * (PI / 8))).
    intros j Hj. destruct j as [|[|[|[|j]]]]; [| | | |lia]; lra. }
  assert (EP : leg_product 4 xl wl (fun j => x j / wl j) 2 = rsum 4 (fun p => x p * (1 / 4 + 3 / 4 * cos (2 * acos (xl p))))).
  { unfold leg_product. apply rsum_ext. intros p Hp. pose proof (HW p Hp).
    assert (LT : peval (legL 2) (xl p) = 1 / 4 + 3 / 4 * peval (chebT 2) (xl p)) by (cbn; field).
    rewrite LT. rewrite <- (cos_acos (xl p)) at 1 by (apply HR, Hp). rewrite chebT_cos. change (INR 2) with 2. field. lra. }
  rewrite EP, !sum4. unfold x. fold dt in T0, T1, T2, T3. rewrite T0, T1, T2, T3. cbn [pow].
  assert (AC : acos (xl 3%nat) = PI / 8 + d0 /\ acos (xl 2%nat) = 3 * (PI / 8) + d1).
  { unfold dt, dlt_dtheta, dlt_thetal in T0, T1. rewrite thetac_angle in T0, T1 by lia. cbn [Nat.sub] in T0, T1. rewrite angle4_0 in T0. rewrite angle4_1 in T1. split; lra. }
  destruct AC as (AC3 & AC2). destruct HX as (_ & _ & X0 & X1). rewrite X0, X1, !acos_opp, AC3, AC2.
  change (cheb_angle 4 2) with (cheb_angle 4 (4 - 1 - 1)). change (cheb_angle 4 3) with (cheb_angle 4 (4 - 1 - 0)). rewrite !cheb_angle_mirror by lia. rewrite angle4_0, angle4_1.
  change (INR 0) with 0. change (INR 2) with 2. rewrite !Rmult_0_l, cos_0.
  assert (M : forall t, cos (2 * (PI - t)) = cos (2 * t)).
  { intros t. replace (2 * (PI - t)) with (- (2 * t) + 2 * 1 * PI) by ring. pose proof (cos_period (- (2 * t)) 1) as C. cbn [INR] in C. rewrite C. apply cos_neg. }
  rewrite !M. unfold al, G, cos2_slope in *.
  set (A := cos (2 * (PI / 8))) in *. set (A' := cos (2 * (PI / 8 + d0))) in *. set (B := cos (2 * (3 * (PI / 8)))) in *. set (B' := cos (2 * (3 * (PI / 8) + d1))) in *.
  field. repeat split; try lra. intros HZ. apply (Rlt_irrefl 0). 
  assert (Eq : (A - A') / d0 - (B - B') / d1 = ((A - A') * d1 - (B - B') * d0) / (d0 * d1)) by (field; lra). rewrite Eq in HG.
  replace ((A - A') * d1 - (B - B') * d0) with 0 in HG by lra. unfold Rdiv in HG. rewrite Rmult_0_l in HG. exact HG.
Qed.
