(** DLTProperties.v -- C57: the fast discrete Legendre transform. *)
From Coq Require Import Reals ZArith List Arith Bool Lia Lra.
From Verif Require Import Base Fld RPoly ChebMatrixProofs ChebTransModel JacobiProofs3 HelmholtzProofs Leg2ChebModel Leg2ChebSpec Leg2ChebProperties DLTModel DLTSpec DLTProofs DLTProofs2 DLTProofs3 DLTProofs4.
Import ListNotations.
Local Open Scope R_scope.

(** the conversions the class can be built with: arrays with one dimension, arrays with more dimensions (N <= use_direct) *)
Definition conversions : list (nat -> bool -> (nat -> R) -> nat -> R) := [leg2cheb; Leg2Cheb_direct].
Lemma conv_same f : In f conversions -> forall N c, same_function N (f N false c) chebT c legL.
Proof.
  intros Hf. pose proof C46_leg2cheb as H. rewrite Forall_forall in H. apply (H f). destruct Hf as [<-|[<-|[]]]; [left; reflexivity|right; right; left; reflexivity].
Qed.
Lemma conv_adjoint f : In f conversions -> forall N, adjoint N (f N false) (f N true).
Proof.
  intros Hf. pose proof C46_leg2cheb_transpose as H. rewrite Forall_forall in H. apply (H f). destruct Hf as [<-|[<-|[]]]; [left; reflexivity|right; right; left; reflexivity].
Qed.

(** ** The loop ends for every array, whatever the points. *)
Theorem C57_terminates : forall l2c xl wl kind lines N u tol, In l2c conversions -> (1 <= N)%nat -> 0 < tol ->
  exists fuel0 passes out, (1 <= passes)%nat /\ forall fuel, (fuel0 <= fuel)%nat -> dlt l2c xl wl fuel tol kind lines N u = Some (passes, out).
Proof. intros. apply dlt_stops; assumption. Qed.
Print Assumptions C57_terminates.

(** ** backward: the values of the Legendre series in all points, up to the remainder of Taylor's formula after as many terms
    as the loop made passes. *)
Theorem C57_backward : forall l2c xl wl fuel tol lines N u passes out, In l2c conversions -> (1 <= N)%nat -> rule_points N xl ->
  dlt l2c xl wl fuel tol Backward lines N u = Some (passes, out) ->
  forall l j c, (l < lines)%nat -> (j < N)%nat -> same_function N c chebT (u l) legL ->
  Rabs (out l j - leg_series N (u l) (xl j)) <= gsum 0 Rplus N (fun k => Rabs (c k) * remainder passes (INR k * angle_distance xl N j)).
Proof. intros l2c xl wl fuel tol lines N u passes out HI HN HR E l j c Hl Hj Hc. eapply backward_error; eauto. apply conv_same, HI. Qed.
Print Assumptions C57_backward.
(** and the test at the end of the loop does control the error: d and D bound the distances of the points' angles from the
    Chebyshev angles. *)
Theorem C57_backward_stop : forall l2c xl wl fuel tol lines N u passes out d D, In l2c conversions -> (1 <= N)%nat -> rule_points N xl -> 0 < d ->
  (forall j, (j < N)%nat -> d <= angle_distance xl N j <= D) ->
  dlt l2c xl wl fuel tol Backward lines N u = Some (passes, out) ->
  forall l j, (l < lines)%nat -> (j < N)%nat ->
  Rabs (out l j - leg_series N (u l) (xl j)) <= tol * (INR N * (INR N - 1)) * D * (D / d) ^ passes / (INR passes + 1).
Proof. intros l2c xl wl fuel tol lines N u passes out d D HI HN HR Hd HD E l j Hl Hj. eapply backward_stop; eauto. apply conv_same, HI. Qed.
Print Assumptions C57_backward_stop.
(** ** scalar product and forward *)
Theorem C57_scalar_product : forall l2c xl wl fuel tol lines N u passes out, In l2c conversions -> (1 <= N)%nat -> rule_points N xl -> symmetric_rule N xl wl ->
  dlt l2c xl wl fuel tol ScalarProduct lines N u = Some (passes, out) ->
  forall l k a, (l < lines)%nat -> (k < N)%nat -> same_function N a chebT (fun i => if (i =? k)%nat then 1 else 0) legL ->
  Rabs (out l k - leg_product N xl wl (u l) k) <=
    gsum 0 Rplus N (fun i => Rabs (a i) * gsum 0 Rplus N (fun j => Rabs (u l j * wl j) * remainder passes (INR i * angle_distance xl N j))).
Proof.
  intros l2c xl wl fuel tol lines N u passes out HI HN HR HS E l k a Hl Hk Ha.
  pose proof (forward_error l2c xl wl fuel tol ScalarProduct lines N u passes out l k a (conv_same _ HI) (conv_adjoint _ HI) HN HR HS eq_refl E Hk Ha) as B. cbv iota in B. rewrite !Rmult_1_l in B. exact B.
Qed.
Print Assumptions C57_scalar_product.
(** forward divides by the squared norms 2/(2k+1) *)
Theorem C57_forward : forall l2c xl wl fuel tol lines N u passes out, In l2c conversions -> (1 <= N)%nat -> rule_points N xl -> symmetric_rule N xl wl ->
  dlt l2c xl wl fuel tol Forward lines N u = Some (passes, out) ->
  forall l k a, (l < lines)%nat -> (k < N)%nat -> same_function N a chebT (fun i => if (i =? k)%nat then 1 else 0) legL ->
  Rabs (out l k - leg_product N xl wl (u l) k / (2 / (2 * INR k + 1))) <=
    gsum 0 Rplus N (fun i => Rabs (a i) * gsum 0 Rplus N (fun j => Rabs (u l j * wl j) * remainder passes (INR i * angle_distance xl N j))) / (2 / (2 * INR k + 1)).
Proof.
  intros l2c xl wl fuel tol lines N u passes out HI HN HR HS E l k a Hl Hk Ha.
  pose proof (forward_error l2c xl wl fuel tol Forward lines N u passes out l k a (conv_same _ HI) (conv_adjoint _ HI) HN HR HS eq_refl E Hk Ha) as B. cbv iota in B.
  pose proof (pos_INR k) as P.
  assert (Q : forall y, y / (2 / (2 * INR k + 1)) = (INR k + 1 / 2) * y) by (intros y; field; lra). rewrite !Q. exact B.
Qed.
Print Assumptions C57_forward.
(** The remainder goes to zero with the number of passes. *)
Theorem C57_remainder : forall h e, 0 <= h -> 0 < e -> exists n0, forall n, (n0 <= n)%nat -> 0 <= remainder n h < e.
Proof.
  intros h e Hh He. destruct (cv_speed_pow_fact h e He) as (m0 & H). exists m0. intros n Hn. specialize (H (n + 1)%nat ltac:(lia)). unfold R_dist in H. rewrite Rminus_0_r in H.
  pose proof (rem_nonneg n h Hh) as P. unfold remainder in *. rewrite Rabs_right in H by lra. lra.
Qed.
Print Assumptions C57_remainder.
(** The hypotheses on the points: the two-point Gauss rule. *)
Definition gauss2 (j : nat) : R := match j with O => - / sqrt 3 | _ => / sqrt 3 end.
Example C57_points_ex : rule_points 2 gauss2 /\ symmetric_rule 2 gauss2 (fun _ => 1) /\ (1 <= 2)%nat /\ In leg2cheb conversions /\ 0 < dlt_tol.
Proof.
  assert (S : 1 <= sqrt 3) by (rewrite <- sqrt_1 at 1; apply sqrt_le_1_alt; lra).
  assert (I : 0 < / sqrt 3 <= 1) by (split; [apply Rinv_0_lt_compat; lra|rewrite <- Rinv_1; apply Rinv_le_contravar; lra]).
  split; [intros [|[|j]] Hj; cbn; try lia; lra|]. split; [intros [|[|j]] Hj; cbn; try lia; split; ring|]. split; [lia|]. split; [left; reflexivity|].
  apply Rinv_0_lt_compat, pow_lt. lra.
Qed.

(** ** scalar product: the test at the end of the loop does not control the error.  With the four Gauss points the loop can
    stop after one pass, whatever the tolerance, with an error as large as one likes. *)
Definition gauss4 (j : nat) : R :=
  match j with
  | 0%nat => - sqrt (3 / 7 + 2 / 7 * sqrt (6 / 5)) | 1%nat => - sqrt (3 / 7 - 2 / 7 * sqrt (6 / 5))
  | 2%nat => sqrt (3 / 7 - 2 / 7 * sqrt (6 / 5)) | _ => sqrt (3 / 7 + 2 / 7 * sqrt (6 / 5))
  end.
Lemma sqrt65 : 109 / 100 < sqrt (6 / 5) < 110 / 100.
Proof.
  split.
  - rewrite <- (sqrt_square (109 / 100)) by lra. apply sqrt_lt_1_alt. lra.
  - rewrite <- (sqrt_square (110 / 100)) by lra. apply sqrt_lt_1_alt. lra.
Qed.
Lemma gauss4_zero j : (j < 4)%nat -> peval (legL 4) (gauss4 j) = 0.
Proof.
  intros Hj. pose proof sqrt65 as S. assert (Q : sqrt (6 / 5) * sqrt (6 / 5) = 6 / 5) by (apply sqrt_sqrt; lra).
  set (s := sqrt (6 / 5)) in *.
  assert (Z : forall x, x * x = 3 / 7 + 2 / 7 * s \/ x * x = 3 / 7 - 2 / 7 * s -> peval (legL 4) x = 0).
  { intros x Hx. assert (E : peval (legL 4) x = (35 * ((x * x) * (x * x)) - 30 * (x * x) + 3) / 8) by (cbn; field). rewrite E. destruct Hx as [-> | ->].
    - transitivity ((35 * (9 / 49 + 12 / 49 * s + 4 / 49 * (s * s)) - 30 * (3 / 7 + 2 / 7 * s) + 3) / 8); [field|rewrite Q; field].
    - transitivity ((35 * (9 / 49 - 12 / 49 * s + 4 / 49 * (s * s)) - 30 * (3 / 7 - 2 / 7 * s) + 3) / 8); [field|rewrite Q; field]. }
  apply Z. destruct j as [|[|[|[|j]]]]; [| | | |lia]; cbn [gauss4]; fold s; rewrite ?Rmult_opp_opp, sqrt_sqrt by lra; [left|right|right|left]; reflexivity.
Qed.
Lemma gauss4_points : four_points gauss4.
Proof.
  pose proof sqrt65 as S. pose proof PI_RGT_0 as P.
  assert (R2 : 14 / 10 < sqrt 2 < 1415 / 1000).
  { split; [rewrite <- (sqrt_square (14 / 10)) by lra|rewrite <- (sqrt_square (1415 / 1000)) by lra]; apply sqrt_lt_1_alt; lra. }
  assert (Q2 : sqrt 2 * sqrt 2 = 2) by (apply sqrt_sqrt; lra).
  assert (C4 : cos (PI / 4) = sqrt 2 / 2) by (rewrite cos_PI4; apply (Rmult_eq_reg_r (sqrt 2)); [|lra]; transitivity 1; [field; lra|]; transitivity ((sqrt 2 * sqrt 2) / 2); [rewrite Q2; field|field]).
  assert (A : cos (PI / 8) * cos (PI / 8) = (2 + sqrt 2) / 4).
  { pose proof (cos_2a_cos (PI / 8)) as H. replace (2 * (PI / 8)) with (PI / 4) in H by field. lra. }
  assert (B : cos (3 * (PI / 8)) * cos (3 * (PI / 8)) = (2 - sqrt 2) / 4).
  { pose proof (cos_2a_cos (3 * (PI / 8))) as H. replace (2 * (3 * (PI / 8))) with (PI - PI / 4) in H by field. rewrite cos_minus, cos_PI, sin_PI, C4 in H. lra. }
  assert (PA : 0 < cos (PI / 8)) by (apply cos_gt_0; lra). assert (PB : 0 < cos (3 * (PI / 8))) by (apply cos_gt_0; lra).
  assert (LT : forall a c, 0 <= a -> 0 < c -> a < c * c -> sqrt a < c) by (intros a c Ha Hc H; rewrite <- (sqrt_square c) by lra; apply sqrt_lt_1_alt; lra).
  assert (GT : forall a c, 0 < c -> c * c < a -> c < sqrt a) by (intros a c Hc H; rewrite <- (sqrt_square c) by lra; apply sqrt_lt_1_alt; split; [apply Rle_0_sqr|exact H]).
  unfold four_points. cbn [gauss4]. split; [|split; [|split; reflexivity]].
  - split; [apply GT; [exact PB|rewrite B; lra]|apply LT; [lra|exact PA|rewrite A; lra]].
  - split; [apply sqrt_lt_R0; lra|apply LT; [lra|exact PB|rewrite B; lra]].
Qed.
Theorem C57_scalar_product_refuted : forall l2c wl, In l2c conversions -> (forall j, (j < 4)%nat -> 0 < wl j) ->
  (forall j, (j < 4)%nat -> peval (legL 4) (gauss4 j) = 0) /\
  forall error, exists f, forall tol fuel, 0 < tol -> (1 <= fuel)%nat ->
    exists out, dlt l2c gauss4 wl fuel tol ScalarProduct 1 4 (fun _ => f) = Some (1%nat, out) /\ out 0%nat 2%nat - leg_product 4 gauss4 wl f 2 = error.
Proof.
  intros l2c wl HI HW. split; [exact gauss4_zero|]. apply early_stop; [apply conv_same, HI|apply conv_adjoint, HI|exact gauss4_points|exact HW].
Qed.
Print Assumptions C57_scalar_product_refuted.
Example C57_scalar_product_refuted_ex : In Leg2Cheb_direct conversions /\ (forall j, (j < 4)%nat -> 0 < (fun _ : nat => 1 / 2) j).
Proof. split; [right; left; reflexivity|intros; lra]. Qed.

(** ** the transforms of the space: N modes, n >= N points (padding), domain factor df *)
Theorem C57_space_backward : forall l2c xl wl lines N n c, In l2c conversions -> (1 <= N <= n)%nat -> rule_points n xl ->
  exists fuel0 passes out, (1 <= passes)%nat /\ (forall fuel, (fuel0 <= fuel)%nat -> leg_fast_backward l2c xl wl fuel lines N n c = Some out) /\
  forall l j a, (l < lines)%nat -> (j < n)%nat -> same_function n a chebT (fun k => if (k <? N)%nat then c l k else 0) legL ->
  Rabs (out l j - leg_series N (c l) (xl j)) <= gsum 0 Rplus n (fun k => Rabs (a k) * remainder passes (INR k * angle_distance xl n j)).
Proof.
  intros l2c xl wl lines N n c HI HN HR. destruct (dlt_stops l2c xl wl Backward lines n (fun l => truncate N (c l)) dlt_tol ltac:(lia) (proj2 (proj2 (proj2 (proj2 C57_points_ex))))) as (fuel0 & passes & out & Hp & E).
  exists fuel0, passes, out. split; [exact Hp|]. split; [intros fuel Hf; unfold leg_fast_backward; rewrite E by exact Hf; reflexivity|].
  intros l j a Hl Hj Ha. specialize (E fuel0 (le_n _)).
  pose proof (backward_error l2c xl wl fuel0 dlt_tol lines n _ passes out l j a (conv_same _ HI) ltac:(lia) HR E Hj Ha) as B.
  replace (leg_series N (c l) (xl j)) with (leg_series n (truncate N (c l)) (xl j)); [exact B|].
  unfold leg_series. transitivity (gsum 0 Rplus N (fun k => truncate N (c l) k * peval (legL k) (xl j))).
  { apply JacobiProofs3.rsum_extend; [lia|]. intros i Hi. unfold truncate. destruct (Nat.ltb_spec i N); [lia|ring]. }
  apply HelmholtzProofs.rsum_ext. intros i Hi. unfold truncate. destruct (Nat.ltb_spec i N); [reflexivity|lia].
Qed.
Print Assumptions C57_space_backward.
Theorem C57_space_scalar_product : forall l2c xl wl lines N n df u, In l2c conversions -> (1 <= N <= n)%nat -> rule_points n xl -> symmetric_rule n xl wl -> 0 < df ->
  exists fuel0 passes out, (1 <= passes)%nat /\ (forall fuel, (fuel0 <= fuel)%nat -> leg_fast_scalar_product l2c xl wl fuel lines N n df u = Some out) /\
  forall l k a, (l < lines)%nat -> (k < N)%nat -> same_function n a chebT (fun i => if (i =? k)%nat then 1 else 0) legL ->
  Rabs (out l k - leg_product n xl wl (u l) k / df) <=
    gsum 0 Rplus n (fun i => Rabs (a i) * gsum 0 Rplus n (fun j => Rabs (u l j * wl j) * remainder passes (INR i * angle_distance xl n j))) / df.
Proof.
  intros l2c xl wl lines N n df u HI HN HR HS Hdf. destruct (dlt_stops l2c xl wl ScalarProduct lines n u dlt_tol ltac:(lia) (proj2 (proj2 (proj2 (proj2 C57_points_ex))))) as (fuel0 & passes & out & Hp & E).
  exists fuel0, passes, (fun l => truncate N (fun k => out l k * (1 / df))). split; [exact Hp|]. split; [intros fuel Hf; unfold leg_fast_scalar_product; rewrite E by exact Hf; reflexivity|].
  intros l k a Hl Hk Ha. specialize (E fuel0 (le_n _)).
  pose proof (C57_scalar_product l2c xl wl fuel0 dlt_tol lines n u passes out HI ltac:(lia) HR HS E l k a Hl ltac:(lia) Ha) as B.
  unfold truncate. destruct (Nat.ltb_spec k N); [|lia].
  replace (out l k * (1 / df) - leg_product n xl wl (u l) k / df) with ((out l k - leg_product n xl wl (u l) k) * / df) by (field; lra).
  rewrite Rabs_mult, (Rabs_right (/ df)) by (left; apply Rinv_0_lt_compat, Hdf). apply Rmult_le_compat_r; [left; apply Rinv_0_lt_compat, Hdf|exact B].
Qed.
Print Assumptions C57_space_scalar_product.
