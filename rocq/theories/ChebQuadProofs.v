(** ChebQuadProofs.v -- discrete orthogonality of the Chebyshev polynomials. *)
From Coq Require Import Reals Lra Lia List Arith.
From Verif Require Import Base RPoly LegMatrixModel LegMatrixSpec ChebMatrixModel ChebMatrixSpec ChebMatrixProofs ChebQuadModel StencilProofs StencilProofs8.
Import ListNotations.
Local Open Scope R_scope.

Notation rsum := (gsum 0 Rplus).
Lemma quad_sum_app a b f : quad_sum (a ++ b) f = quad_sum a f + quad_sum b f.
Proof. unfold quad_sum. induction a as [|c a IH]; cbn [app fold_right]; [ring|]. rewrite IH. ring. Qed.
Lemma quad_sum_seq x w N f : quad_sum (map (fun i => (x i, w i)) (seq 0 N)) f = rsum N (fun i => w i * f (x i)).
Proof.
  induction N as [|N IH]; [reflexivity|]. rewrite seq_S, map_app, quad_sum_app, IH. cbn [gsum map quad_sum fold_right fst snd Nat.add]. ring.
Qed.

(** sum of cos((2 i + 1) a) *)
Lemma odd_cos_sum N a : 2 * sin a * rsum N (fun i => cos (INR (2 * i + 1) * a)) = sin (2 * INR N * a).
Proof.
  induction N as [|N IH]; cbn [gsum].
  - cbn [INR]. replace (2 * 0 * a) with 0 by ring. rewrite sin_0. ring.
  - rewrite Rmult_plus_distr_l, IH, S_INR.
    replace (INR (2 * N + 1) * a) with (2 * INR N * a + a) by (rewrite plus_INR, mult_INR; simpl; ring).
    replace (2 * (INR N + 1) * a) with (2 * INR N * a + a + a) by ring.
    replace (2 * INR N * a) with (2 * INR N * a + a - a) at 1 by ring.
    rewrite sin_minus, (sin_plus (2 * INR N * a + a) a). ring.
Qed.
Lemma sin_INR_PI m : sin (INR m * PI) = 0.
Proof.
  induction m as [|m IH]; [cbn [INR]; rewrite Rmult_0_l; apply sin_0|].
  rewrite S_INR, Rmult_plus_distr_r, Rmult_1_l, neg_sin, IH. ring.
Qed.
Lemma odd_cos_zero N m : (0 < m < 2 * N)%nat -> rsum N (fun i => cos (INR (2 * i + 1) * (INR m * PI / (2 * INR N)))) = 0.
Proof.
  intros Hm. assert (HN : 0 < INR N) by (apply lt_0_INR; lia). assert (Hm0 : 0 < INR m) by (apply lt_0_INR; lia).
  assert (Hm1 : INR m < 2 * INR N) by (change 2 with (INR 2); rewrite <- mult_INR; apply lt_INR; lia).
  set (a := INR m * PI / (2 * INR N)). pose proof (odd_cos_sum N a) as E.
  replace (2 * INR N * a) with (INR m * PI) in E by (unfold a; field; lra). rewrite sin_INR_PI in E.
  assert (0 < sin a); [|nra]. pose proof PI_RGT_0 as HP. unfold Rgt in HP. apply sin_gt_0; unfold a.
  - apply Rmult_lt_0_compat; [nra|apply Rinv_0_lt_compat; lra].
  - apply Rmult_lt_reg_r with (2 * INR N); [lra|]. unfold Rdiv. rewrite Rmult_assoc, Rinv_l by lra. nra.
Qed.
Lemma odd_cos_0 N : rsum N (fun i => cos (INR (2 * i + 1) * (INR 0 * PI / (2 * INR N)))) = INR N.
Proof.
  rewrite (gsum_ext_R N _ (fun _ => 1)).
  - induction N as [|N IH]; [reflexivity|]. cbn [gsum]. rewrite IH, S_INR. reflexivity.
  - intros i _. cbn [INR]. replace (INR (2 * i + 1) * (0 * PI / (2 * INR N))) with 0 by (unfold Rdiv; ring). apply cos_0.
Qed.
(** the trapezoidal rule, as a sum over the intervals *)
Lemma trapezoid M f : (1 <= M)%nat ->
  rsum (S M) (fun i => (if Nat.eqb i M then (if Nat.eqb i 0 then 1 / 2 else 1) / 2 else if Nat.eqb i 0 then 1 / 2 else 1) * f i) =
  rsum M (fun i => (f i + f (S i)) / 2).
Proof.
  intros HM. cbn [gsum]. rewrite Nat.eqb_refl. destruct (Nat.eqb_spec M 0); [lia|].
  rewrite (gsum_ext_R M _ (fun i => (if Nat.eqb i 0 then 1 / 2 else 1) * f i)) by (intros i Hi; destruct (Nat.eqb_spec i M); [lia|reflexivity]).
  clear n. destruct M as [|M]; [lia|]. clear HM. induction M as [|M IH].
  - simpl. lra.
  - remember (S M) as K. cbn [gsum]. rewrite <- IH. destruct (Nat.eqb_spec K 0); [lia|]. subst K. field.
Qed.
Lemma GL_cos_sum M m : (1 <= M)%nat -> (m <= 2 * M)%nat ->
  rsum M (fun i => (cos (INR i * (INR m * PI / INR M)) + cos (INR (S i) * (INR m * PI / INR M))) / 2) =
  if Nat.eqb m 0 then INR M else if Nat.eqb m (2 * M) then INR M else 0.
Proof.
  intros HM Hm. assert (HN : 0 < INR M) by (apply lt_0_INR; lia).
  set (a := INR m * PI / (2 * INR M)).
  rewrite (gsum_ext_R M _ (fun i => cos a * cos (INR (2 * i + 1) * a))).
  2:{ intros i _. rewrite cos_prod.
      replace (a + INR (2 * i + 1) * a) with (INR (S i) * (INR m * PI / INR M)) by (unfold a; rewrite plus_INR, mult_INR, S_INR; simpl; field; lra).
      replace (a - INR (2 * i + 1) * a) with (- (INR i * (INR m * PI / INR M))) by (unfold a; rewrite plus_INR, mult_INR; simpl; field; lra).
      rewrite cos_neg. field. }
  rewrite gsum_scal. destruct (Nat.eqb_spec m 0) as [->|].
  - unfold a. rewrite odd_cos_0. cbn [INR]. replace (0 * PI / (2 * INR M)) with 0 by (unfold Rdiv; ring). rewrite cos_0. ring.
  - destruct (Nat.eqb_spec m (2 * M)) as [->|].
    + assert (Ea : a = PI) by (unfold a; rewrite mult_INR; simpl; field; lra).
      rewrite (gsum_ext_R M _ (fun _ => -1)).
      * rewrite Ea, cos_PI. clear. induction M as [|M IH]; [simpl; ring|]. cbn [gsum]. rewrite S_INR. lra.
      * intros i _. rewrite Ea, plus_INR, mult_INR. cbn [INR].
        replace (((1 + 1) * INR i + 1) * PI) with (PI + 2 * INR i * PI) by ring. rewrite cos_period. apply cos_PI.
    + unfold a. rewrite odd_cos_zero by lia. ring.
Qed.

Lemma cos_abs_diff n m t : cos (INR n * t - INR m * t) = cos (INR (n - m + (m - n)) * t).
Proof.
  destruct (Nat.le_ge_cases n m) as [H|H].
  - replace (INR n * t - INR m * t) with (- (INR (n - m + (m - n)) * t)); [apply cos_neg|].
    replace (n - m + (m - n))%nat with (m - n)%nat by lia. rewrite minus_INR by lia. ring.
  - replace (n - m + (m - n))%nat with (n - m)%nat by lia. rewrite minus_INR by lia. f_equal. ring.
Qed.
Lemma TT_cos n m t : peval (chebT n) (cos t) * peval (chebT m) (cos t) =
  / 2 * cos (INR (n + m) * t) + / 2 * cos (INR (n - m + (m - n)) * t).
Proof. rewrite !chebT_cos, cos_prod, cos_abs_diff, (plus_INR n m). rewrite Rmult_plus_distr_r. ring. Qed.

Lemma GC_orthogonal N : crule_orthogonal (cheb_rule LG N) (cheb_norm_sq true LG N) N.
Proof.
  intros n m Hn Hm. assert (HN : 0 < INR N) by (apply lt_0_INR; lia).
  unfold cheb_rule. rewrite quad_sum_seq. cbn [cheb_point cheb_weight].
  rewrite (gsum_ext_R N _ (fun i => PI / INR N / 2 * (cos (INR (2 * i + 1) * (INR (n + m) * PI / (2 * INR N)))
     + cos (INR (2 * i + 1) * (INR (n - m + (m - n)) * PI / (2 * INR N)))))).
  2:{ intros i _. rewrite TT_cos.
      replace (INR (n + m) * (PI * INR (2 * i + 1) / (2 * INR N))) with (INR (2 * i + 1) * (INR (n + m) * PI / (2 * INR N))) by (field; lra).
      replace (INR (n - m + (m - n)) * (PI * INR (2 * i + 1) / (2 * INR N))) with (INR (2 * i + 1) * (INR (n - m + (m - n)) * PI / (2 * INR N))) by (field; lra).
      field. lra. }
  rewrite gsum_scal, gsum_add. unfold cheb_norm_sq, cheb_l2_norm_sq.
  destruct (Nat.eqb_spec n m) as [->|Hd].
  - replace (m - m + (m - m))%nat with 0%nat by lia. rewrite odd_cos_0. destruct (Nat.eqb_spec m 0) as [->|].
    + cbn [Nat.add]. rewrite odd_cos_0. field. lra.
    + rewrite odd_cos_zero by lia. field. lra.
  - rewrite !odd_cos_zero by lia. ring.
Qed.
Lemma GL_orthogonal N : (2 <= N)%nat -> crule_orthogonal (cheb_rule GL N) (cheb_norm_sq true GL N) N.
Proof.
  intros H2 n m Hn Hm. destruct N as [|M]; [lia|]. assert (HM : 0 < INR M) by (apply lt_0_INR; lia).
  unfold cheb_rule. rewrite quad_sum_seq. cbn [cheb_point cheb_weight]. replace (S M - 1)%nat with M by lia.
  set (g := fun i => / 2 * cos (INR i * (INR (n + m) * PI / INR M)) + / 2 * cos (INR i * (INR (n - m + (m - n)) * PI / INR M))).
  rewrite (gsum_ext_R (S M) _ (fun i => PI / INR M *
    ((if Nat.eqb i M then (if Nat.eqb i 0 then 1 / 2 else 1) / 2 else if Nat.eqb i 0 then 1 / 2 else 1) * g i))).
  2:{ intros i _.
      replace (- cos (- PI + INR i * (PI / INR M))) with (cos (INR i * (PI / INR M)))
        by (replace (- PI + INR i * (PI / INR M)) with (- (PI - INR i * (PI / INR M))) by ring; rewrite cos_neg; rewrite Rtrigo_facts.cos_pi_minus; ring).
      rewrite TT_cos. unfold g.
      replace (INR (n + m) * (INR i * (PI / INR M))) with (INR i * (INR (n + m) * PI / INR M)) by (field; lra).
      replace (INR (n - m + (m - n)) * (INR i * (PI / INR M))) with (INR i * (INR (n - m + (m - n)) * PI / INR M)) by (field; lra).
      cbv zeta. destruct (Nat.eqb i M), (Nat.eqb i 0); field; lra. }
  rewrite gsum_scal, trapezoid by lia.
  rewrite (gsum_ext_R M _ (fun i => / 2 * ((cos (INR i * (INR (n + m) * PI / INR M)) + cos (INR (S i) * (INR (n + m) * PI / INR M))) / 2)
     + / 2 * ((cos (INR i * (INR (n - m + (m - n)) * PI / INR M)) + cos (INR (S i) * (INR (n - m + (m - n)) * PI / INR M))) / 2)))
    by (intros i _; unfold g; field).
  rewrite gsum_add, !gsum_scal, !GL_cos_sum by lia. unfold cheb_norm_sq, cheb_l2_norm_sq. replace (S M - 1)%nat with M by lia.
  destruct (Nat.eqb_spec n m) as [->|Hd].
  - replace (m - m + (m - m))%nat with 0%nat by lia. cbn [Nat.eqb].
    destruct (Nat.eqb_spec m 0) as [->|]; [destruct (Nat.eqb_spec 0 M); [lia|]; cbn; field; lra|].
    destruct (Nat.eqb_spec (m + m) 0); [lia|]. destruct (Nat.eqb_spec m M) as [->|].
    + destruct (Nat.eqb_spec (M + M) (2 * M)); [field; lra|lia].
    + destruct (Nat.eqb_spec (m + m) (2 * M)); [lia|]. field. lra.
  - destruct (Nat.eqb_spec (n + m) 0); [lia|]. destruct (Nat.eqb_spec (n + m) (2 * M)); [lia|].
    destruct (Nat.eqb_spec (n - m + (m - n)) 0); [lia|]. destruct (Nat.eqb_spec (n - m + (m - n)) (2 * M)); [lia|]. ring.
Qed.
