(** DLTProofs.v -- Taylor's formula for the cosine, the sums computed by DCT and DST, the loop of DLT. *)
From Coq Require Import Reals ZArith List Arith Bool Lia Lra.
From Verif Require Import Base Fld SparseModel RPoly StencilModel LegMatrixModel ChebMatrixProofs ChebTransModel UTransModel Leg2ChebModel HelmholtzProofs DLTModel DLTSpec.
Import ListNotations.
Local Open Scope R_scope.

(** ** Taylor *)
Definition tay (m : nat) (a h : R) : R := h ^ m / INR (fact m) * cos (a + INR m * (PI / 2)).
Definition trem (n : nat) (a h : R) : R := cos (a + h) - rsum (n + 1) (fun m => tay m a h).
Lemma fact_pos n : 0 < INR (fact n). Proof. apply lt_0_INR. apply lt_O_fact. Qed.
Lemma tay_opp m a h : tay m a (- h) = tay m (- a) h.
Proof.
  unfold tay.
  assert (E : forall m, (-1) ^ m * cos (a + INR m * (PI / 2)) = cos (- a + INR m * (PI / 2)) /\ (-1) ^ m * sin (a + INR m * (PI / 2)) = - sin (- a + INR m * (PI / 2))).
  { induction m0 as [|m0 (IH1 & IH2)].
    - cbn [pow INR]. rewrite !Rmult_0_l, !Rplus_0_r, !Rmult_1_l, cos_neg, sin_neg. split; ring.
    - rewrite S_INR. replace (a + (INR m0 + 1) * (PI / 2)) with (PI / 2 + (a + INR m0 * (PI / 2))) by ring.
      replace (- a + (INR m0 + 1) * (PI / 2)) with (PI / 2 + (- a + INR m0 * (PI / 2))) by ring.
      rewrite (cos_plus (PI / 2) (a + _)), (cos_plus (PI / 2) (- a + _)), (sin_plus (PI / 2) (a + _)), (sin_plus (PI / 2) (- a + _)), cos_PI2, sin_PI2. cbn [pow].
      split; [transitivity ((-1) ^ m0 * sin (a + INR m0 * (PI / 2))); [ring|rewrite IH2; ring]|transitivity (- ((-1) ^ m0 * cos (a + INR m0 * (PI / 2)))); [ring|rewrite IH1; ring]]. }
  destruct (E m) as (E1 & _). replace (- h) with ((-1) * h) by ring. rewrite Rpow_mult_distr. rewrite <- E1. field. apply not_eq_sym, Rlt_not_eq, fact_pos.
Qed.
Lemma trem_opp n a h : trem n a (- h) = trem n (- a) h.
Proof.
  unfold trem. f_equal.
  - rewrite <- (cos_neg (a + - h)). f_equal. ring.
  - apply rsum_ext. intros m _. apply tay_opp.
Qed.
Lemma derivable_tay_S m a h : derivable_pt_lim (tay (S m) a) h (tay m (a + PI / 2) h).
Proof.
  unfold tay. pose proof (fact_pos m) as F. pose proof (pos_INR m) as P.
  replace (h ^ m / INR (fact m) * cos (a + PI / 2 + INR m * (PI / 2))) with ((INR (S m) * h ^ m) * (/ INR (fact (S m)) * cos (a + INR (S m) * (PI / 2)))).
  - apply derivable_pt_lim_ext with (f := fun h => h ^ S m * (/ INR (fact (S m)) * cos (a + INR (S m) * (PI / 2)))).
    { intros z. unfold Rdiv. ring. }
    replace (INR (S m) * h ^ m * (/ INR (fact (S m)) * cos (a + INR (S m) * (PI / 2)))) with
      (INR (S m) * h ^ m * (/ INR (fact (S m)) * cos (a + INR (S m) * (PI / 2))) + h ^ S m * 0) by ring.
    apply (derivable_pt_lim_mult (fun h => h ^ S m) (fct_cte (/ INR (fact (S m)) * cos (a + INR (S m) * (PI / 2))))).
    + apply (derivable_pt_lim_pow h (S m)).
    + apply derivable_pt_lim_const.
  - replace (a + PI / 2 + INR m * (PI / 2)) with (a + INR (S m) * (PI / 2)) by (rewrite S_INR; ring).
    rewrite fact_simpl, mult_INR. rewrite S_INR. field. lra.
Qed.
Lemma derivable_sum n (f : nat -> R -> R) (d : nat -> R) x : (forall i, (i < n)%nat -> derivable_pt_lim (f i) x (d i)) ->
  derivable_pt_lim (fun z => rsum n (fun i => f i z)) x (rsum n d).
Proof.
  induction n as [|n IH]; intros H; cbn [gsum].
  - apply derivable_pt_lim_const.
  - apply (derivable_pt_lim_plus (fun z => rsum n (fun i => f i z)) (f n)); [apply IH; auto|apply H; lia].
Qed.
Lemma rsum_first' n f : rsum (S n) f = f 0%nat + rsum n (fun i => f (S i)).
Proof. induction n as [|n IH]; [cbn; ring|]. cbn [gsum] in *. rewrite IH. ring. Qed.
Lemma derivable_trem n a h : derivable_pt_lim (trem (S n) a) h (trem n (a + PI / 2) h).
Proof.
  unfold trem.
  replace (cos (a + PI / 2 + h)) with (- sin (a + h)) by (replace (a + PI / 2 + h) with (PI / 2 + (a + h)) by ring; rewrite (cos_plus (PI / 2) (a + h)), cos_PI2, sin_PI2; ring).
  apply derivable_pt_lim_minus with (f1 := fun h => cos (a + h)).
  - replace (- sin (a + h)) with (- sin (a + h) * (0 + 1)) by ring.
    apply (derivable_pt_lim_comp (fun h => a + h) cos).
    + apply (derivable_pt_lim_plus (fct_cte a) id); [apply derivable_pt_lim_const|apply derivable_pt_lim_id].
    + apply derivable_pt_lim_cos.
  - apply derivable_pt_lim_ext with (f := fun h => tay 0 a h + rsum (n + 1) (fun m => tay (S m) a h)).
    { intros z. replace (S n + 1)%nat with (S (n + 1)) by lia. rewrite rsum_first'. reflexivity. }
    rewrite <- (Rplus_0_l (rsum (n + 1) _)).
    apply (derivable_pt_lim_plus (tay 0 a) (fun h => rsum (n + 1) (fun m => tay (S m) a h))).
    + unfold tay. cbn [pow]. apply derivable_pt_lim_const.
    + apply derivable_sum. intros m _. apply derivable_tay_S.
Qed.
Lemma trem_0 n a : trem n a 0 = 0.
Proof.
  unfold trem. replace (n + 1)%nat with (S n) by lia. rewrite rsum_first'. rewrite rsum_zero.
  - unfold tay. cbn [pow fact INR]. replace (a + 0) with a by ring. replace (a + 0 * (PI / 2)) with a by ring. field.
  - intros i _. unfold tay. cbn [pow]. unfold Rdiv. ring.
Qed.
(** a function with non-negative derivative *)
Lemma mvt_le (f f' : R -> R) h : 0 <= h -> (forall t, derivable_pt_lim f t (f' t)) -> (forall t, 0 <= t <= h -> 0 <= f' t) -> f 0 <= f h.
Proof.
  intros Hh D P. destruct (Req_dec h 0) as [->|Hn]; [lra|].
  destruct (MVT_cor2 f f' 0 h ltac:(lra) (fun c _ => D c)) as (c & E & Hc).
  pose proof (Rmult_le_pos (f' c) (h - 0) (P c ltac:(lra)) ltac:(lra)). lra.
Qed.
Lemma derivable_rem n h : derivable_pt_lim (fun h => h ^ (S n + 1) / INR (fact (S n + 1))) h (h ^ (n + 1) / INR (fact (n + 1))).
Proof.
  replace (S n + 1)%nat with (S (n + 1)) by lia. pose proof (fact_pos (n + 1)) as F. pose proof (pos_INR (n + 1)) as P.
  apply derivable_pt_lim_ext with (f := fun h => / INR (fact (S (n + 1))) * h ^ S (n + 1)); [intros z; unfold Rdiv; ring|].
  replace (h ^ (n + 1) / INR (fact (n + 1))) with (/ INR (fact (S (n + 1))) * (INR (S (n + 1)) * h ^ (n + 1))).
  - apply (derivable_pt_lim_scal (fun h => h ^ S (n + 1))). apply (derivable_pt_lim_pow h (S (n + 1))).
  - rewrite fact_simpl, mult_INR, S_INR. field. lra.
Qed.
Lemma trem_pos n : forall a h, 0 <= h -> - (h ^ (n + 1) / INR (fact (n + 1))) <= trem n a h <= h ^ (n + 1) / INR (fact (n + 1)).
Proof.
  induction n as [|n IH]; intros a h Hh.
  - (* cos(a+h) - cos a *)
    assert (D : forall t, derivable_pt_lim (trem 0 a) t (- sin (a + t))).
    { intros t. unfold trem. rewrite <- (Rminus_0_r (- sin (a + t))). apply derivable_pt_lim_minus with (f1 := fun h => cos (a + h)).
      - replace (- sin (a + t)) with (- sin (a + t) * (0 + 1)) by ring. apply (derivable_pt_lim_comp (fun h => a + h) cos).
        + apply (derivable_pt_lim_plus (fct_cte a) id); [apply derivable_pt_lim_const|apply derivable_pt_lim_id].
        + apply derivable_pt_lim_cos.
      - apply derivable_pt_lim_ext with (f := fct_cte (cos a)); [|apply derivable_pt_lim_const].
        intros z. unfold fct_cte, tay. cbn [Nat.add gsum pow fact INR]. replace (a + 0 * (PI / 2)) with a by ring. field. }
    cbn [Nat.add fact Nat.mul pow INR]. replace (h * 1 / 1) with h by field.
    pose proof (mvt_le (fun t => t - trem 0 a t) (fun t => 1 - - sin (a + t)) h Hh) as U. pose proof (mvt_le (fun t => t + trem 0 a t) (fun t => 1 + - sin (a + t)) h Hh) as L.
    cbv beta in U, L; rewrite trem_0 in U, L. split.
    + enough (0 <= h + trem 0 a h) by lra. enough (0 + 0 <= h + trem 0 a h) by lra. apply L.
      * intros t. apply (derivable_pt_lim_plus id (trem 0 a)); [apply derivable_pt_lim_id|apply D].
      * intros t _. pose proof (SIN_bound (a + t)). lra.
    + enough (0 - 0 <= h - trem 0 a h) by lra. apply U.
      * intros t. apply (derivable_pt_lim_minus id (trem 0 a)); [apply derivable_pt_lim_id|apply D].
      * intros t _. pose proof (SIN_bound (a + t)). lra.
  - set (R0 := fun t : R => t ^ (S n + 1) / INR (fact (S n + 1))). set (R1 := fun t : R => t ^ (n + 1) / INR (fact (n + 1))).
    assert (DR : forall t, derivable_pt_lim R0 t (R1 t)) by (intros t; apply derivable_rem).
    assert (Z : R0 0 = 0) by (unfold R0; replace (S n + 1)%nat with (S (n + 1)) by lia; cbn [pow]; unfold Rdiv; ring).
    pose proof (mvt_le (fun t => R0 t - trem (S n) a t) (fun t => R1 t - trem n (a + PI / 2) t) h Hh) as U.
    pose proof (mvt_le (fun t => R0 t + trem (S n) a t) (fun t => R1 t + trem n (a + PI / 2) t) h Hh) as L.
    cbv beta in U, L; rewrite trem_0, Z in U, L. fold (R0 h). split.
    + enough (0 + 0 <= R0 h + trem (S n) a h) by lra. apply L.
      * intros t. apply (derivable_pt_lim_plus R0 (trem (S n) a)); [apply DR|apply derivable_trem].
      * intros t Ht. pose proof (IH (a + PI / 2) t ltac:(lra)). unfold R1. lra.
    + enough (0 - 0 <= R0 h - trem (S n) a h) by lra. apply U.
      * intros t. apply (derivable_pt_lim_minus R0 (trem (S n) a)); [apply DR|apply derivable_trem].
      * intros t Ht. pose proof (IH (a + PI / 2) t ltac:(lra)). unfold R1. lra.
Qed.
Lemma trem_bound n a h : Rabs (trem n a h) <= remainder n (Rabs h).
Proof.
  unfold remainder. destruct (Rle_or_lt 0 h) as [H|H].
  - rewrite (Rabs_right h) by lra. apply Rabs_le. apply trem_pos. exact H.
  - rewrite (Rabs_left h) by lra. replace h with (- - h) at 1 by ring. rewrite trem_opp. apply Rabs_le. apply trem_pos. lra.
Qed.
(** the signs of the loop *)
Lemma quarter_turns n : cos (INR n * (PI / 2)) = (if (n mod 2 =? 0)%nat then if ((n + 1) / 2 mod 2 =? 0)%nat then 1 else -1 else 0) /\
  sin (INR n * (PI / 2)) = (if (n mod 2 =? 0)%nat then 0 else if ((n + 1) / 2 mod 2 =? 0)%nat then -1 else 1).
Proof.
  assert (Q : forall q r, (r < 4)%nat -> cos (INR (4 * q + r) * (PI / 2)) = cos (INR r * (PI / 2)) /\ sin (INR (4 * q + r) * (PI / 2)) = sin (INR r * (PI / 2))).
  { intros q r _. rewrite plus_INR, mult_INR. change (INR 4) with (((1+1)+1)+1). replace ((((1+1)+1)+1) * INR q + INR r) with (INR r + 4 * INR q) by ring.
    replace ((INR r + 4 * INR q) * (PI / 2)) with (INR r * (PI / 2) + 2 * INR q * PI) by field. rewrite cos_period, sin_period. split; reflexivity. }
  pose proof (Nat.div_mod n 4 ltac:(lia)) as E. pose proof (Nat.mod_upper_bound n 4 ltac:(lia)) as B. set (q := (n / 4)%nat) in *. set (r := (n mod 4)%nat) in *. clearbody q r.
  destruct (Q q r B) as (Q1 & Q2). rewrite E, Q1, Q2. clear Q1 Q2 Q E n.
  assert (M : ((4 * q + r) mod 2 = r mod 2)%nat).
  { replace (4 * q + r)%nat with (r + (2 * q) * 2)%nat by lia. apply Nat.mod_add. lia. }
  assert (M2 : (((4 * q + r + 1) / 2) mod 2 = ((r + 1) / 2) mod 2)%nat).
  { replace (4 * q + r + 1)%nat with ((r + 1) + (2 * q) * 2)%nat by lia. rewrite Nat.div_add by lia. replace ((r + 1) / 2 + 2 * q)%nat with ((r + 1) / 2 + q * 2)%nat by lia. apply Nat.mod_add. lia. }
  rewrite M, M2. destruct r as [|[|[|[|r]]]]; [| | | |lia]; cbn [Nat.modulo Nat.divmod fst snd Nat.sub Nat.eqb Nat.div Nat.add INR].
  - rewrite Rmult_0_l, cos_0, sin_0. split; reflexivity.
  - rewrite Rmult_1_l, cos_PI2, sin_PI2. split; reflexivity.
  - replace ((1 + 1) * (PI / 2)) with PI by field. rewrite cos_PI, sin_PI. split; reflexivity.
  - replace ((1 + 1 + 1) * (PI / 2)) with (3 * (PI / 2)) by field. rewrite cos_3PI2, sin_3PI2. split; reflexivity.
Qed.
Lemma loop_sign n a : cos (a + INR n * (PI / 2)) = (if ((n + 1) / 2 mod 2 =? 0)%nat then 1 else -1) * (if (n mod 2 =? 0)%nat then cos a else sin a).
Proof.
  rewrite cos_plus. destruct (quarter_turns n) as (-> & ->). destruct (n mod 2 =? 0)%nat; destruct ((n + 1) / 2 mod 2 =? 0)%nat; ring.
Qed.

(** ** DCT and DST *)
Lemma angle_form N i k : (1 <= N)%nat -> PI * INR k * (INR i + 1 / 2) / INR N = INR k * cheb_angle N i.
Proof.
  intros HN. unfold cheb_angle. pose proof (lt_0_INR N ltac:(lia)). rewrite plus_INR, mult_INR. change (INR 2) with 2. change (INR 1) with 1. field. lra.
Qed.
Lemma DCT3_sum N x i : (1 <= N)%nat -> DCT 3 N x i = rsum N (fun p => x p * cos (INR p * cheb_angle N i)).
Proof.
  intros HN. unfold DCT, dct3. cbn [Nat.eqb]. destruct N as [|M]; [lia|]. rewrite rsum_first'. rewrite Nat.sub_succ, Nat.sub_0_r.
  rewrite (rsum_ext M (fun j => x (S j) * cos (PI * INR (S j) * (INR i + 1 / 2) / INR (S M))) (fun j => x (S j) * cos (INR (S j) * cheb_angle (S M) i))).
  - change (INR 0) with 0. rewrite Rmult_0_l, cos_0. field.
  - intros j _. rewrite angle_form by lia. reflexivity.
Qed.
Lemma DST3_sum N x i : (1 <= N)%nat -> DST 3 N x i = rsum N (fun p => x p * sin (INR p * cheb_angle N i)).
Proof.
  intros HN. unfold DST, dst3. cbn [Nat.eqb]. destruct N as [|M]; [lia|]. rewrite rsum_first', Nat.sub_succ, Nat.sub_0_r, Nat.eqb_refl.
  rewrite (rsum_ext M (fun j => (if (j =? M)%nat then 0 else x (S j)) * sin (PI * (INR j + 1) * (INR i + 1 / 2) / INR (S M))) (fun j => x (S j) * sin (INR (S j) * cheb_angle (S M) i))).
  - change (INR 0) with 0. rewrite Rmult_0_l, sin_0. field.
  - intros j Hj. destruct (Nat.eqb_spec j M); [lia|]. rewrite <- S_INR, angle_form by lia. reflexivity.
Qed.
Lemma DCT2_sum N x i : (1 <= N)%nat -> DCT 2 N x i = rsum N (fun p => x p * cos (INR i * cheb_angle N p)).
Proof.
  intros HN. unfold DCT, dct2. cbn [Nat.eqb].
  rewrite (rsum_ext N (fun j => x j * cos (PI * (INR j + 1 / 2) * INR i / INR N)) (fun p => x p * cos (INR i * cheb_angle N p))); [field|].
  intros p _. rewrite <- angle_form by lia. f_equal. f_equal. unfold Rdiv. ring.
Qed.
Lemma DST2_sum N x i : (1 <= N)%nat -> DST 2 N x i = rsum N (fun p => x p * sin (INR i * cheb_angle N p)).
Proof.
  intros HN. unfold DST. cbn [Nat.eqb]. destruct i as [|i].
  - rewrite rsum_zero; [field|]. intros p _. change (INR 0) with 0. rewrite Rmult_0_l, sin_0. ring.
  - unfold dst2. rewrite (rsum_ext N (fun j => x j * sin (PI * (INR j + 1 / 2) * (INR i + 1) / INR N)) (fun p => x p * sin (INR (S i) * cheb_angle N p))); [field|].
    intros p _. rewrite <- angle_form by lia. rewrite <- S_INR. f_equal. f_equal. unfold Rdiv. ring.
Qed.

(** ** the loop *)
(** angle and step of entry i of the output for entry p of the input *)
Definition d_ang (k : dlt_kind) (N i p : nat) : R := if is_backward k then INR p * cheb_angle N i else INR i * cheb_angle N p.
Definition d_step (k : dlt_kind) (dt : nat -> R) (i p : nat) : R := if is_backward k then INR p * dt i else INR i * dt p.
Definition d_term (k : dlt_kind) (N : nat) (dt : nat -> R) (x : nat -> R) (m i : nat) : R := rsum N (fun p => x p * tay m (d_ang k N i p) (d_step k dt i p)).
Lemma DCT_kind k N x i : (1 <= N)%nat -> DCT (dlt_type k) N x i = rsum N (fun p => x p * cos (d_ang k N i p)).
Proof. intros HN. destruct k; unfold dlt_type, d_ang, is_backward; [apply DCT2_sum|apply DCT2_sum|apply DCT3_sum]; exact HN. Qed.
Lemma DST_kind k N x i : (1 <= N)%nat -> DST (dlt_type k) N x i = rsum N (fun p => x p * sin (d_ang k N i p)).
Proof. intros HN. destruct k; unfold dlt_type, d_ang, is_backward; [apply DST2_sum|apply DST2_sum|apply DST3_sum]; exact HN. Qed.
Lemma first_term k N dt x i : (1 <= N)%nat -> DCT (dlt_type k) N x i = d_term k N dt x 0 i.
Proof.
  intros HN. rewrite DCT_kind by exact HN. apply rsum_ext. intros p _. unfold tay. cbn [pow fact INR]. rewrite Rmult_0_l, Rplus_0_r. field.
Qed.
Definition x_at (k : dlt_kind) (dt : nat -> R) (x0 : nat -> nat -> R) (n : nat) (l i : nat) : R := x0 l i * (if is_backward k then INR i else dt i) ^ n.
Definition y_at (k : dlt_kind) (dt : nat -> R) (n i : nat) : R := (if is_backward k then dt i else INR i) ^ n.
Lemma pass_term k N dt x0 n (x : nat -> R) y nfac l i : (1 <= N)%nat -> (forall p, x p = x_at k dt x0 n l p) -> y = y_at k dt n i -> nfac = INR (fact n) ->
  (if ((n + 1) / 2 mod 2 =? 0)%nat then 1 else -1) / nfac * y * (if (n mod 2 =? 0)%nat then DCT (dlt_type k) N x else DST (dlt_type k) N x) i = d_term k N dt (x0 l) n i.
Proof.
  intros HN Hx -> ->. unfold d_term.
  transitivity (rsum N (fun p => (if ((n + 1) / 2 mod 2 =? 0)%nat then 1 else -1) / INR (fact n) * y_at k dt n i * (x p * (if (n mod 2 =? 0)%nat then cos (d_ang k N i p) else sin (d_ang k N i p))))).
  - rewrite rsum_scal. f_equal. destruct (n mod 2 =? 0)%nat; [apply DCT_kind|apply DST_kind]; exact HN.
  - apply rsum_ext. intros p _. rewrite Hx. unfold tay. rewrite loop_sign. unfold x_at, y_at, d_step.
    destruct (is_backward k); rewrite Rpow_mult_distr; field; apply not_eq_sym, Rlt_not_eq, fact_pos.
Qed.
Lemma norm_ext lines N a b : (forall l i, a l i = b l i) -> array_norm lines N a = array_norm lines N b.
Proof. intros H. unfold array_norm. f_equal. apply rsum_ext. intros l _. apply rsum_ext. intros i _. rewrite H. reflexivity. Qed.
Lemma loop_result tol k lines N dt x0 : (1 <= N)%nat -> forall fuel n nfac x y fk,
  nfac = INR (fact (n - 1)) -> (1 <= n)%nat -> (forall l i, x l i = x_at k dt x0 (n - 1) l i) -> (forall i, y i = y_at k dt (n - 1) i) ->
  (forall l i, fk l i = rsum n (fun m => d_term k N dt (x0 l) m i)) ->
  (forall m out, dlt_loop fuel tol k lines N dt n nfac x y fk = Some (m, out) ->
     (n <= m)%nat /\ array_norm lines N (fun l i => d_term k N dt (x0 l) m i) < tol /\ (forall l i, out l i = rsum (m + 1) (fun q => d_term k N dt (x0 l) q i))) /\
  (forall m, (n <= m)%nat -> array_norm lines N (fun l i => d_term k N dt (x0 l) m i) < tol -> (m < n + fuel)%nat ->
     exists m' out, dlt_loop fuel tol k lines N dt n nfac x y fk = Some (m', out) /\ (m' <= m)%nat).
Proof.
  intros HN. induction fuel as [|fuel IH]; intros n nfac x y fk Hf Hn Hx Hy Hk.
  - split; [intros m out E; discriminate E|intros; lia].
  - cbn [dlt_loop].
    set (nfac1 := nfac * INR n). set (x1 := if is_backward k then (fun l i => x l i * INR i) else (fun l i => x l i * dt i)).
    set (y1 := if is_backward k then (fun i => y i * dt i) else (fun i => y i * INR i)).
    set (df := fun l i => (if ((n + 1) / 2 mod 2 =? 0)%nat then 1 else -1) / nfac1 * y1 i * (if (n mod 2 =? 0)%nat then DCT (dlt_type k) N (x1 l) else DST (dlt_type k) N (x1 l)) i).
    assert (Hf1 : nfac1 = INR (fact n)).
    { unfold nfac1. rewrite Hf. destruct n as [|n']; [lia|]. rewrite Nat.sub_succ, Nat.sub_0_r, fact_simpl, mult_INR. ring. }
    assert (Hx1 : forall l i, x1 l i = x_at k dt x0 n l i).
    { intros l i. unfold x1, x_at. destruct n as [|n']; [lia|]. rewrite Nat.sub_succ, Nat.sub_0_r in Hx. unfold x_at in Hx. cbn [pow]. destruct (is_backward k); rewrite Hx; ring. }
    assert (Hy1 : forall i, y1 i = y_at k dt n i).
    { intros i. unfold y1, y_at. destruct n as [|n']; [lia|]. rewrite Nat.sub_succ, Nat.sub_0_r in Hy. unfold y_at in Hy. cbn [pow]. destruct (is_backward k); rewrite Hy; ring. }
    assert (Hdf : forall l i, df l i = d_term k N dt (x0 l) n i).
    { intros l i. unfold df. apply pass_term; auto. }
    assert (Hk1 : forall l i, fk l i + df l i = rsum (n + 1) (fun m => d_term k N dt (x0 l) m i)).
    { intros l i. rewrite Hk, Hdf. replace (n + 1)%nat with (S n) by lia. reflexivity. }
    rewrite (norm_ext lines N df (fun l i => d_term k N dt (x0 l) n i) Hdf).
    specialize (IH (n + 1)%nat nfac1 x1 y1 (fun l i => fk l i + df l i)). replace (n + 1 - 1)%nat with n in IH by lia.
    specialize (IH Hf1 ltac:(lia) Hx1 Hy1 Hk1). destruct IH as (IH1 & IH2).
    destruct (Rlt_dec _ tol) as [Hlt|Hge].
    + split.
      * intros m out E. injection E as <- <-. split; [lia|]. split; [exact Hlt|exact Hk1].
      * intros m Hm _ _. exists n. eexists. split; [reflexivity|lia].
    + split.
      * intros m out E. destruct (IH1 m out E) as (A & B & C). split; [lia|]. split; assumption.
      * intros m Hm Hnorm Hfu. destruct (Nat.eq_dec m n) as [->|Hne]; [contradiction|]. apply IH2; [lia|exact Hnorm|lia].
Qed.
