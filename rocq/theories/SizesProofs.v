(** SizesProofs.v -- rounding lemmas for the sizes *)
From Coq Require Import ZArith Reals Lia Lra Bool.
From Flocq Require Import Core.Core IEEE754.BinarySingleNaN.
From Flocq Require Import Relative.
From Verif Require Import SizesModel.
Local Open Scope R_scope.

Definition fl (x : R) : R := round radix2 (SpecFloat.fexp 53 1024) (round_mode mode_NE) x.
Lemma fexp_valid : Valid_exp (SpecFloat.fexp 53 1024).
Proof. apply fexp_correct. exact Hprec. Qed.
Lemma fmt_int z : (Z.abs z < 2 ^ 53)%Z -> generic_format radix2 (SpecFloat.fexp 53 1024) (IZR z).
Proof.
  intros H. apply (generic_format_FLT radix2 (-1074) 53). apply (FLT_spec _ _ _ _ (Float radix2 z 0)).
  - unfold F2R. cbn. lra.
  - exact H.
  - cbn. lia.
Qed.
Lemma fmt_dyadic a k : (Z.abs a < 2 ^ 53)%Z -> (0 <= k <= 1000)%Z -> generic_format radix2 (SpecFloat.fexp 53 1024) (IZR a * bpow radix2 (- k)).
Proof.
  intros H Hk. apply (generic_format_FLT radix2 (-1074) 53). apply (FLT_spec _ _ _ _ (Float radix2 a (- k))).
  - reflexivity.
  - exact H.
  - cbn. lia.
Qed.
Lemma fl_id x : generic_format radix2 (SpecFloat.fexp 53 1024) x -> fl x = x.
Proof. intros H. apply round_generic; [apply valid_rnd_round_mode|exact H]. Qed.
Lemma fl_mono x y : x <= y -> fl x <= fl y.
Proof. intros H. apply round_le; [apply fexp_valid|apply valid_rnd_round_mode|exact H]. Qed.
Lemma fl_ge x y : generic_format radix2 (SpecFloat.fexp 53 1024) y -> y <= x -> y <= fl x.
Proof. intros H1 H2. rewrite <- (fl_id y H1). apply fl_mono, H2. Qed.
Lemma fl_le x y : generic_format radix2 (SpecFloat.fexp 53 1024) y -> x <= y -> fl x <= y.
Proof. intros H1 H2. rewrite <- (fl_id y H1). apply fl_mono, H2. Qed.
Definition eps : R := / 2 * bpow radix2 (-52).
Lemma fl_rel x : bpow radix2 (-1022) <= Rabs x -> Rabs (fl x - x) <= eps * Rabs x.
Proof. intros H. exact (relative_error_N_FLT radix2 (-1074) 53 Hprec (fun z => negb (Z.even z)) x H). Qed.
Lemma big_lt x : Rabs x <= bpow radix2 100 -> Rabs (fl x) < bpow radix2 1024.
Proof.
  intros H. apply Rle_lt_trans with (bpow radix2 100); [|apply bpow_lt; lia].
  apply Rabs_le. apply Rabs_le_inv in H.
  assert (generic_format radix2 (SpecFloat.fexp 53 1024) (bpow radix2 100)) as F by (apply (@generic_format_FLT_bpow radix2 (-1074) 53 Hprec); lia).
  split; [|apply fl_le; [exact F|apply H]]. apply fl_ge; [apply generic_format_opp, F|apply H].
Qed.
Definition val (x : b64) (r : R) : Prop := B2R x = r /\ is_finite x = true.
Lemma of_int_val z : (Z.abs z < 2 ^ 53)%Z -> val (of_int z) (IZR z).
Proof.
  intros H. pose proof (binary_normalize_correct 53 1024 Hprec Hmax mode_NE z 0 false) as C. cbv zeta in C.
  assert (F2R (Float radix2 z 0) = IZR z) as E by (unfold F2R; cbn; ring). rewrite E in C.
  change (round radix2 (SpecFloat.fexp 53 1024) (round_mode mode_NE) (IZR z)) with (fl (IZR z)) in C. rewrite (fl_id _ (fmt_int z H)) in C.
  rewrite Rlt_bool_true in C.
  - split; apply C.
  - rewrite <- abs_IZR. apply Rlt_trans with (IZR (2 ^ 53)); [apply IZR_lt, H|]. change (2 ^ 53)%Z with (Zpower radix2 53). rewrite IZR_Zpower by lia. apply bpow_lt. lia.
Qed.
Lemma mul_val x y a b : val x a -> val y b -> Rabs (a * b) <= bpow radix2 100 -> val (mul x y) (fl (a * b)).
Proof.
  intros [Ha Fa] [Hb Fb] H. pose proof (Bmult_correct 53 1024 Hprec Hmax mode_NE x y) as C. rewrite Ha, Hb in C. fold (fl (a * b)) in C.
  rewrite (Rlt_bool_true _ _ (big_lt _ H)) in C. destruct C as [C1 [C2 _]]. split; [exact C1|]. unfold mul. rewrite C2, Fa, Fb. reflexivity.
Qed.
Lemma div_val x y a b : val x a -> val y b -> b <> 0 -> Rabs (a / b) <= bpow radix2 100 -> val (div x y) (fl (a / b)).
Proof.
  intros [Ha Fa] [Hb Fb] Hn H. pose proof (Bdiv_correct 53 1024 Hprec Hmax mode_NE x y) as C. rewrite Ha, Hb in C. specialize (C Hn). fold (fl (a / b)) in C.
  rewrite (Rlt_bool_true _ _ (big_lt _ H)) in C. destruct C as [C1 [C2 _]]. split; [exact C1|]. unfold div. rewrite C2. exact Fa.
Qed.
Lemma round_FIX0 rnd x : round radix2 (FIX_exp 0) rnd x = IZR (rnd x).
Proof. unfold round, scaled_mantissa, cexp, FIX_exp, F2R. cbn. rewrite !Rmult_1_r. reflexivity. Qed.
Lemma pyint_val x a : val x a -> pyint x = Ztrunc a.
Proof. intros [Ha _]. apply eq_IZR. unfold pyint. rewrite (Btrunc_correct 53 1024 Hmax), round_FIX0, Ha. reflexivity. Qed.
Lemma npfloor_val x a : val x a -> val (npfloor x) (IZR (Zfloor a)).
Proof. intros [Ha Fa]. destruct (Bnearbyint_correct 53 1024 Hmax mode_DN x) as [C1 [C2 _]]. rewrite round_FIX0, Ha in C1. split; [exact C1|]. unfold npfloor. rewrite C2. exact Fa. Qed.
Lemma npround_val x a : val x a -> val (npround x) (IZR (ZnearestE a)).
Proof. intros [Ha Fa]. destruct (Bnearbyint_correct 53 1024 Hmax mode_NE x) as [C1 [C2 _]]. rewrite round_FIX0, Ha in C1. split; [exact C1|]. unfold npround. rewrite C2. exact Fa. Qed.
Lemma is_one_val x a : val x a -> (is_one x = true <-> a = 1).
Proof.
  intros [Ha Fa]. destruct (of_int_val 1 eq_refl) as [O1 O2]. unfold is_one. rewrite Bcompare_correct by assumption. rewrite Ha, O1.
  destruct (Rcompare_spec a 1); split; intros; try discriminate; try lra; reflexivity.
Qed.
Lemma two_pow_100 : bpow radix2 100 = IZR (2 ^ 100).
Proof. change (2 ^ 100)%Z with (Zpower radix2 100). rewrite IZR_Zpower by lia. reflexivity. Qed.
Lemma small_100 x : Rabs x <= IZR (2 ^ 100) -> Rabs x <= bpow radix2 100.
Proof. rewrite two_pow_100. auto. Qed.

(** ** M/N and back *)
Section Ratio.
Variables N M : Z.
Hypothesis HN : (1 <= N < 2 ^ 50)%Z.
Hypothesis HM : (1 <= M < 2 ^ 50)%Z.
Let q := fl (IZR M / IZR N).
Lemma eps_val : eps * IZR (2 ^ 53) = 1.
Proof. unfold eps. change (2 ^ 53)%Z with (Zpower radix2 53). rewrite IZR_Zpower by lia. rewrite Rmult_assoc, <- bpow_plus. change (-52 + 53)%Z with 1%Z. cbn. lra. Qed.
Lemma eps_pos : 0 < eps.
Proof. unfold eps. pose proof (bpow_gt_0 radix2 (-52)). lra. Qed.
Lemma NR : 1 <= IZR N < IZR (2 ^ 50).
Proof. split; [apply IZR_le; lia|apply IZR_lt; lia]. Qed.
Lemma MR : 1 <= IZR M < IZR (2 ^ 50).
Proof. split; [apply IZR_le; lia|apply IZR_lt; lia]. Qed.
Lemma q_small : bpow radix2 (-1022) <= Rabs (IZR M / IZR N).
Proof.
  pose proof NR. pose proof MR. rewrite Rabs_pos_eq by (apply Rlt_le, Rdiv_lt_0_compat; lra).
  apply Rle_trans with (bpow radix2 (-50)); [apply bpow_le; lia|]. change (bpow radix2 (-50)) with (/ IZR (2 ^ 50)).
  apply Rle_trans with (/ IZR N); [apply Rinv_le; lra|]. unfold Rdiv. pose proof (Rinv_0_lt_compat (IZR N) ltac:(lra)). nra.
Qed.
Lemma q_err : Rabs (q * IZR N - IZR M) <= eps * IZR M.
Proof.
  pose proof NR. pose proof MR. pose proof (fl_rel _ q_small) as E. fold q in E.
  rewrite (Rabs_pos_eq (IZR M / IZR N)) in E by (apply Rlt_le, Rdiv_lt_0_compat; lra).
  replace (q * IZR N - IZR M) with ((q - IZR M / IZR N) * IZR N) by (field; lra). rewrite Rabs_mult, (Rabs_pos_eq (IZR N)) by lra.
  replace (eps * IZR M) with (eps * (IZR M / IZR N) * IZR N) by (field; lra). apply Rmult_le_compat_r; lra.
Qed.
Lemma epsM : eps * IZR M <= / 8.
Proof.
  pose proof MR as [_ H]. pose proof eps_pos. apply Rle_trans with (eps * IZR (2 ^ 50)); [apply Rmult_le_compat_l; lra|].
  replace (IZR (2 ^ 50)) with (IZR (2 ^ 53) / 8) by (change (2 ^ 53)%Z with (2 ^ 50 * 8)%Z; rewrite mult_IZR; field). pose proof eps_val. nra.
Qed.
Lemma q_pos : 0 < q.
Proof. pose proof q_err as E. pose proof epsM. pose proof NR. pose proof MR. apply Rabs_le_inv in E. nra. Qed.
Lemma q_le : q <= IZR M + / 8.
Proof. pose proof q_err as E. pose proof epsM. pose proof NR. pose proof MR. pose proof q_pos. apply Rabs_le_inv in E. nra. Qed.
Lemma fmt_half z : (0 <= z < 2 ^ 50)%Z -> generic_format radix2 (SpecFloat.fexp 53 1024) (IZR z + / 2).
Proof.
  intros H. replace (IZR z + / 2) with (IZR (2 * z + 1) * bpow radix2 (- 1)) by (rewrite plus_IZR, mult_IZR; cbn; lra). apply (fmt_dyadic (2 * z + 1) 1); lia.
Qed.
Lemma back_bounds : IZR M - 1 <= fl (q * IZR N) <= IZR M + / 2.
Proof.
  pose proof q_err as E. pose proof epsM. apply Rabs_le_inv in E. split.
  - rewrite <- minus_IZR. apply fl_ge; [apply fmt_int; lia|]. rewrite minus_IZR. lra.
  - apply fl_le; [apply fmt_half; lia|lra].
Qed.
Lemma back_floor : Zfloor (fl (q * IZR N)) = M \/ Zfloor (fl (q * IZR N)) = (M - 1)%Z.
Proof.
  pose proof back_bounds as [B1 B2]. rewrite <- minus_IZR in B1. apply Zfloor_le in B1. rewrite Zfloor_IZR in B1.
  assert (Zfloor (fl (q * IZR N)) < M + 1)%Z; [|lia]. apply lt_IZR. rewrite plus_IZR. pose proof (Zfloor_lb (fl (q * IZR N))). lra.
Qed.
Lemma back_nonneg : 0 <= fl (q * IZR N).
Proof. pose proof back_bounds as [B1 _]. pose proof MR. lra. Qed.
(** the inverse: M / fl (M / N) is N up to rounding *)
Lemma inv_err : Rabs (IZR M / q - IZR N) <= / 4.
Proof.
  pose proof q_err as E. pose proof q_pos as P. pose proof NR. pose proof MR.
  replace (IZR M / q - IZR N) with (- ((q * IZR N - IZR M) / q)) by (field; lra). rewrite Rabs_Ropp. unfold Rdiv. rewrite Rabs_mult, (Rabs_pos_eq (/ q)) by (apply Rlt_le, Rinv_0_lt_compat, P).
  apply Rle_trans with (eps * IZR M * / q); [apply Rmult_le_compat_r; [apply Rlt_le, Rinv_0_lt_compat, P|exact E]|].
  apply (Rmult_le_reg_r q); [exact P|]. rewrite Rmult_assoc, Rinv_l by lra. rewrite Rmult_1_r.
  apply Rabs_le_inv in E. pose proof eps_pos. pose proof eps_val as V. pose proof epsM as EM.
  assert (IZR M <= q * IZR N + eps * IZR M) by lra.
  assert (eps * IZR N <= / 8). { apply Rle_trans with (eps * IZR (2 ^ 50)); [apply Rmult_le_compat_l; lra|]. replace (IZR (2 ^ 50)) with (IZR (2 ^ 53) / 8) by (change (2 ^ 53)%Z with (2 ^ 50 * 8)%Z; rewrite mult_IZR; field). nra. }
  assert (IZR M * (1 - eps) <= q * IZR N) by lra.
  assert (eps <= / 8) by nra.
  assert (IZR M <= q * IZR N * 2) by nra.
  apply Rle_trans with (eps * (q * IZR N * 2)); [apply Rmult_le_compat_l; lra|]. replace (eps * (q * IZR N * 2)) with (eps * IZR N * (2 * q)) by ring. nra.
Qed.
Lemma inv_fl : IZR N - / 4 <= fl (IZR M / q) <= IZR N + / 4.
Proof.
  pose proof inv_err as E. apply Rabs_le_inv in E. pose proof NR.
  assert (forall z, (Z.abs z < 2 ^ 53)%Z -> generic_format radix2 (SpecFloat.fexp 53 1024) (IZR z / 4)) as F.
  { intros z Hz. replace (IZR z / 4) with (IZR z * bpow radix2 (- 2)) by (cbn; lra). apply (fmt_dyadic z 2); lia. }
  split.
  - replace (IZR N - / 4) with (IZR (4 * N - 1) / 4) by (rewrite minus_IZR, mult_IZR; lra). apply fl_ge; [apply F; lia|]. rewrite minus_IZR, mult_IZR. lra.
  - replace (IZR N + / 4) with (IZR (4 * N + 1) / 4) by (rewrite plus_IZR, mult_IZR; lra). apply fl_le; [apply F; lia|]. rewrite plus_IZR, mult_IZR. lra.
Qed.
Lemma inv_round : ZnearestE (fl (IZR M / q)) = N.
Proof. apply Znearest_imp. pose proof inv_fl. apply Rabs_def1; lra. Qed.
(** exact ratios *)
Lemma exact_q : generic_format radix2 (SpecFloat.fexp 53 1024) (IZR M / IZR N) -> q = IZR M / IZR N.
Proof. apply fl_id. Qed.
End Ratio.
