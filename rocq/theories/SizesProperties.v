(** SizesProperties.v -- C22: padded and refined sizes are the requested ones, in IEEE doubles *)
From Coq Require Import ZArith Reals Lia Lra Bool.
From Flocq Require Import Core.Core IEEE754.BinarySingleNaN.
From Verif Require Import SizesModel SizesProofs.
Local Open Scope Z_scope.

(** specification: a usable padding factor for N points -- a finite double p >= 1 with N*p < 2^49 *)
Definition usable (N : Z) (p : b64) : Prop :=
  (1 <= N) /\ is_finite p = true /\ (1 <= B2R p)%R /\ (IZR N * B2R p < IZR (2 ^ 49))%R.
(** the quotient M/N is a double *)
Definition dyadic (M N : Z) : Prop := exists a k, Z.abs a < 2 ^ 53 /\ 0 <= k <= 1000 /\ M * 2 ^ k = a * N.

Lemma usable_N N p : usable N p -> (1 <= N < 2 ^ 49).
Proof. intros (H1 & _ & H2 & H3). split; [exact H1|]. apply lt_IZR. apply Rle_lt_trans with (IZR N * B2R p)%R; [|exact H3]. assert (1 <= IZR N)%R by (apply IZR_le; lia). nra. Qed.
Lemma small_abs (z : R) : (0 <= z <= IZR (2 ^ 60))%R -> (Rabs z <= bpow radix2 100)%R.
Proof. intros [H1 H2]. rewrite Rabs_pos_eq by exact H1. apply Rle_trans with (1 := H2). rewrite two_pow_100. apply IZR_le. lia. Qed.
Lemma prod_val N p : usable N p -> val (mul (of_int N) p) (fl (IZR N * B2R p)) /\ val (mul p (of_int N)) (fl (IZR N * B2R p)) /\ (IZR N <= IZR N * B2R p)%R.
Proof.
  intros U. pose proof (usable_N N p U) as HN. destruct U as (H1 & H2 & H3 & H4).
  assert (1 <= IZR N)%R by (apply IZR_le; lia). assert (IZR (2 ^ 49) <= IZR (2 ^ 60))%R by (apply IZR_le; lia).
  split; [|split; [|nra]].
  - apply mul_val; [apply of_int_val; lia|split; [reflexivity|exact H2]|]. apply small_abs. split; [nra|]. lra.
  - rewrite (Rmult_comm (IZR N)). apply mul_val; [split; [reflexivity|exact H2]|apply of_int_val; lia|]. apply small_abs. split; [nra|lra].
Qed.
Lemma req_floor N p : usable N p -> fourier_plan_size N p = Zfloor (fl (IZR N * B2R p)).
Proof.
  intros U. destruct (prod_val N p U) as (_ & V & L). unfold fourier_plan_size. rewrite (pyint_val _ _ V). apply Ztrunc_floor.
  pose proof (usable_N N p U). apply fl_ge; [apply (fmt_int 0); lia|]. apply Rle_trans with (IZR N); [apply IZR_le; lia|exact L].
Qed.
Lemma req_bounds N p : usable N p -> N <= fourier_plan_size N p <= 2 ^ 49.
Proof.
  intros U. rewrite req_floor by exact U. pose proof (usable_N N p U). destruct (prod_val N p U) as (_ & _ & L). destruct U as (_ & _ & _ & B). split.
  - apply Zfloor_lub. apply fl_ge; [apply fmt_int; lia|exact L].
  - rewrite <- (Zfloor_IZR (2 ^ 49)). apply Zfloor_le. apply fl_le; [apply fmt_int; lia|]. lra.
Qed.
Lemma stored_val N p : usable N p -> B2R p <> 1%R -> val (stored_factor N p) (fl (IZR (fourier_plan_size N p) / IZR N)).
Proof.
  intros U H1. pose proof (usable_N N p U) as HN. pose proof (req_bounds N p U) as HB. unfold stored_factor.
  destruct (is_one p) eqn:E. { apply (is_one_val p (B2R p)) in E; [contradiction|split; [reflexivity|apply U]]. }
  destruct (Z.ltb_spec 0 N); [|lia]. apply div_val.
  - rewrite req_floor by exact U. apply npfloor_val, prod_val, U.
  - apply of_int_val. lia.
  - apply not_0_IZR. lia.
  - apply small_abs. assert (1 <= IZR N)%R by (apply IZR_le; lia). assert (0 <= IZR (fourier_plan_size N p) <= IZR (2 ^ 49))%R by (split; apply IZR_le; lia).
    assert (IZR (2 ^ 49) <= IZR (2 ^ 60))%R by (apply IZR_le; lia). split; [apply Rle_mult_inv_pos; lra|].
    apply (Rmult_le_reg_r (IZR N)); [lra|]. unfold Rdiv. rewrite Rmult_assoc, Rinv_l by lra. nra.
Qed.
Lemma shapes_val N M f : 1 <= N < 2 ^ 50 -> 1 <= M < 2 ^ 50 -> val f (fl (IZR M / IZR N)) ->
  let s := Zfloor (fl (fl (IZR M / IZR N) * IZR N)) in
  shape_false N f = s /\ fourier_shape_false N f = s /\ tp_plan_size N f = s.
Proof.
  intros HN HM V s. pose proof (q_pos N M HN HM) as P. pose proof (q_le N M HN HM) as Q. assert (1 <= IZR N < IZR (2 ^ 50))%R by (split; [apply IZR_le|apply IZR_lt]; lia).
  pose proof (q_err N M HN HM) as E. pose proof (epsM M HM) as EM. apply Rabs_le_inv in E. assert (IZR M < IZR (2 ^ 50))%R by (apply IZR_lt; lia).
  assert (IZR (2 ^ 50) + 1 <= IZR (2 ^ 60))%R by (rewrite <- plus_IZR; apply IZR_le; lia).
  assert (Rabs (fl (IZR M / IZR N) * IZR N) <= bpow radix2 100)%R as B by (apply small_abs; split; nra).
  assert (val (of_int N) (IZR N)) as VN by (apply of_int_val; lia).
  pose proof (npfloor_val _ _ (mul_val _ _ _ _ V VN B)) as V1.
  assert (fourier_shape_false N f = s) as E1 by (unfold fourier_shape_false; rewrite (pyint_val _ _ V1), Ztrunc_IZR; reflexivity).
  split; [|split; [exact E1|]].
  - unfold shape_false. destruct (is_one f) eqn:EO; [|exact E1]. apply (is_one_val f _ V) in EO. unfold s. rewrite EO, Rmult_1_l, fl_id, Zfloor_IZR by (apply fmt_int; lia). reflexivity.
  - rewrite Rmult_comm in B. pose proof (npfloor_val _ _ (mul_val _ _ _ _ VN V B)) as V2. unfold tp_plan_size. rewrite (pyint_val _ _ V2), Ztrunc_IZR. unfold s. do 2 f_equal. apply Rmult_comm.
Qed.
Lemma trunc_val N M f : 1 <= N < 2 ^ 50 -> 1 <= M < 2 ^ 50 -> val f (fl (IZR M / IZR N)) ->
  val (div (of_int M) f) (fl (IZR M / fl (IZR M / IZR N))).
Proof.
  intros HN HM V. pose proof (q_pos N M HN HM) as P. pose proof (inv_err N M HN HM) as E. apply Rabs_le_inv in E.
  assert (1 <= IZR N < IZR (2 ^ 50))%R by (split; [apply IZR_le|apply IZR_lt]; lia). assert (IZR (2 ^ 50) + 1 <= IZR (2 ^ 60))%R by (rewrite <- plus_IZR; apply IZR_le; lia).
  apply div_val; [apply of_int_val; lia|exact V|lra|]. apply small_abs. lra.
Qed.
Lemma dyadic_fmt M N : 1 <= N -> dyadic M N -> generic_format radix2 (SpecFloat.fexp 53 1024) (IZR M / IZR N).
Proof.
  intros HN (a & k & Ha & Hk & E). apply (f_equal IZR) in E. rewrite !mult_IZR in E. change (2 ^ k)%Z with (Zpower radix2 k) in E. rewrite IZR_Zpower in E by lia.
  replace (IZR M / IZR N)%R with (IZR a * bpow radix2 (- k))%R; [apply fmt_dyadic; lia|]. rewrite bpow_opp.
  pose proof (bpow_gt_0 radix2 k). assert (IZR N <> 0%R) by (apply not_0_IZR; lia). apply (Rmult_eq_reg_r (IZR N * bpow radix2 k)); [|nra]. field_simplify; [|assumption|lra]. lra.
Qed.
Lemma exact_back N M : 1 <= N < 2 ^ 50 -> 1 <= M < 2 ^ 50 -> dyadic M N ->
  fl (IZR M / IZR N) = (IZR M / IZR N)%R /\ Zfloor (fl (fl (IZR M / IZR N) * IZR N)) = M /\ fl (IZR M / fl (IZR M / IZR N)) = IZR N.
Proof.
  intros HN HM D. assert (IZR N <> 0%R) by (apply not_0_IZR; lia). assert (IZR M <> 0%R) by (apply not_0_IZR; lia).
  rewrite (fl_id (IZR M / IZR N)) by (apply dyadic_fmt; [lia|exact D]). split; [reflexivity|].
  replace (IZR M / IZR N * IZR N)%R with (IZR M) by (field; assumption). replace (IZR M / (IZR M / IZR N))%R with (IZR N) by (field; split; assumption).
  rewrite !fl_id, Zfloor_IZR by (apply fmt_int; lia). split; reflexivity.
Qed.

(** *** the requested size floor(N p), computed with one rounding *)
Theorem C22_requested_size : forall N p, usable N p ->
  Zfloor (IZR N * B2R p) <= fourier_plan_size N p <= Zfloor (IZR N * B2R p) + 1.
Proof.
  intros N p U. rewrite req_floor by exact U. pose proof (usable_N N p U) as HN. destruct U as (_ & _ & H1 & H2). set (x := (IZR N * B2R p)%R) in *.
  assert (0 <= Zfloor x < 2 ^ 49) as HF.
  { split; [apply Zfloor_lub; unfold x; assert (1 <= IZR N)%R by (apply IZR_le; lia); nra|]. apply lt_IZR. apply Rle_lt_trans with x; [apply Zfloor_lb|exact H2]. }
  split.
  - apply Zfloor_lub. apply fl_ge; [apply fmt_int; lia|apply Zfloor_lb].
  - rewrite <- (Zfloor_IZR (Zfloor x + 1)). apply Zfloor_le. apply fl_le; [apply fmt_int; lia|]. rewrite plus_IZR. apply Rlt_le, Zfloor_ub.
Qed.
Print Assumptions C22_requested_size.
Definition three_halves : b64 := div (of_int 3) (of_int 2).
Lemma three_halves_val : val three_halves (3 / 2).
Proof.
  assert (fl (3 / 2) = (3 / 2)%R) as E by (apply fl_id; replace (3 / 2)%R with (IZR 3 * bpow radix2 (- 1))%R by (cbn; lra); apply (fmt_dyadic 3 1); lia).
  rewrite <- E. apply div_val; [apply (of_int_val 3); reflexivity|apply (of_int_val 2); reflexivity|lra|]. apply small_abs.
  assert (3 <= IZR (2 ^ 60))%R by (apply IZR_le; lia). lra.
Qed.
Lemma usable_three_halves N : 1 <= N < 2 ^ 48 -> usable N three_halves.
Proof.
  intros H. destruct three_halves_val as [V F]. unfold usable. rewrite V. split; [lia|split; [exact F|split; [lra|]]]. change (2 ^ 49)%Z with (2 * 2 ^ 48)%Z. rewrite mult_IZR.
  assert (IZR N < IZR (2 ^ 48))%R by (apply IZR_lt; lia). lra.
Qed.
(** the 3/2 rule: exact for every N *)
Theorem C22_three_halves_size : forall N, 1 <= N < 2 ^ 48 -> fourier_plan_size N three_halves = 3 * N / 2.
Proof.
  intros N H. rewrite req_floor by (apply usable_three_halves; exact H). destruct three_halves_val as [V _]. rewrite V.
  replace (IZR N * (3 / 2))%R with (IZR (3 * N) * bpow radix2 (- 1))%R by (rewrite mult_IZR; cbn; lra). rewrite fl_id by (apply (fmt_dyadic (3 * N) 1); lia).
  replace (IZR (3 * N) * bpow radix2 (- 1))%R with (IZR (3 * N) / IZR 2)%R by (cbn; lra). rewrite Zfloor_div by lia. reflexivity.
Qed.
Print Assumptions C22_three_halves_size.

(** *** the size a padded space reports: the requested one, or one less; truncating the requested
    number of points gives back N *)
Theorem C22_padded_shape_partial : forall N p, usable N p -> B2R p <> 1%R ->
  let M := fourier_plan_size N p in let f := stored_factor N p in
  (shape_false N f = M \/ shape_false N f = M - 1) /\
  fourier_shape_false N f = shape_false N f /\ tp_plan_size N f = shape_false N f /\ trunc_size M f = N.
Proof.
  intros N p U H1 M f. pose proof (usable_N N p U). pose proof (req_bounds N p U). fold M in H0. pose proof (stored_val N p U H1) as V. fold M f in V.
  assert (1 <= N < 2 ^ 50) as HN by lia. assert (1 <= M < 2 ^ 50) as HM by lia.
  destruct (shapes_val N M f HN HM V) as (E1 & E2 & E3). rewrite E1, E2, E3. split; [apply back_floor; assumption|]. split; [reflexivity|split; [reflexivity|]].
  unfold trunc_size. rewrite (pyint_val _ _ (npround_val _ _ (trunc_val N M f HN HM V))), Ztrunc_IZR. apply inv_round; assumption.
Qed.
Print Assumptions C22_padded_shape_partial.
(** exact, and stable under any number of copies, when M/N is a double: integer factors, N a power of
    two, the 3/2 rule on even N *)
Theorem C22_padded_shape_exact_partial : forall N p, usable N p -> B2R p <> 1%R -> dyadic (fourier_plan_size N p) N ->
  let M := fourier_plan_size N p in forall k, let f := clones N (stored_factor N p) k in
  shape_false N f = M /\ fourier_shape_false N f = M /\ tp_plan_size N f = M /\ trunc_size M f = N /\ trunc_size_r2c M f = N / 2 + 1.
Proof.
  intros N p U H1 D M k. pose proof (usable_N N p U). pose proof (req_bounds N p U). fold M in H0, D. pose proof (stored_val N p U H1) as V. fold M in V.
  assert (1 <= N < 2 ^ 50) as HN by lia. assert (1 <= M < 2 ^ 50) as HM by lia. destruct (exact_back N M HN HM D) as (X1 & X2 & X3).
  assert (forall k, val (clones N (stored_factor N p) k) (IZR M / IZR N)) as VK.
  { intros j. induction j as [|j IH]; [cbn [clones]; rewrite <- X1; exact V|]. cbn [clones]. unfold clone_factor, stored_factor at 1. set (g := clones N (stored_factor N p) j) in *.
    assert (IZR N <> 0%R) by (apply not_0_IZR; lia). destruct (is_one g) eqn:E; [exact IH|]. destruct (Z.ltb_spec 0 N); [|lia].
    assert (0 <= IZR M <= IZR (2 ^ 60))%R by (split; apply IZR_le; lia).
    assert (val (mul (of_int N) g) (IZR M)) as VM.
    { rewrite <- (fl_id (IZR M)) by (apply fmt_int; lia). replace (fl (IZR M)) with (fl (IZR N * (IZR M / IZR N))) by (f_equal; field; assumption).
      apply mul_val; [apply of_int_val; lia|exact IH|]. replace (IZR N * (IZR M / IZR N))%R with (IZR M) by (field; assumption). apply small_abs. assumption. }
    apply npfloor_val in VM. rewrite Zfloor_IZR in VM. rewrite <- X1. apply div_val; [exact VM|apply of_int_val; lia|assumption|].
    apply small_abs. assert (1 <= IZR N)%R by (apply IZR_le; lia). split; [apply Rle_mult_inv_pos; lra|]. apply (Rmult_le_reg_r (IZR N)); [lra|]. unfold Rdiv. rewrite Rmult_assoc, Rinv_l by lra. nra. }
  intros f. specialize (VK k). fold f in VK. rewrite <- X1 in VK. destruct (shapes_val N M f HN HM VK) as (E1 & E2 & E3). rewrite E1, E2, E3, X2. split; [reflexivity|split; [reflexivity|split; [reflexivity|]]].
  pose proof (trunc_val N M f HN HM VK) as T. rewrite X3 in T. split.
  - unfold trunc_size. rewrite (pyint_val _ _ (npround_val _ _ T)), Ztrunc_IZR. apply Znearest_imp. rewrite Rminus_diag_eq by reflexivity. rewrite Rabs_R0. lra.
  - unfold trunc_size_r2c. rewrite (pyint_val _ _ T), Ztrunc_IZR. reflexivity.
Qed.
Print Assumptions C22_padded_shape_exact_partial.
Theorem C22_dyadic_cases : forall N M, 1 <= N < 2 ^ 49 -> 0 <= M < 2 ^ 50 ->
  ((exists c, M = c * N) -> dyadic M N) /\ ((exists k, 0 <= k <= 49 /\ N = 2 ^ k) -> dyadic M N) /\ (Z.even N = true -> dyadic (3 * N / 2) N).
Proof.
  intros N M HN HM. split; [|split].
  - intros [c ->]. exists c, 0. repeat split; [|lia|lia|lia]. assert (0 <= c) by nia. assert (c <= c * N) by nia. lia.
  - intros (k & Hk & ->). exists M, k. repeat split; lia.
  - intros E. exists 3, 1. repeat split; [lia|lia|]. apply Z.even_spec in E. destruct E as [m ->]. replace (3 * (2 * m)) with (3 * m * 2) by ring. rewrite Z.div_mul by lia. change (2 ^ 1) with 2. lia.
Qed.
Print Assumptions C22_dyadic_cases.
(** 3/2 rule on 157 points: 235 requested and planned, 234 reported; truncating 234 points gives 156
    modes; each copy loses one more point *)
Theorem C22_padded_shape_refuted : let f := stored_factor 157 three_halves in
  fourier_plan_size 157 three_halves = 235 /\ shape_false 157 f = 234 /\ tp_plan_size 157 f = 234 /\ trunc_size 234 f = 156 /\
  shape_false 157 (clones 157 f 1) = 233 /\ shape_false 157 (clones 157 f 2) = 232 /\ shape_false 157 (clones 157 f 3) = 231.
Proof. vm_compute. repeat split; reflexivity. Qed.
Print Assumptions C22_padded_shape_refuted.
(** a real Fourier space with 14 points padded by 4/3: its truncated array has 7 modes, not 8 *)
Theorem C22_r2c_trunc_refuted : let p := div (of_int 4) (of_int 3) in
  fourier_plan_size 14 p = 18 /\ trunc_size_r2c 18 (stored_factor 14 p) = 7 /\ 14 / 2 + 1 = 8.
Proof. vm_compute. repeat split; reflexivity. Qed.
Print Assumptions C22_r2c_trunc_refuted.
Example C22_padded_example : usable 48 three_halves /\ B2R three_halves <> 1%R /\ dyadic (fourier_plan_size 48 three_halves) 48 /\ fourier_plan_size 48 three_halves = 72.
Proof.
  split; [apply usable_three_halves; lia|]. split; [destruct three_halves_val as [V _]; rewrite V; lra|]. rewrite C22_three_halves_size by lia. change (3 * 48 / 2) with 72. split; [|reflexivity].
  exists 3, 1. repeat split; lia.
Qed.

(** *** Function.refine *)
Lemma refine_val n N' : 1 <= n < 2 ^ 50 -> 1 <= N' < 2 ^ 50 -> val (refine_factor n N') (fl (IZR N' / IZR n)).
Proof.
  intros Hn HN. apply div_val; [apply of_int_val; lia|apply of_int_val; lia|apply not_0_IZR; lia|]. apply small_abs.
  assert (1 <= IZR n)%R by (apply IZR_le; lia). assert (0 <= IZR N' <= IZR (2 ^ 60))%R by (split; apply IZR_le; lia).
  split; [apply Rle_mult_inv_pos; lra|]. apply (Rmult_le_reg_r (IZR n)); [lra|]. unfold Rdiv. rewrite Rmult_assoc, Rinv_l by lra. nra.
Qed.
Lemma refine_floor n N' : 1 <= n < 2 ^ 50 -> 1 <= N' < 2 ^ 50 -> refine_size n N' n = Zfloor (fl (fl (IZR N' / IZR n) * IZR n)).
Proof.
  intros Hn HN. unfold refine_size. pose proof (q_pos n N' Hn HN). pose proof (q_err n N' Hn HN) as E. pose proof (epsM N' HN). apply Rabs_le_inv in E.
  assert (IZR N' < IZR (2 ^ 50))%R by (apply IZR_lt; lia). assert (IZR (2 ^ 50) + 1 <= IZR (2 ^ 60))%R by (rewrite <- plus_IZR; apply IZR_le; lia). assert (1 <= IZR n)%R by (apply IZR_le; lia).
  rewrite (pyint_val _ (fl (IZR n * fl (IZR N' / IZR n)))).
  - rewrite Rmult_comm. apply Ztrunc_floor. apply back_nonneg; assumption.
  - apply mul_val; [apply of_int_val; lia|apply refine_val; assumption|]. apply small_abs. rewrite Rmult_comm. split; nra.
Qed.
Theorem C22_refine_partial : forall n N', 1 <= n < 2 ^ 50 -> 1 <= N' < 2 ^ 50 ->
  (refine_size n N' n = N' \/ refine_size n N' n = N' - 1) /\
  (dyadic N' n -> refine_size n N' n = N' /\ refine_size_r2c_next n N' = N' / 2 + 1 /\ (Z.even n = true -> refine_size_r2c_first n N' (n / 2 + 1) = N' / 2 + 1)).
Proof.
  intros n N' Hn HN. pose proof (refine_floor n N' Hn HN) as E. split; [rewrite E; apply back_floor; assumption|]. intros D.
  destruct (exact_back n N' Hn HN D) as (_ & X & _). rewrite X in E. split; [exact E|]. unfold refine_size in E. split.
  - unfold refine_size_r2c_next. rewrite E. reflexivity.
  - intros H. unfold refine_size_r2c_first. apply Z.even_spec in H. destruct H as [m ->]. replace (2 * m / 2) with m by (rewrite Z.mul_comm, Z.div_mul; lia).
    replace (2 * (m + 1) - 2) with (2 * m) by ring. rewrite E. reflexivity.
Qed.
Print Assumptions C22_refine_partial.
(** refining 11 modes to 15 gives 14 *)
Theorem C22_refine_refuted : refine_size 11 15 11 = 14 /\ refine_size 22 30 22 = 29.
Proof. vm_compute. split; reflexivity. Qed.
Print Assumptions C22_refine_refuted.
(** a real-to-complex first axis with an odd number of points: 7 points have 4 modes, refined to 14
    points (exact ratio 2) it should have 8 modes but gets 7 *)
Theorem C22_refine_r2c_odd_refuted : dyadic 14 7 /\ refine_size_r2c_first 7 14 (7 / 2 + 1) = 7 /\ 14 / 2 + 1 = 8.
Proof. split; [exists 2, 0; repeat split; lia|]. vm_compute. split; reflexivity. Qed.
Print Assumptions C22_refine_r2c_odd_refuted.
Example C22_refine_example : dyadic 96 64 /\ Z.even 64 = true.
Proof. split; [exists 3, 1; repeat split; lia|reflexivity]. Qed.
