(** DLTProofs3.v -- when the backward loop stops; a scalar product for which the loop stops too early. *)
From Coq Require Import Reals ZArith List Arith Bool Lia Lra.
From Verif Require Import Base Fld SparseModel RPoly StencilModel LegMatrixModel ChebMatrixModel ChebQuadModel ChebQuadProofs ChebMatrixProofs ChebTransModel ChebTransProofs UTransModel UTransProofs
  Leg2ChebModel Leg2ChebSpec Leg2ChebProofs3 MatrixProofs FormsProofs3 InnerProofs4 InnerProofs5 CoordProofs HelmholtzProofs FMMSweepProofs8 DLTModel DLTSpec DLTProofs DLTProofs2.
Import ListNotations.
Local Open Scope R_scope.

(** ** orthogonality on the Chebyshev angles *)
Lemma cos_orth N p k : (p < N)%nat -> (1 <= k < N)%nat ->
  rsum N (fun i => cos (INR p * cheb_angle N i) * cos (INR k * cheb_angle N i)) = if (p =? k)%nat then INR N / 2 else 0.
Proof.
  intros Hp Hk. assert (HN : 0 < INR N) by (apply lt_0_INR; lia). pose proof PI_RGT_0 as HP.
  pose proof (quad_TT LG N p k ltac:(cbn; lia) Hp ltac:(lia)) as Q.
  assert (E : rsum N (fun i => cheb_weight LG N i * (peval (chebT p) (cheb_point LG N i) * peval (chebT k) (cheb_point LG N i))) =
    PI / INR N * rsum N (fun i => cos (INR p * cheb_angle N i) * cos (INR k * cheb_angle N i))).
  { rewrite <- FormsProofs3.rsum_scal. apply rsum_ext. intros i _. unfold cheb_point. fold (cheb_angle N i). rewrite !chebT_cos. reflexivity. }
  rewrite E in Q. apply (Rmult_eq_reg_l (PI / INR N)); [|apply Rgt_not_eq, Rdiv_lt_0_compat; assumption]. rewrite Q.
  destruct (Nat.eqb_spec p k) as [->|]; [|ring]. unfold cheb_norm_sq, cheb_l2_norm_sq, cheb_L2_norm_sq. destruct k as [|k]; [lia|]. cbn [Nat.eqb andb orb negb]. field. lra.
Qed.
Lemma sin_orth N p k : (p < N)%nat -> (1 <= k < N)%nat ->
  rsum N (fun i => sin (INR p * cheb_angle N i) * sin (INR k * cheb_angle N i)) = if (p =? k)%nat then INR N / 2 else 0.
Proof.
  intros Hp Hk. destruct p as [|p].
  - destruct (Nat.eqb_spec 0 k); [lia|]. apply rsum_zero. intros i _. change (INR 0) with 0. rewrite Rmult_0_l, sin_0. ring.
  - destruct k as [|k]; [lia|]. pose proof (sine_orth GC N p k ltac:(lia) ltac:(lia)) as Q. replace (p + 1)%nat with (S p) in Q by lia. replace (k + 1)%nat with (S k) in Q by lia.
    transitivity (rsum N (fun i => sin (INR (S p) * utheta GC N i) * sin (INR (S k) * utheta GC N i))); [reflexivity|]. rewrite Q.
    cbn [Nat.eqb]. destruct (Nat.eqb_spec p k) as [->|]; [|reflexivity]. unfold ucount. destruct (Nat.eqb_spec k (N - 1)); [lia|]. reflexivity.
Qed.
Lemma shifted_orth n N p k : (p < N)%nat -> (1 <= k < N)%nat ->
  rsum N (fun i => cos (INR p * cheb_angle N i + INR n * (PI / 2)) * cos (INR k * cheb_angle N i + INR n * (PI / 2))) = if (p =? k)%nat then INR N / 2 else 0.
Proof.
  intros Hp Hk.
  transitivity (rsum N (fun i => if (n mod 2 =? 0)%nat then cos (INR p * cheb_angle N i) * cos (INR k * cheb_angle N i) else sin (INR p * cheb_angle N i) * sin (INR k * cheb_angle N i))).
  - apply rsum_ext. intros i _. rewrite !loop_sign. destruct (n mod 2 =? 0)%nat; destruct ((n + 1) / 2 mod 2 =? 0)%nat; ring.
  - destruct (n mod 2 =? 0)%nat; [apply cos_orth|apply sin_orth]; assumption.
Qed.
Lemma entry_le_norm lines N a l i : (l < lines)%nat -> (i < N)%nat -> Rabs (a l i) <= array_norm lines N a.
Proof.
  intros Hl Hi. unfold array_norm. rewrite <- sqrt_Rsqr_abs. unfold Rsqr.
  assert (S : forall l i, 0 <= a l i * a l i) by (intros; apply Rle_0_sqr).
  apply sqrt_le_1_alt. eapply Rle_trans; [apply (rsum_term N (fun i => a l i * a l i) i); [intros; apply S|exact Hi]|].
  apply (rsum_term lines (fun l => rsum N (fun i => a l i * a l i)) l); [intros; apply CoordProofs.rsum_nonneg; intros; apply S|exact Hl].
Qed.
Lemma sum_INR N : 2 * rsum N INR = INR N * (INR N - 1).
Proof. induction N as [|N IH]; [cbn; ring|]. cbn [gsum]. rewrite Rmult_plus_distr_l, IH, S_INR. ring. Qed.
Lemma rsum_const n c : rsum n (fun _ => c) = INR n * c.
Proof. induction n as [|n IH]; [cbn; ring|]. cbn [gsum]. rewrite IH, S_INR. ring. Qed.

(** the last correction bounds the high coefficients *)
Lemma coeff_bound N dt x n e d k : (1 <= k < N)%nat -> 0 < d -> (forall i, (i < N)%nat -> d <= Rabs (dt i)) ->
  (forall i, (i < N)%nat -> Rabs (d_term Backward N dt x n i) <= e) -> Rabs (x k) * INR k ^ n <= 2 * INR (fact n) * e / d ^ n.
Proof.
  intros Hk Hd Hdt He. assert (HN : 0 < INR N) by (apply lt_0_INR; lia). pose proof (fact_pos n) as F. pose proof (pow_lt d n Hd) as Dn.
  set (h := fun i => rsum N (fun p => x p * INR p ^ n * cos (INR p * cheb_angle N i + INR n * (PI / 2)))).
  assert (Hh : forall i, d_term Backward N dt x n i = dt i ^ n / INR (fact n) * h i).
  { intros i. unfold d_term, h. rewrite <- FormsProofs3.rsum_scal. apply rsum_ext. intros p _. unfold tay, d_ang, d_step. cbn [is_backward]. rewrite Rpow_mult_distr. field. lra. }
  assert (Bh : forall i, (i < N)%nat -> Rabs (h i) <= INR (fact n) * e / d ^ n).
  { intros i Hi. specialize (He i Hi). rewrite Hh in He. unfold Rdiv in He. rewrite !Rabs_mult in He. rewrite <- RPow_abs in He. rewrite (Rabs_right (/ INR (fact n))) in He by (left; apply Rinv_0_lt_compat, F).
    apply (Rmult_le_reg_l (d ^ n * / INR (fact n))); [apply Rmult_lt_0_compat; [exact Dn|apply Rinv_0_lt_compat, F]|].
    replace (d ^ n * / INR (fact n) * (INR (fact n) * e / d ^ n)) with e by (field; lra).
    eapply Rle_trans; [|exact He]. apply Rmult_le_compat_r; [apply Rabs_pos|]. apply Rmult_le_compat_r; [left; apply Rinv_0_lt_compat, F|].
    apply pow_incr. split; [lra|]. apply Hdt, Hi. }
  assert (Ex : INR N / 2 * (x k * INR k ^ n) = rsum N (fun i => h i * cos (INR k * cheb_angle N i + INR n * (PI / 2)))).
  { transitivity (rsum N (fun p => x p * INR p ^ n * (if (p =? k)%nat then INR N / 2 else 0))).
    - rewrite <- (InnerProofs5.rsum_delta N k (fun p => INR N / 2 * (x p * INR p ^ n)) ltac:(lia)). apply rsum_ext. intros p _. destruct (p =? k)%nat; ring.
    - transitivity (rsum N (fun p => rsum N (fun i => x p * INR p ^ n * cos (INR p * cheb_angle N i + INR n * (PI / 2)) * cos (INR k * cheb_angle N i + INR n * (PI / 2))))).
      + apply rsum_ext. intros p Hp. rewrite <- (shifted_orth n N p k Hp Hk). rewrite <- FormsProofs3.rsum_scal. apply rsum_ext. intros i _. ring.
      + rewrite InnerProofs4.rsum_swap. apply rsum_ext. intros i _. unfold h. rewrite <- CoordProofs.rsum_scal_r. reflexivity. }
  assert (B : INR N / 2 * (Rabs (x k) * INR k ^ n) <= INR N * (INR (fact n) * e / d ^ n)).
  { replace (INR N / 2 * (Rabs (x k) * INR k ^ n)) with (Rabs (INR N / 2 * (x k * INR k ^ n))).
    - rewrite Ex. eapply Rle_trans; [apply rsum_abs|]. rewrite <- (rsum_const N (INR (fact n) * e / d ^ n)). apply rsum_le. intros i Hi. rewrite Rabs_mult.
      rewrite <- (Rmult_1_r (INR (fact n) * e / d ^ n)). apply Rmult_le_compat; try apply Rabs_pos; [apply Bh, Hi|apply Rabs_le, COS_bound].
    - rewrite !Rabs_mult. rewrite (Rabs_right (INR N / 2)) by lra. f_equal. f_equal. apply Rabs_right. apply Rle_ge, pow_le, pos_INR. }
  apply (Rmult_le_reg_l (INR N / 2)); [lra|]. eapply Rle_trans; [exact B|]. right. field. apply Rgt_not_eq. exact Dn.
Qed.
Lemma backward_stop l2c xl wl fuel tol lines N u n out l j d D :
  (forall N c, same_function N (l2c N false c) chebT c legL) -> (1 <= N)%nat -> rule_points N xl -> 0 < d ->
  (forall j, (j < N)%nat -> d <= angle_distance xl N j <= D) ->
  dlt l2c xl wl fuel tol Backward lines N u = Some (n, out) -> (l < lines)%nat -> (j < N)%nat ->
  Rabs (out l j - leg_series N (u l) (xl j)) <= tol * (INR N * (INR N - 1)) * D * (D / d) ^ n / (INR n + 1).
Proof.
  intros HL HN HR Hd HD E Hl Hj.
  eapply Rle_trans; [apply (backward_error l2c xl wl fuel tol lines N u n out l j (l2c N false (u l))); auto|].
  destruct (dlt_value _ _ _ _ _ _ _ _ _ _ _ HN E) as (_ & Hnorm & _). unfold dlt_x in Hnorm. cbn [is_backward] in Hnorm.
  set (x := l2c N false (u l)). set (dt := dlt_dtheta xl N) in *.
  assert (He : forall i, (i < N)%nat -> Rabs (d_term Backward N dt x n i) <= tol).
  { intros i Hi. eapply Rle_trans; [apply (entry_le_norm lines N (fun l i => d_term Backward N dt (l2c N false (u l)) n i) l i Hl Hi)|]. lra. }
  assert (Hdt : forall i, (i < N)%nat -> d <= Rabs (dt i)).
  { intros i Hi. unfold dt. rewrite dtheta_distance by exact Hi. apply HD. lia. }
  pose proof (fact_pos n) as F. pose proof (pow_lt d n Hd) as Dn. pose proof (HD j Hj) as (Hj1 & Hj2). assert (P : 0 < D) by lra.
  replace (tol * (INR N * (INR N - 1)) * D * (D / d) ^ n / (INR n + 1)) with (rsum N (fun k => INR k * (2 * tol * D * (D / d) ^ n / (INR n + 1)))).
  - apply rsum_le. intros k Hk. destruct k as [|k0].
    + change (INR 0) with 0. rewrite !Rmult_0_l. unfold remainder. replace (n + 1)%nat with (S n) by lia. cbn [pow]. unfold Rdiv. rewrite !Rmult_0_l, Rmult_0_r. lra.
    + set (k := S k0) in *. pose proof (coeff_bound N dt x n tol d k ltac:(lia) Hd Hdt He) as CB.
      unfold remainder. replace (n + 1)%nat with (S n) by lia. rewrite fact_simpl, mult_INR, S_INR. pose proof (pos_INR n) as Pn. pose proof (lt_0_INR k ltac:(lia)) as Pk.
      apply Rle_trans with (Rabs (x k) * ((INR k * D) ^ S n / ((INR n + 1) * INR (fact n)))).
      { apply Rmult_le_compat_l; [apply Rabs_pos|]. apply Rmult_le_compat_r; [left; apply Rinv_0_lt_compat, Rmult_lt_0_compat; lra|].
        apply pow_incr. split; [apply Rmult_le_pos; [lra|apply Rabs_pos]|]. apply Rmult_le_compat_l; lra. }
      replace (Rabs (x k) * ((INR k * D) ^ S n / ((INR n + 1) * INR (fact n)))) with ((Rabs (x k) * INR k ^ n) * (INR k * D * D ^ n / ((INR n + 1) * INR (fact n)))).
      2:{ cbn [pow]. rewrite Rpow_mult_distr. field. lra. }
      eapply Rle_trans; [apply Rmult_le_compat_r; [|exact CB]|].
      * apply Rmult_le_pos; [apply Rmult_le_pos; [apply Rmult_le_pos; lra|apply pow_le; lra]|left; apply Rinv_0_lt_compat, Rmult_lt_0_compat; lra].
      * right. assert (Eq : (D / d) ^ n = D ^ n / d ^ n) by (unfold Rdiv; rewrite Rpow_mult_distr; f_equal; apply pow_inv). rewrite Eq. field. repeat split; lra.
  - transitivity (rsum N INR * (2 * tol * D * (D / d) ^ n / (INR n + 1))); [apply (CoordProofs.rsum_scal_r N _ INR)|]. pose proof (sum_INR N) as S. set (q := rsum N INR) in *. transitivity ((2 * q) * (tol * D * (D / d) ^ n / (INR n + 1))); [unfold Rdiv; ring|]. rewrite S. unfold Rdiv. ring.
Qed.
