(** DLTProofs2.v -- the loop of DLT ends; distance of its result from the exact transforms. *)
From Coq Require Import Reals ZArith List Arith Bool Lia Lra.
From Verif Require Import Base Fld SparseModel RPoly StencilModel LegMatrixModel ChebMatrixProofs ChebTransModel UTransModel Leg2ChebModel Leg2ChebSpec Leg2ChebProofs3
  MatrixProofs FormsProofs3 InnerProofs4 InnerProofs5 CoordProofs HelmholtzProofs FMMSweepProofs8 DLTModel DLTSpec DLTProofs.
Import ListNotations.
Local Open Scope R_scope.

(** ** the loop ends *)
Lemma term_bound k N dt x m i : (i < N)%nat ->
  Rabs (d_term k N dt x m i) <= rsum N (fun p => Rabs (x p)) * (rsum N (fun i => rsum N (fun p => Rabs (d_step k dt i p))) ^ m / INR (fact m)).
Proof.
  intros Hi. unfold d_term. eapply Rle_trans; [apply rsum_abs|]. rewrite <- rsum_scal_r. apply rsum_le. intros p Hp. rewrite Rabs_mult.
  apply Rmult_le_compat_l; [apply Rabs_pos|]. unfold tay. rewrite Rabs_mult. pose proof (fact_pos m) as F.
  match goal with |- _ <= ?r => rewrite <- (Rmult_1_r r) end. apply Rmult_le_compat; try apply Rabs_pos.
  - unfold Rdiv. rewrite Rabs_mult, (Rabs_right (/ INR (fact m))) by (left; apply Rinv_0_lt_compat, F).
    apply Rmult_le_compat_r; [left; apply Rinv_0_lt_compat, F|]. rewrite <- RPow_abs. apply pow_incr. split; [apply Rabs_pos|].
    eapply Rle_trans; [|apply (rsum_term N (fun i => rsum N (fun p => Rabs (d_step k dt i p))) i); [intros; apply CoordProofs.rsum_nonneg; intros; apply Rabs_pos|exact Hi]].
    apply (rsum_term N (fun p => Rabs (d_step k dt i p)) p); [intros; apply Rabs_pos|exact Hp].
  - apply Rabs_le. apply COS_bound.
Qed.
Lemma norm_small lines N a e tol : 0 <= e -> 0 < tol -> (forall l i, (l < lines)%nat -> (i < N)%nat -> Rabs (a l i) <= e) -> (INR (lines * N) + 1) * e < tol -> array_norm lines N a < tol.
Proof.
  intros He Ht Ha Hs. unfold array_norm. rewrite <- (sqrt_square tol) by lra.
  assert (P : forall n c, rsum n (fun _ => c) = INR n * c).
  { clear. intros n c. induction n as [|n IH]; [cbn; ring|]. cbn [gsum]. rewrite IH, S_INR. ring. }
  assert (Q : rsum lines (fun l => rsum N (fun i => a l i * a l i)) <= INR (lines * N) * (e * e)).
  { rewrite mult_INR, Rmult_assoc. rewrite <- (P lines). apply rsum_le. intros l Hl. rewrite <- P. apply rsum_le. intros i Hi.
    specialize (Ha l i Hl Hi). rewrite <- (Rabs_right (a l i * a l i)) by (pose proof (Rle_0_sqr (a l i)); unfold Rsqr in *; lra). rewrite Rabs_mult.
    apply Rmult_le_compat; auto; apply Rabs_pos. }
  apply sqrt_lt_1.
  - apply CoordProofs.rsum_nonneg. intros l _. apply CoordProofs.rsum_nonneg. intros i _. pose proof (Rle_0_sqr (a l i)). unfold Rsqr in *. lra.
  - pose proof (Rle_0_sqr tol). unfold Rsqr in *. lra.
  - eapply Rle_lt_trans; [exact Q|]. pose proof (pos_INR (lines * N)) as PL. set (n := INR (lines * N)) in *. clearbody n.
    assert (n * (e * e) <= ((n + 1) * e) * ((n + 1) * e)).
    { replace (((n + 1) * e) * ((n + 1) * e)) with (n * (e * e) + (n * n + n + 1) * (e * e)) by ring.
      pose proof (Rmult_le_pos (n * n + n + 1) (e * e)). pose proof (Rmult_le_pos n n PL PL). pose proof (Rmult_le_pos e e He He). lra. }
    assert (0 <= (n + 1) * e) by (apply Rmult_le_pos; lra).
    eapply Rle_lt_trans; [eassumption|]. apply Rmult_le_0_lt_compat; lra.
Qed.
Lemma term_vanishes k lines N dt x tol n0 : 0 < tol -> exists m, (n0 <= m)%nat /\ array_norm lines N (fun l i => d_term k N dt (x l) m i) < tol.
Proof.
  intros Ht. set (M := rsum N (fun i => rsum N (fun p => Rabs (d_step k dt i p)))). set (C := rsum lines (fun l => rsum N (fun p => Rabs (x l p)))).
  assert (HC : 0 <= C) by (apply CoordProofs.rsum_nonneg; intros; apply CoordProofs.rsum_nonneg; intros; apply Rabs_pos).
  assert (HM : 0 <= M) by (apply CoordProofs.rsum_nonneg; intros; apply CoordProofs.rsum_nonneg; intros; apply Rabs_pos).
  pose proof (pos_INR (lines * N)) as PL.
  assert (HD : 0 < (INR (lines * N) + 1) * (C + 1)) by (apply Rmult_lt_0_compat; lra).
  destruct (cv_speed_pow_fact M (tol / ((INR (lines * N) + 1) * (C + 1)))) as (m0 & Hm0).
  { apply Rdiv_lt_0_compat; assumption. }
  exists (Nat.max n0 m0). split; [lia|]. set (m := Nat.max n0 m0). specialize (Hm0 m ltac:(lia)). unfold R_dist in Hm0. rewrite Rminus_0_r in Hm0.
  pose proof (fact_pos m) as F. assert (T0 : 0 <= M ^ m / INR (fact m)) by (apply Rmult_le_pos; [apply pow_le, HM|left; apply Rinv_0_lt_compat, F]).
  rewrite Rabs_right in Hm0 by lra. set (t := M ^ m / INR (fact m)) in *.
  apply (norm_small _ _ _ (C * t)); [apply Rmult_le_pos; assumption|exact Ht| |].
  - intros l i Hl Hi. eapply Rle_trans; [apply term_bound, Hi|]. fold M. fold t. apply Rmult_le_compat_r; [exact T0|].
    apply (rsum_term lines (fun l => rsum N (fun p => Rabs (x l p))) l); [intros; apply CoordProofs.rsum_nonneg; intros; apply Rabs_pos|exact Hl].
  - apply (Rmult_lt_compat_r _ _ _ HD) in Hm0. unfold Rdiv in Hm0. rewrite Rmult_assoc, Rinv_l, Rmult_1_r in Hm0 by lra.
    eapply Rle_lt_trans; [|exact Hm0]. replace ((INR (lines * N) + 1) * (C * t)) with (t * ((INR (lines * N) + 1) * C)) by ring.
    apply Rmult_le_compat_l; [exact T0|]. apply Rmult_le_compat_l; lra.
Qed.
Lemma loop_more tol k lines N dt d : forall fuel n nfac x y fk r, dlt_loop fuel tol k lines N dt n nfac x y fk = Some r -> dlt_loop (fuel + d) tol k lines N dt n nfac x y fk = Some r.
Proof.
  induction fuel as [|fuel IH]; intros n nfac x y fk r E; [discriminate E|]. cbn [dlt_loop Nat.add] in *.
  destruct (Rlt_dec _ tol); [exact E|]. apply IH. exact E.
Qed.
Definition dlt_x (l2c : nat -> bool -> (nat -> R) -> nat -> R) (wl : nat -> R) (k : dlt_kind) (N : nat) (u : nat -> nat -> R) : nat -> nat -> R :=
  if is_backward k then (fun l => l2c N false (u l)) else (fun l i => u l i * wl i).
Lemma dlt_stops l2c xl wl k lines N u tol : (1 <= N)%nat -> 0 < tol ->
  exists fuel0 n out, (1 <= n)%nat /\ forall fuel, (fuel0 <= fuel)%nat -> dlt l2c xl wl fuel tol k lines N u = Some (n, out).
Proof.
  intros HN Ht. set (x0 := dlt_x l2c wl k N u). set (dt := dlt_dtheta xl N).
  destruct (term_vanishes k lines N dt x0 tol 1 Ht) as (m & Hm & Hs).
  destruct (loop_result tol k lines N dt x0 HN m 1%nat 1 x0 (fun _ => 1) (fun l => DCT (dlt_type k) N (x0 l))) as (L1 & L2); cbn [Nat.sub fact INR pow]; auto.
  - intros l i. unfold x_at. cbn [pow]. ring.
  - intros l i. cbn [gsum]. rewrite (first_term k N dt) by exact HN. ring.
  - destruct (L2 m Hm Hs ltac:(lia)) as (m' & out & E & Hm').
    exists m, m'. eexists. split; [apply (L1 m' out E)|]. intros fuel Hf. unfold dlt. fold (dlt_x l2c wl k N u). fold x0. fold dt.
    replace fuel with (m + (fuel - m))%nat by lia. rewrite (loop_more _ _ _ _ _ _ _ _ _ _ _ _ _ E). reflexivity.
Qed.
Lemma dlt_value l2c xl wl fuel tol k lines N u n out : (1 <= N)%nat -> dlt l2c xl wl fuel tol k lines N u = Some (n, out) ->
  let x0 := dlt_x l2c wl k N u in let dt := dlt_dtheta xl N in
  (1 <= n)%nat /\ array_norm lines N (fun l i => d_term k N dt (x0 l) n i) < tol /\
  exists fk, (forall l i, fk l i = rsum (n + 1) (fun q => d_term k N dt (x0 l) q i)) /\
    out = (if is_backward k then (fun l i => fk l (N - 1 - i)%nat) else (fun l i => l2c N true (fk l) i * dlt_nsign k i)).
Proof.
  intros HN E x0 dt. unfold dlt in E. fold (dlt_x l2c wl k N u) in E. fold x0 in E. fold dt in E.
  destruct (dlt_loop _ _ _ _ _ _ _ _ _ _ _) as [[m fk]|] eqn:EL; [|discriminate E]. injection E as <- <-.
  destruct (loop_result tol k lines N dt x0 HN fuel 1%nat 1 x0 (fun _ => 1) (fun l => DCT (dlt_type k) N (x0 l))) as (L1 & _); cbn [Nat.sub fact INR pow]; auto.
  - intros l i. unfold x_at. cbn [pow]. ring.
  - intros l i. cbn [gsum]. rewrite (first_term k N dt) by exact HN. ring.
  - destruct (L1 m fk EL) as (A & B & C). split; [exact A|]. split; [exact B|]. exists fk. split; [exact C|reflexivity].
Qed.

(** ** angles *)
Lemma INR_odd_bounds N i : (i < N)%nat -> 0 < INR (2 * i + 1) < 2 * INR N.
Proof.
  intros H. split; [apply lt_0_INR; lia|]. replace (2 * INR N) with (INR (2 * N)) by (rewrite mult_INR; reflexivity). apply lt_INR. lia.
Qed.
Lemma cheb_angle_range N i : (i < N)%nat -> 0 < cheb_angle N i < PI.
Proof.
  intros H. pose proof (INR_odd_bounds N i H) as (A & B). pose proof PI_RGT_0 as P. unfold cheb_angle.
  assert (HN : 0 < 2 * INR N) by lra. split.
  - apply Rdiv_lt_0_compat; [apply Rmult_lt_0_compat; assumption|exact HN].
  - apply (Rmult_lt_reg_r (2 * INR N)); [exact HN|]. unfold Rdiv. rewrite Rmult_assoc, Rinv_l, Rmult_1_r by lra. apply Rmult_lt_compat_l; assumption.
Qed.
Lemma thetac_angle N i : (i < N)%nat -> dlt_thetac N i = cheb_angle N i.
Proof. intros H. unfold dlt_thetac. fold (cheb_angle N i). pose proof (cheb_angle_range N i H). apply acos_cos. lra. Qed.
Lemma cheb_angle_mirror N i : (i < N)%nat -> cheb_angle N (N - 1 - i) = PI - cheb_angle N i.
Proof.
  intros H. unfold cheb_angle. pose proof (lt_0_INR N ltac:(lia)) as P. replace (2 * (N - 1 - i) + 1)%nat with (2 * N - (2 * i + 1))%nat by lia.
  rewrite minus_INR by lia. rewrite (mult_INR 2 N). change (INR 2) with 2. field. lra.
Qed.
Lemma dtheta_distance xl N i : (i < N)%nat -> Rabs (dlt_dtheta xl N i) = angle_distance xl N (N - 1 - i).
Proof.
  intros H. unfold dlt_dtheta, angle_distance, dlt_thetal. rewrite thetac_angle by exact H. replace (N - 1 - (N - 1 - i))%nat with i by lia. reflexivity.
Qed.
Lemma distance_mirror xl wl N j : rule_points N xl -> symmetric_rule N xl wl -> (j < N)%nat -> angle_distance xl N (N - 1 - j) = angle_distance xl N j.
Proof.
  intros HR HS H. unfold angle_distance. destruct (HS j H) as (-> & _). rewrite acos_opp. replace (N - 1 - (N - 1 - j))%nat with j by lia.
  rewrite (cheb_angle_mirror N j H). rewrite <- Rabs_Ropp. f_equal. ring.
Qed.

(** ** backward *)
Lemma sum_swap_terms N n (x : nat -> R) (a h : nat -> R) :
  rsum (n + 1) (fun q => rsum N (fun p => x p * tay q (a p) (h p))) = rsum N (fun p => x p * (cos (a p + h p) - trem n (a p) (h p))).
Proof.
  rewrite rsum_swap. apply rsum_ext. intros p _. transitivity (x p * rsum (n + 1) (fun q => tay q (a p) (h p))); [apply FormsProofs3.rsum_scal|]. unfold trem. ring.
Qed.
Lemma rem_nonneg n h : 0 <= h -> 0 <= remainder n h.
Proof. intros H. unfold remainder. apply Rmult_le_pos; [apply pow_le, H|left; apply Rinv_0_lt_compat, fact_pos]. Qed.
Lemma backward_error l2c xl wl fuel tol lines N u n out l j c :
  (forall N c, same_function N (l2c N false c) chebT c legL) -> (1 <= N)%nat -> rule_points N xl ->
  dlt l2c xl wl fuel tol Backward lines N u = Some (n, out) -> (j < N)%nat -> same_function N c chebT (u l) legL ->
  Rabs (out l j - leg_series N (u l) (xl j)) <= rsum N (fun k => Rabs (c k) * remainder n (INR k * angle_distance xl N j)).
Proof.
  intros HL HN HR E Hj Hc. destruct (dlt_value _ _ _ _ _ _ _ _ _ _ _ HN E) as (_ & _ & fk & Hfk & ->). cbn [is_backward].
  assert (Ec : forall k, (k < N)%nat -> l2c N false (u l) k = c k).
  { apply cheb_coeffs. intros x. rewrite (HL N (u l) x). symmetry. apply Hc. }
  rewrite Hfk. unfold d_term. cbn [is_backward dlt_x]. rewrite (sum_swap_terms N n).
  assert (EX : leg_series N (u l) (xl j) = rsum N (fun p => l2c N false (u l) p * cos (d_ang Backward N (N - 1 - j) p + d_step Backward (dlt_dtheta xl N) (N - 1 - j) p))).
  { unfold leg_series. rewrite <- (HL N (u l) (xl j)). apply rsum_ext. intros p _. f_equal. unfold d_ang, d_step. cbn [is_backward].
    rewrite <- (thetac_angle N (N - 1 - j)) by lia. unfold dlt_dtheta, dlt_thetal. replace (N - 1 - (N - 1 - j))%nat with j by lia.
    match goal with |- _ = cos ?e => replace e with (INR p * acos (xl j)) by ring end.
    rewrite <- chebT_cos. rewrite cos_acos; [reflexivity|]. apply HR, Hj. }
  rewrite EX. unfold dlt_x. cbn [is_backward].
  match goal with |- Rabs (rsum N ?f - rsum N ?g) <= _ => apply (rsum_bound N f g) end.
  intros p Hp. cbv beta. rewrite <- (Ec p Hp).
  match goal with |- Rabs (?a * (?b - ?t) - ?a * ?b) <= _ => replace (a * (b - t) - a * b) with (- (a * t)) by ring end.
  rewrite Rabs_Ropp, Rabs_mult. apply Rmult_le_compat_l; [apply Rabs_pos|].
  eapply Rle_trans; [apply trem_bound|]. unfold d_step. cbn [is_backward]. rewrite Rabs_mult, (Rabs_right (INR p)) by (apply Rle_ge, pos_INR).
  rewrite dtheta_distance by lia. replace (N - 1 - (N - 1 - j))%nat with j by lia. apply Rle_refl.
Qed.

(** ** scalar product and forward *)
Lemma legL_neg k x : peval (legL k) (- x) = (-1) ^ k * peval (legL k) x.
Proof.
  enough (H : peval (legL k) (- x) = (-1) ^ k * peval (legL k) x /\ peval (legL (S k)) (- x) = (-1) ^ S k * peval (legL (S k)) x) by apply H.
  induction k as [|k (IH1 & IH2)].
  - split; cbn; ring.
  - split; [exact IH2|]. pose proof (MatrixProofs.leg_rec k x) as R1. pose proof (MatrixProofs.leg_rec k (- x)) as R2. rewrite IH1, IH2 in R2. pose proof (pos_INR k) as P.
    apply (Rmult_eq_reg_l (INR k + 2)); [|lra]. rewrite R2.
    replace ((INR k + 2) * ((-1) ^ S (S k) * peval (legL (S (S k))) x)) with ((-1) ^ S (S k) * ((INR k + 2) * peval (legL (S (S k))) x)) by ring.
    rewrite R1. cbn [pow]. ring.
Qed.
Lemma nsign_pow k i : dlt_nsign k i = (-1) ^ i * (match k with Forward => INR i + 1 / 2 | _ => 1 end).
Proof.
  assert (E : (if Nat.odd i then -1 else 1) = (-1) ^ i).
  { induction i as [|i IH]; [reflexivity|]. cbn [pow]. rewrite <- IH. rewrite Nat.odd_succ, <- Nat.negb_odd. destruct (Nat.odd i); cbn [negb]; ring. }
  unfold dlt_nsign. rewrite E. destruct k; ring.
Qed.
Definition delta_at (k i : nat) : R := if (i =? k)%nat then 1 else 0.
Lemma delta_sum N k (f : nat -> R) : (k < N)%nat -> rsum N (fun i => delta_at k i * f i) = f k.
Proof.
  intros H. rewrite <- (InnerProofs5.rsum_delta N k f H). apply rsum_ext. intros i _. unfold delta_at. destruct (i =? k)%nat; ring.
Qed.
Lemma forward_error l2c xl wl fuel tol kind lines N u n out l k a :
  (forall N c, same_function N (l2c N false c) chebT c legL) -> (forall N, adjoint N (l2c N false) (l2c N true)) ->
  (1 <= N)%nat -> rule_points N xl -> symmetric_rule N xl wl -> is_backward kind = false ->
  dlt l2c xl wl fuel tol kind lines N u = Some (n, out) -> (k < N)%nat -> same_function N a chebT (delta_at k) legL ->
  Rabs (out l k - (match kind with Forward => INR k + 1 / 2 | _ => 1 end) * leg_product N xl wl (u l) k) <=
    (match kind with Forward => INR k + 1 / 2 | _ => 1 end) *
    rsum N (fun i => Rabs (a i) * rsum N (fun j => Rabs (u l j * wl j) * remainder n (INR i * angle_distance xl N j))).
Proof.
  intros HL HA HN HR HS HK E Hk Ha. destruct (dlt_value _ _ _ _ _ _ _ _ _ _ _ HN E) as (_ & _ & fk & Hfk & ->). rewrite HK. unfold dlt_x in Hfk. rewrite HK in Hfk.
  assert (Ea : forall i, (i < N)%nat -> l2c N false (delta_at k) i = a i).
  { apply cheb_coeffs. intros x. rewrite (HL N (delta_at k) x). symmetry. apply Ha. }
  set (F := match kind with Forward => INR k + 1 / 2 | _ => 1 end).
  assert (HF : 0 <= F) by (unfold F; pose proof (pos_INR k); destruct kind; lra).
  assert (EA : l2c N true (fk l) k = rsum N (fun i => a i * fk l i)).
  { rewrite <- (delta_sum N k (l2c N true (fk l)) Hk). rewrite <- (HA N (delta_at k) (fk l)). apply rsum_ext. intros i Hi. rewrite (Ea i Hi). reflexivity. }
  set (x := fun j => u l j * wl j).
  assert (EX : (-1) ^ k * leg_product N xl wl (u l) k = rsum N (fun i => a i * rsum N (fun j => x j * cos (d_ang kind N i j + d_step kind (dlt_dtheta xl N) i j)))).
  { unfold leg_product. rewrite <- FormsProofs3.rsum_scal.
    transitivity (rsum N (fun j => x j * rsum N (fun i => a i * peval (chebT i) (- xl j)))).
    - apply rsum_ext. intros j Hj. rewrite (Ha (- xl j)). rewrite (delta_sum N k (fun i => peval (legL i) (- xl j)) Hk). rewrite legL_neg. unfold x. ring.
    - transitivity (rsum N (fun j => rsum N (fun i => a i * (x j * peval (chebT i) (- xl j))))).
      + apply rsum_ext. intros j _. rewrite <- FormsProofs3.rsum_scal. apply rsum_ext. intros i _. ring.
      + rewrite InnerProofs4.rsum_swap. apply rsum_ext. intros i _. rewrite FormsProofs3.rsum_scal. f_equal. apply rsum_ext. intros j Hj. f_equal.
        unfold d_ang, d_step. rewrite HK. rewrite <- (thetac_angle N j) by exact Hj. unfold dlt_dtheta, dlt_thetal.
        match goal with |- _ = cos ?e => replace e with (INR i * acos (xl (N - 1 - j)%nat)) by ring end.
        rewrite <- chebT_cos. rewrite cos_acos; [destruct (HS j Hj) as (-> & _); reflexivity|]. apply HR. lia. }
  rewrite nsign_pow. fold F. rewrite EA.
  assert (SQ : (-1) ^ k * (-1) ^ k = 1) by (rewrite <- Rpow_mult_distr; replace (-1 * -1) with 1 by ring; apply pow1).
  replace (rsum N (fun i => a i * fk l i) * ((-1) ^ k * F) - F * leg_product N xl wl (u l) k)
    with (F * ((-1) ^ k * (rsum N (fun i => a i * fk l i) - (-1) ^ k * leg_product N xl wl (u l) k))).
  2:{ transitivity (F * ((-1) ^ k * rsum N (fun i => a i * fk l i)) - F * (((-1) ^ k * (-1) ^ k) * leg_product N xl wl (u l) k)); [ring|]. rewrite SQ. ring. }
  rewrite Rabs_mult, (Rabs_right F) by lra. apply Rmult_le_compat_l; [exact HF|].
  rewrite Rabs_mult. assert (PA : Rabs ((-1) ^ k) = 1) by (rewrite <- RPow_abs; replace (Rabs (-1)) with 1 by (rewrite Rabs_left; lra); apply pow1).
  rewrite PA, Rmult_1_l, EX.
  match goal with |- Rabs (rsum N ?f - rsum N ?g) <= _ => apply (rsum_bound N f g) end.
  intros i Hi. cbv beta. rewrite Hfk. unfold d_term. rewrite (sum_swap_terms N n (fun p => u l p * wl p)).
  rewrite <- Rmult_minus_distr_l, Rabs_mult. apply Rmult_le_compat_l; [apply Rabs_pos|].
  match goal with |- Rabs (rsum N ?f - rsum N ?g) <= _ => apply (rsum_bound N f g) end.
  intros j Hj. cbv beta. fold (x j).
  match goal with |- Rabs (?a * (?b - ?t) - ?a * ?b) <= _ => replace (a * (b - t) - a * b) with (- (a * t)) by ring end.
  rewrite Rabs_Ropp, Rabs_mult. apply Rmult_le_compat_l; [apply Rabs_pos|].
  eapply Rle_trans; [apply trem_bound|]. unfold d_step. rewrite HK. rewrite Rabs_mult, (Rabs_right (INR i)) by (apply Rle_ge, pos_INR).
  rewrite dtheta_distance by lia. rewrite (distance_mirror xl wl N j) by assumption. apply Rle_refl.
Qed.
