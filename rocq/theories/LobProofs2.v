(** LobProofs2.v -- the arrays of the Gauss-Lobatto rule, and the transforms. *)
From Coq Require Import Reals List Arith Bool Lia Lra.
From Verif Require Import Base RPoly MatrixSpec MatrixProofs LegMatrixModel LegMatrixSpec BndModel BndProofs LHProofs LHProofs4 GaussRule LobModel LobSpec LobProofs.
Import ListNotations.
Local Open Scope R_scope.

Lemma half_nth N y i : lobatto_half N y -> (i < N / 2 - 1)%nat -> -1 < nth i y 0 < 0 /\ peval (pderiv (legL (N - 1))) (nth i y 0) = 0.
Proof. intros (L & _ & H) Hi. apply H. apply nth_In. lia. Qed.

Lemma half_div N : exists M, (N / 2)%nat = M /\ ((N mod 2 = 0 /\ N = 2 * M) \/ (N mod 2 = 1 /\ N = 2 * M + 1))%nat.
Proof.
  exists (N / 2)%nat. split; [reflexivity|]. pose proof (Nat.div_mod N 2 ltac:(lia)). pose proof (Nat.mod_upper_bound N 2 ltac:(lia)). lia.
Qed.
Ltac par := try change (Nat.eqb 0 0) with true; try change (Nat.eqb 1 0) with false; cbv iota zeta.
Ltac bcase :=
  repeat match goal with
  | |- context [Nat.leb ?a ?b] => destruct (Nat.leb_spec a b)
  | |- context [Nat.ltb ?a ?b] => destruct (Nat.ltb_spec a b)
  | |- context [Nat.eqb ?a ?b] => destruct (Nat.eqb_spec a b)
  end; cbn [andb].
Lemma lob_x_0 N y : (2 <= N)%nat -> lob_x N y 0 = -1.
Proof. intros HN. unfold lob_x. destruct (half_div N) as (M & -> & [[E1 E2]|[E1 E2]]); rewrite E1; par; bcase; try lia; reflexivity. Qed.
Lemma lob_x_last N y : (2 <= N)%nat -> lob_x N y (N - 1) = 1.
Proof. intros HN. unfold lob_x. destruct (half_div N) as (M & -> & [[E1 E2]|[E1 E2]]); rewrite E1; par; bcase; try lia; reflexivity. Qed.
Lemma lob_x_neg N y i : (1 <= i < N / 2)%nat -> lob_x N y i = nth (i - 1) y 0.
Proof. intros H. unfold lob_x. destruct (half_div N) as (M & E & [[E1 E2]|[E1 E2]]); rewrite E in *; rewrite E1; par; bcase; try lia; reflexivity. Qed.
Lemma lob_x_pos N y i : (2 <= N)%nat -> (N - N / 2 <= i < N - 1)%nat -> lob_x N y i = - nth (N - 2 - i) y 0.
Proof.
  intros HN H. unfold lob_x. destruct (half_div N) as (M & E & [[E1 E2]|[E1 E2]]); rewrite E in *; rewrite E1; par; bcase; try lia; f_equal; f_equal; lia.
Qed.
Lemma lob_x_mid N y i : (2 <= N)%nat -> (N / 2 <= i < N - N / 2)%nat -> lob_x N y i = 0 /\ N = (2 * i + 1)%nat.
Proof.
  intros HN H. unfold lob_x. destruct (half_div N) as (M & E & [[E1 E2]|[E1 E2]]); rewrite E in *; rewrite E1; par; [lia|].
  split; [|lia]. bcase; try lia; reflexivity.
Qed.
Lemma lob_regions N i : (2 <= N)%nat -> (i < N)%nat -> (i = 0 \/ 1 <= i < N / 2 \/ (N / 2 <= i < N - N / 2) \/ (N - N / 2 <= i < N - 1) \/ i = N - 1)%nat.
Proof. intros HN Hi. destruct (half_div N) as (M & -> & [[E1 E2]|[E1 E2]]); lia. Qed.
Lemma half_le N : (2 <= N)%nat -> (1 <= N / 2 /\ N / 2 <= N - N / 2)%nat.
Proof. intros HN. destruct (half_div N) as (M & -> & [[E1 E2]|[E1 E2]]); lia. Qed.

Lemma lob_points N y : (2 <= N)%nat -> lobatto_half N y -> lobatto_points N (lob_x N y).
Proof.
  intros HN HY. pose proof (half_le N HN) as [HM HM']. pose proof HY as (Ly & Iy & _).
  assert (Rng : forall i, (i < N)%nat -> match lt_dec 0 i with left _ => match lt_dec i (N / 2) with left _ => -1 < lob_x N y i < 0 | right _ => match lt_dec i (N - N / 2) with left _ => lob_x N y i = 0 | right _ => match lt_dec i (N - 1) with left _ => 0 < lob_x N y i < 1 | right _ => lob_x N y i = 1 end end end | right _ => lob_x N y i = -1 end).
  { intros i Hi. destruct (lt_dec 0 i); [|replace i with 0%nat by lia; apply lob_x_0; exact HN].
    destruct (lt_dec i (N / 2)); [rewrite lob_x_neg by lia; apply (half_nth N y (i - 1) HY); lia|].
    destruct (lt_dec i (N - N / 2)); [apply (lob_x_mid N y i HN); lia|].
    destruct (lt_dec i (N - 1)); [|replace i with (N - 1)%nat by lia; apply lob_x_last; exact HN].
    rewrite lob_x_pos by lia. pose proof (proj1 (half_nth N y (N - 2 - i) HY ltac:(lia))). lra. }
  split; [|split; [apply lob_x_0, HN|split; [apply lob_x_last, HN|]]].
  - intros i j Hij Hj. pose proof (Rng i ltac:(lia)) as A. pose proof (Rng j Hj) as B.
    destruct (lt_dec 0 i), (lt_dec i (N / 2)), (lt_dec i (N - N / 2)), (lt_dec i (N - 1)), (lt_dec 0 j), (lt_dec j (N / 2)), (lt_dec j (N - N / 2)), (lt_dec j (N - 1)); try lia; try lra.
    + rewrite !lob_x_neg by lia. apply Iy; lia.
    + pose proof (lob_x_mid N y i HN ltac:(lia)). pose proof (lob_x_mid N y j HN ltac:(lia)). lia.
    + rewrite !lob_x_pos by lia. pose proof (Iy (N - 2 - j)%nat (N - 2 - i)%nat ltac:(lia) ltac:(lia)). cbv beta in *. lra.
  - intros i Hi. unfold deriv_at. cbn [dn]. destruct (lob_regions N i HN ltac:(lia)) as [C|[C|[C|[C|C]]]]; try lia.
    + rewrite lob_x_neg by lia. apply (half_nth N y (i - 1) HY). lia.
    + destruct (lob_x_mid N y i HN C) as [-> E]. destruct i as [|i]; [lia|]. replace (N - 1)%nat with (S (2 * i + 1)) by lia.
      destruct (leg_odd0 (2 * i + 1)) as [Q|Q]; [exact Q|]. rewrite Nat.even_add, Nat.even_mul in Q. cbn in Q. discriminate.
    + rewrite lob_x_pos by lia. destruct (half_nth N y (N - 2 - i) HY ltac:(lia)) as [L Z]. destruct N as [|[|m]]; try lia. replace (S (S m) - 1)%nat with (S m) in * by lia.
      destruct (leg_dparity m _ Z) as [Q|[Q|Q]]; [exact Q|lra|lra].
Qed.
Lemma lob_sym N y i : (2 <= N)%nat -> (i < N)%nat -> lob_x N y (N - 1 - i) = - lob_x N y i.
Proof.
  intros HN Hi. pose proof (half_le N HN) as [HM HM']. destruct (lob_regions N i HN Hi) as [C|[C|[C|[C|C]]]].
  - subst. rewrite Nat.sub_0_r, lob_x_0, lob_x_last by exact HN. ring.
  - rewrite lob_x_pos, lob_x_neg by lia. f_equal. f_equal. lia.
  - destruct (lob_x_mid N y i HN C) as [E F]. replace (N - 1 - i)%nat with i by lia. rewrite E. ring.
  - rewrite lob_x_neg, lob_x_pos, Ropp_involutive by lia. f_equal. lia.
  - subst. rewrite Nat.sub_diag, lob_x_0, lob_x_last by exact HN. ring.
Qed.
Lemma lob_w_sym N y i : (2 <= N)%nat -> (i < N)%nat -> lob_w N (lob_x N y) (N - 1 - i) = lob_w N (lob_x N y) i.
Proof.
  intros HN Hi. unfold lob_w, lob_den. rewrite lob_sym by assumption. rewrite leg_parity, Rpow_mult_distr, <- pow_mult.
  replace ((N - 1) * 2)%nat with (2 * (N - 1))%nat by lia. rewrite pow_mult. replace ((-1) ^ 2) with 1 by ring. rewrite pow1, Rmult_1_l. reflexivity.
Qed.
(** there is exactly one list of zeros in (-1, 0) *)
Lemma half_exists N : (2 <= N)%nat -> exists y, lobatto_half N y.
Proof.
  intros HN. destruct N as [|[|m]]; try lia. destruct (dzeros m) as (z & I & H).
  set (M := (S (S m) / 2)%nat). assert (HM : (M - 1 <= m /\ 2 * (M - 1) <= m)%nat) by (destruct (half_div (S (S m))) as (M' & E & [[E1 E2]|[E1 E2]]); unfold M; rewrite E; lia).
  exists (map z (seq 0 (M - 1))).
  assert (Nt : forall i, (i < M - 1)%nat -> nth i (map z (seq 0 (M - 1))) 0 = z i).
  { intros i Hi. rewrite (nth_indep _ 0 (z 0%nat)) by (rewrite map_length, seq_length; exact Hi). rewrite map_nth, seq_nth by exact Hi. reflexivity. }
  split; [rewrite map_length, seq_length; reflexivity|]. split.
  - intros i j Hij Hj. fold M in Hj. cbv beta. rewrite !Nt by lia. apply I; lia.
  - intros v Hv. apply in_map_iff in Hv. destruct Hv as (i & <- & Hi). apply in_seq in Hi. destruct (H i ltac:(lia)) as [L Z].
    replace (S (S m) - 1)%nat with (S m) by lia. split; [|exact Z]. split; [lra|].
    pose proof (dzeros_sym m z I H i ltac:(lia)) as E. pose proof (I i (m - 1 - i)%nat ltac:(lia) ltac:(lia)). lra.
Qed.
Lemma points_unique N x x' : (2 <= N)%nat -> lobatto_points N x -> lobatto_points N x' -> forall i, (i < N)%nat -> x i = x' i.
Proof.
  intros HN L L' i Hi. destruct N as [|[|m]]; try lia.
  set (p := padd (pX (pX (pderiv (legL (S m))))) (pscale (-1) (pderiv (legL (S m))))).
  assert (Ep : forall t, peval p t = (t * t - 1) * peval (pderiv (legL (S m))) t) by (intros t; unfold p; rewrite peval_padd, !peval_pX, peval_pscale; ring).
  assert (exists t0, peval p t0 <> 0) as [t0 H0].
  { exists 2. rewrite Ep. intros C. apply Rmult_integral in C. destruct C as [C|C]; [lra|]. destruct (dzeros m) as (z & I & Hz).
    destruct (dzero_in m z 2 I (fun i Hi => proj2 (Hz i Hi)) C) as (k & Hk & E). destruct (Hz k Hk) as [? _]. lra. }
  apply (roots_unique (S (S m)) p x x' t0); auto; try apply L; try apply L'.
  - unfold p. apply deglt_padd; [apply deglt_pX, deglt_pX, dleg_deg|]. apply deglt_pscale. eapply deglt_mono; [|apply dleg_deg]. lia.
  - intros j Hj. rewrite Ep. apply (lob_point_eq (S (S m)) x j HN L Hj).
  - intros j Hj. rewrite Ep. apply (lob_point_eq (S (S m)) x' j HN L' Hj).
Qed.
Lemma half_unique N y y' : (2 <= N)%nat -> lobatto_half N y -> lobatto_half N y' -> y = y'.
Proof.
  intros HN H H'. pose proof H as (L & _). pose proof H' as (L' & _). pose proof (half_le N HN) as [HM HM']. apply (nth_ext y y' 0 0); [lia|]. intros i Hi.
  pose proof (points_unique N _ _ HN (lob_points N y HN H) (lob_points N y' HN H') (S i) ltac:(lia)) as E.
  rewrite !lob_x_neg in E by lia. replace (S i - 1)%nat with i in E by lia. exact E.
Qed.
(** at a zero of the derivative the second derivative does not vanish *)
Lemma leg_ode m x : (x * x - 1) * deriv_at 2 (legL (S m)) x + 2 * x * deriv_at 1 (legL (S m)) x = (INR m + 1) * (INR m + 2) * peval (legL (S m)) x.
Proof.
  unfold deriv_at. cbn [dn].
  pose proof (peq_deriv (padd (pX (pX (pderiv (legL (S m))))) (pscale (-1) (pderiv (legL (S m))))) (pscale (INR m + 1) (padd (pX (legL (S m))) (pscale (-1) (legL m))))) as E.
  assert (E' : forall t, peval (padd (pX (pX (pderiv (legL (S m))))) (pscale (-1) (pderiv (legL (S m))))) t = peval (pscale (INR m + 1) (padd (pX (legL (S m))) (pscale (-1) (legL m)))) t).
  { intros t. rewrite !peval_pscale, !peval_padd, !peval_pX, !peval_pscale. pose proof (leg_C m t). lra. }
  specialize (E E' x). rewrite pderiv_pscale, !pderiv_padd, !pderiv_pX, !pderiv_pscale, ?peval_pX, ?pderiv_pX in E.
  destruct (leg_AB m x) as [_ B]. 
  replace ((INR m + 1) * (peval (legL (S m)) x + x * peval (pderiv (legL (S m))) x + -1 * peval (pderiv (legL m)) x)) with ((INR m + 1) * (peval (legL (S m)) x + (x * peval (pderiv (legL (S m))) x - peval (pderiv (legL m)) x))) in E by ring.
  rewrite B in E. lra.
Qed.
Lemma simple_zero m x : -1 < x < 1 -> deriv_at 1 (legL (S m)) x = 0 -> deriv_at 2 (legL (S m)) x <> 0.
Proof.
  intros L Z C. pose proof (leg_ode m x) as E. rewrite Z, C in E.
  assert (R : peval (legL m) x = x * peval (legL (S m)) x) by (apply lob_rel; rewrite (Z : peval (pderiv (legL (S m))) x = 0); ring).
  pose proof (lob_val_neq m x R) as Q. pose proof (pos_INR m).
  assert (peval (legL (S m)) x = 0) as Q0.
  { assert ((INR m + 1) * (INR m + 2) * peval (legL (S m)) x = 0) as W by lra. apply Rmult_integral in W. destruct W as [W|W]; [|exact W]. apply Rmult_integral in W. lra. }
  rewrite Q0 in Q. lra.
Qed.
Lemma newton_fixed_dx m y : (forall v, In v y -> -1 < v < 0 /\ deriv_at 1 (legL (S m)) v = 0) -> newton_dx (S m) y = Some (map (fun _ => 0) y) /\ sub_list y (map (fun _ => 0) y) = y /\ norm2 (map (fun _ => 0) y) = 0.
Proof.
  induction y as [|v r IH]; intros H; [cbn; unfold norm2; cbn; rewrite sqrt_0; auto|].
  destruct (H v (or_introl eq_refl)) as [L Z]. destruct (IH ltac:(intros q Hq; apply H; right; exact Hq)) as (A & B & C). cbn [newton_dx map].
  destruct (Req_EM_T (deriv_at 2 (legL (S m)) v) 0) as [E|_]; [exfalso; apply (simple_zero m v); auto; lra|]. rewrite A, Z. split; [f_equal; f_equal; unfold Rdiv; ring|]. split.
  - unfold sub_list in *. cbn [combine map fst snd]. rewrite B. f_equal. ring.
  - unfold norm2 in *. cbn [fold_right]. rewrite Rmult_0_l, Rplus_0_l. exact C.
Qed.
(** ** transforms *)
Lemma fwd_bwd N M x w h k (uh : nat -> R) (hm : nat -> R) : (forall i, (i < N)%nat -> hm i <> 0) ->
  (forall a b, (a < N)%nat -> (b < N)%nat -> rsum M (fun i => w i * (peval (legL a) (x i) * peval (legL b) (x i))) = if Nat.eqb a b then h a else 0) -> (k < N)%nat ->
  leg_scalar_product M x w (leg_backward N x uh) k / hm k = h k / hm k * uh k.
Proof.
  intros Hm Ho Hk. unfold leg_scalar_product, leg_backward.
  rewrite (sum_ext M _ (fun q => rsum N (fun j => uh j * (w q * (peval (legL k) (x q) * peval (legL j) (x q)))))).
  2:{ intros q _. rewrite Rmult_assoc, Rmult_comm, <- sum_scal. apply sum_ext. intros j _. ring. }
  rewrite sum_swap, (sum_ext N _ (fun j => if Nat.eqb j k then uh j * h k else 0)).
  - rewrite (sum_delta N k (fun j => uh j * h k) Hk). field. apply Hm, Hk.
  - intros j Hj. rewrite sum_scal, (Ho k j Hk Hj), Nat.eqb_sym. destruct (Nat.eqb j k); ring.
Qed.
Lemma bwd_fwd N x w u hm j : (forall i j, (i < N)%nat -> (j < N)%nat -> w i * rsum N (fun k => peval (legL k) (x i) * peval (legL k) (x j) / hm k) = if Nat.eqb i j then 1 else 0) -> (j < N)%nat ->
  leg_backward N x (fun k => leg_scalar_product N x w u k / hm k) j = u j.
Proof.
  intros D Hj. unfold leg_backward, leg_scalar_product.
  rewrite (sum_ext N _ (fun k => rsum N (fun i => u i * (w i * (peval (legL k) (x i) * peval (legL k) (x j) / hm k))))).
  2:{ intros k _. unfold Rdiv. rewrite <- Rmult_assoc, (Rmult_comm (_ * _) (/ hm k)), <- Rmult_assoc, <- sum_scal. apply sum_ext. intros i _. ring. }
  rewrite sum_swap, (sum_ext N _ (fun i => if Nat.eqb i j then u i else 0)).
  - apply (sum_delta N j u Hj).
  - intros i Hi. rewrite sum_scal, sum_scal, (D i j Hi Hj). destruct (Nat.eqb i j); ring.
Qed.
(** as lists of points and weights *)
Definition rule_list (N : nat) (x w : nat -> R) : list (R * R) := map (fun i => (x i, w i)) (seq 0 N).
Lemma quad_app r s f : quad_sum (r ++ s) f = quad_sum r f + quad_sum s f.
Proof. unfold quad_sum. induction r as [|a r IH]; cbn; [ring|rewrite IH; ring]. Qed.
Lemma quad_rule N x w f : quad_sum (rule_list N x w) f = rsum N (fun i => w i * f (x i)).
Proof.
  induction N as [|N IH]; [reflexivity|]. unfold rule_list in *. rewrite seq_S, map_app, quad_app, IH. cbn. ring.
Qed.
Lemma sum_exact_sharp m M x w :
  (forall k l, (k < m)%nat -> (l <= m)%nat -> rsum M (fun i => w i * (peval (legL k) (x i) * peval (legL l) (x i))) = if Nat.eqb k l then lh k else 0) ->
  rsum M (fun i => w i * (peval (legL m) (x i) * peval (legL m) (x i))) <> lh m ->
  exists p, (length p <= 2 * m + 1)%nat /\ ~ integral (peval p) (-1) 1 (rsum M (fun i => w i * peval p (x i))).
Proof.
  intros Ho Ne.
  destruct (deglt_legL m) as (q & Lq & Eq).   exists (pmul q q). split.
  - assert (LP : forall a b, a <> [] -> b <> [] -> (length (pmul a b) <= length a + length b - 1)%nat).
    { clear. induction a as [|v a IH]; intros b Ha Hb; [congruence|]. cbn [pmul]. rewrite length_padd. unfold pscale. rewrite map_length. unfold pX. cbn [length].
      assert (0 < length b)%nat by (destruct b; [congruence|cbn; lia]).
      destruct a as [|v' a]; [cbn [pmul length]; lia|]. pose proof (IH b ltac:(congruence) Hb). cbn [length] in *. lia. }
    destruct q as [|q0 q]; [cbn; lia|]. pose proof (LP (q0 :: q) (q0 :: q) ltac:(congruence) ltac:(congruence)). lia.
  - intros I. apply Ne.
    pose proof (ip_leg [1] (legL m) (legL m)) as J. unfold leg_inner in J.
    assert (J' : integral (peval (pmul q q)) (-1) 1 (lh m)).
    { apply newton_integral; [lra|apply continuity_peval|]. apply (newton_ext (peval (pmul (legL m) (legL m)))).
      - intros t. rewrite !peval_pmul, Eq. reflexivity.
      - pose proof (newton_F m m) as F. rewrite Nat.eqb_refl in F. exact F. }
    rewrite <- (integral_unique _ _ _ _ _ I J'). apply sum_ext. intros i _. rewrite peval_pmul, Eq. reflexivity.
Qed.
