(** LobProofs.v -- Gauss and Gauss-Lobatto rules of the Legendre family. *)
From Coq Require Import Reals List Arith Bool Lia Lra.
From Verif Require Import Base RPoly MatrixSpec MatrixProofs LegMatrixModel BndModel BndProofs LHProofs LHProofs4 GaussRule LobModel LobSpec.
Import ListNotations.
Local Open Scope R_scope.

Definition la (n : nat) : R := (2 * INR n + 1) / (INR n + 1).
Definition lc (n : nat) : R := INR n / (INR n + 1).
Definition lh (n : nat) : R := 2 / (2 * INR n + 1).
Lemma leg0 x : peval (legL 0) x = 1. Proof. cbn. ring. Qed.
Lemma leg1 x : peval (legL 1) x = la 0 * x + 0. Proof. unfold la. cbn. field. Qed.
Lemma legS n x : peval (legL (S (S n))) x = (la (S n) * x + 0) * peval (legL (S n)) x - lc (S n) * peval (legL n) x.
Proof. pose proof (pos_INR n). pose proof (leg_rec n x) as E. apply (Rmult_eq_reg_l (INR n + 2)); [|lra]. rewrite E. unfold la, lc. rewrite !S_INR. field. lra. Qed.
Lemma la_pos n : 0 < la n. Proof. unfold la. pose proof (pos_INR n). apply Rdiv_lt_0_compat; lra. Qed.
Lemma la_neq n : la n <> 0. Proof. pose proof (la_pos n). lra. Qed.
Lemma lh_pos n : 0 < lh n. Proof. unfold lh. pose proof (pos_INR n). apply Rdiv_lt_0_compat; lra. Qed.
Lemma lac n : lc (S n) * (la n * lh n) = la (S n) * lh (S n).
Proof. unfold la, lc, lh. rewrite !S_INR. pose proof (pos_INR n). field. lra. Qed.
Lemma lalh n : la n * lh n = 2 / (INR n + 1). Proof. unfold la, lh. pose proof (pos_INR n). field. lra. Qed.

Definition leg_CD := t_CD legL la (fun _ => 0) lc lh leg0 leg1 legS la_neq lh_pos lac.
Definition leg_CDc := t_CDc legL la (fun _ => 0) lc lh leg0 leg1 legS la_neq lh_pos lac.
Definition leg_sum_pos := t_sum_pos legL lh leg0 lh_pos.
Definition leg_indep := t_indep legL la (fun _ => 0) lc leg0 leg1 legS la_neq.
Definition leg_zeros := zeros legL la (fun _ => 0) lc lh leg0 leg1 legS lh_pos lac la_pos (-1) 1.

(** ** parity and the ends *)
Lemma leg_parity n x : peval (legL n) (- x) = (-1) ^ n * peval (legL n) x.
Proof.
  assert (peval (legL n) (- x) = (-1) ^ n * peval (legL n) x /\ peval (legL (S n)) (- x) = (-1) ^ S n * peval (legL (S n)) x) as [? ?]; [|assumption].
  induction n as [|n [A B]]; [split; cbn; field|]. split; [exact B|]. rewrite !legS, A, B. cbn [pow]. ring.
Qed.
Lemma leg_d1 n : 0 < peval (pderiv (legL (S n))) 1.
Proof.
  induction n as [|n IH]; [cbn; lra|]. destruct (leg_AB (S n) 1) as [A _]. rewrite legr in A. pose proof (pos_INR (S n)). lra.
Qed.
Lemma leg_dparity m x : peval (pderiv (legL (S m))) x = 0 -> peval (pderiv (legL (S m))) (- x) = 0 \/ x = 1 \/ x = -1.
Proof.
  intros Z. pose proof (leg_C m x) as A. pose proof (leg_C m (- x)) as B. rewrite Z, Rmult_0_r in A. rewrite !leg_parity in B. cbn [pow] in B.
  replace ((INR m + 1) * (- x * (-1 * (-1) ^ m * peval (legL (S m)) x) - (-1) ^ m * peval (legL m) x)) with ((-1) ^ m * ((INR m + 1) * (x * peval (legL (S m)) x - peval (legL m) x))) in B by ring.
  rewrite <- A, Rmult_0_r in B. apply Rmult_integral in B. destruct B as [B|B]; [|left; exact B].
  right. assert ((x - 1) * (x + 1) = 0) as Q by lra. apply Rmult_integral in Q. lra.
Qed.
Lemma leg_odd0 m : peval (pderiv (legL (S m))) 0 = 0 \/ Nat.even m = true.
Proof.
  destruct (Nat.even m) eqn:Em; [right; reflexivity|left].
  pose proof (leg_C m 0) as A. pose proof (leg_parity m 0) as B. rewrite Ropp_0 in B.
  assert ((-1) ^ m = -1) as S1. { assert (Nat.odd m = true) as O by (rewrite <- Nat.negb_even, Em; reflexivity). apply Nat.odd_spec in O. destruct O as [k ->]. rewrite pow_add, pow_mult. replace ((-1) ^ 2) with 1 by ring. rewrite pow1. ring. }
  rewrite S1 in B. assert (peval (legL m) 0 = 0) by lra. rewrite H in A. lra.
Qed.

(** ** the Gauss rule *)
Lemma si_inc n x : strictly_increasing n x -> increasing_pts n x. Proof. auto. Qed.
Lemma lg_weight N x i : (i < S N)%nat -> peval (legL (S N)) (x i) = 0 -> lg_w (S N) x i = gauss_weight legL la lh N x i.
Proof.
  intros Hi Z. unfold lg_w, gauss_weight. rewrite lalh. pose proof (leg_C N (x i)) as C. rewrite Z in C. pose proof (pos_INR N).
  pose proof (leg_CDc N (x i)) as D. rewrite Z, Rmult_0_r, Rminus_0_r, lalh in D. pose proof (leg_sum_pos N (x i)) as S.
  set (s := rsum (Datatypes.S N) (fun k => peval (legL k) (x i) * peval (legL k) (x i) / lh k)) in *.
  set (d := peval (pderiv (legL (Datatypes.S N))) (x i)) in *. set (l := peval (legL N) (x i)) in *.
  assert (E : (1 - x i ^ 2) * d = (INR N + 1) * l). { replace ((1 - x i ^ 2) * d) with (- ((x i * x i - 1) * d)) by ring. rewrite C. ring. }
  assert (0 < d * l). { rewrite <- D. apply Rmult_lt_0_compat; [apply Rdiv_lt_0_compat; lra|exact S]. }
  assert (d <> 0) by (intros Q; rewrite Q in *; lra). assert (l <> 0) by (intros Q; rewrite Q in *; lra).
  replace ((1 - x i ^ 2) * d ^ 2) with (((1 - x i ^ 2) * d) * d) by ring. rewrite E. field. lra.
Qed.
Lemma newton_F k l : newton (peval (pmul (legL k) (legL l))) (-1) 1 (if Nat.eqb k l then lh k else 0).
Proof. pose proof (pint_newton (pmul (legL k) (legL l))) as H. change (pint (pmul (legL k) (legL l))) with (ip (legL k) (legL l)) in H. rewrite t00 in H. exact H. Qed.
Lemma exact_of_orth m M x w :
  (forall k l, (k < m)%nat -> (l <= m)%nat -> rsum M (fun i => w i * (peval (legL k) (x i) * peval (legL l) (x i))) = if Nat.eqb k l then lh k else 0) ->
  exact_below (2 * m) M x w.
Proof.
  intros Ho p L. apply newton_integral; [lra|apply continuity_peval|].
  refine (rule_exact legL la (fun _ => 0) lc lh leg0 leg1 legS la_neq (fun p v => newton (peval p) (-1) 1 v) _ _ _ newton_F m M x w Ho p L).
  - intros p0 q v E H. apply (newton_ext (peval p0)); auto.
  - intros p0 q u v A B. apply (newton_ext (fun t => peval p0 t + peval q t)); [intros t; rewrite peval_padd; reflexivity|apply newton_add; assumption].
  - intros r p0 u A. apply (newton_ext (fun t => r * peval p0 t)); [intros t; rewrite peval_pscale; reflexivity|apply newton_scal; assumption].
Qed.
Lemma lg_orth N x k l : (0 < N)%nat -> gauss_points N x -> (k < N)%nat -> (l <= N)%nat ->
  rsum N (fun i => lg_w N x i * (peval (legL k) (x i) * peval (legL l) (x i))) = if Nat.eqb k l then lh k else 0.
Proof.
  intros H0 (I & Z) Hk Hl. destruct N as [|N]; [lia|].
  rewrite (sum_ext (S N) _ (fun i => gauss_weight legL la lh N x i * (peval (legL k) (x i) * peval (legL l) (x i)))).
  - apply (gauss_orth' legL la (fun _ => 0) lc lh leg0 leg1 legS la_neq lh_pos lac N x (increasing_distinct _ _ I)); auto. intros i Hi. apply Z, Hi.
  - intros i Hi. rewrite lg_weight by (try exact Hi; apply Z, Hi). reflexivity.
Qed.
Lemma lg_dual N x i j : (0 < N)%nat -> gauss_points N x -> (i < N)%nat -> (j < N)%nat ->
  lg_w N x i * rsum N (fun k => peval (legL k) (x i) * peval (legL k) (x j) / lh k) = if Nat.eqb i j then 1 else 0.
Proof.
  intros H0 (I & Z) Hi Hj. destruct N as [|N]; [lia|]. rewrite lg_weight by (try exact Hi; apply Z, Hi).
  apply (gauss_dual legL la (fun _ => 0) lc lh leg0 leg1 legS la_neq lh_pos lac N x (increasing_distinct _ _ I)); auto. intros q Hq. apply Z, Hq.
Qed.
Lemma lg_pos N x i : (0 < N)%nat -> gauss_points N x -> (i < N)%nat -> 0 < lg_w N x i.
Proof.
  intros H0 (I & Z) Hi. destruct N as [|N]; [lia|]. rewrite lg_weight by (try exact Hi; apply Z, Hi).
  apply (gauss_weight_pos legL la (fun _ => 0) lc lh leg0 leg1 legS la_neq lh_pos lac N x); auto. intros q Hq. apply Z, Hq.
Qed.
Lemma gauss_points_exist N : exists x, gauss_points N x.
Proof.
  destruct N as [|N]; [exists (fun _ => 0); split; intros i; lia|].
  destruct (leg_zeros N ltac:(lra)) with (n := N) as (z & I & H); [intros k _; rewrite legr; lra| |lia|].
  - intros k _. rewrite legl, <- Rpow_mult_distr. replace (-1 * -1) with 1 by ring. rewrite pow1. lra.
  - exists z. split; [exact I|]. intros i Hi. destruct (H i Hi) as (A & B & _). auto.
Qed.

(** ** the Gauss-Lobatto rule *)
Lemma lob_rel m x : (x * x - 1) * peval (pderiv (legL (S m))) x = 0 -> peval (legL m) x = x * peval (legL (S m)) x.
Proof. intros Z. rewrite leg_C in Z. pose proof (pos_INR m). apply Rmult_integral in Z. lra. Qed.
Lemma lob_point_eq N x i : (2 <= N)%nat -> lobatto_points N x -> (i < N)%nat -> (x i * x i - 1) * peval (pderiv (legL (N - 1))) (x i) = 0.
Proof.
  intros HN (I & E0 & E1 & Z) Hi. destruct (Nat.eq_dec i 0) as [->|]; [rewrite E0; ring|]. destruct (Nat.eq_dec i (N - 1)) as [->|]; [rewrite E1; ring|].
  rewrite (Z i ltac:(lia) : peval (pderiv (legL (N - 1))) (x i) = 0). ring.
Qed.
Lemma lob_diag m x : peval (legL m) x = x * peval (legL (S m)) x ->
  2 / (INR m + 1) * rsum (S m) (fun k => peval (legL k) x * peval (legL k) x / lh k) = (INR m + 1) * peval (legL (S m)) x ^ 2.
Proof.
  intros R. rewrite <- lalh, leg_CDc. destruct (leg_AB m x) as [_ B]. rewrite R.
  transitivity (peval (legL (S m)) x * (x * peval (pderiv (legL (S m))) x - peval (pderiv (legL m)) x)); [ring|rewrite B; ring].
Qed.
Lemma lob_val_neq m x : peval (legL m) x = x * peval (legL (S m)) x -> 0 < peval (legL (S m)) x ^ 2.
Proof.
  intros R. pose proof (lob_diag m x R) as D. pose proof (leg_sum_pos m x) as S. pose proof (pos_INR m).
  assert (0 < 2 / (INR m + 1) * rsum (Datatypes.S m) (fun k => peval (legL k) x * peval (legL k) x / lh k)) as Q by (apply Rmult_lt_0_compat; [apply Rdiv_lt_0_compat; lra|exact S]).
  rewrite D in Q. destruct (Rle_or_lt (peval (legL (Datatypes.S m)) x ^ 2) 0) as [C|C]; [|exact C]. exfalso.
  assert ((INR m + 1) * peval (legL (Datatypes.S m)) x ^ 2 <= (INR m + 1) * 0) by (apply Rmult_le_compat_l; lra). lra.
Qed.
Definition lobh (N k : nat) : R := leg_l2_norm_sq GL N k.
Lemma lobh_lt N k : (k < N - 1)%nat -> lobh N k = lh k.
Proof. intros H. unfold lobh, leg_l2_norm_sq. destruct (Nat.eqb_spec k (N - 1)); [lia|reflexivity]. Qed.
Lemma lobh_last m : lobh (S (S m)) (S m) = 2 / (INR m + 1).
Proof. unfold lobh, leg_l2_norm_sq. replace (S (S m) - 1)%nat with (S m) by lia. rewrite Nat.eqb_refl. f_equal. rewrite !S_INR. ring. Qed.
Lemma lobh_neq N k : (2 <= N)%nat -> (k < N)%nat -> lobh N k <> 0.
Proof.
  intros HN Hk. destruct (Nat.eq_dec k (N - 1)) as [->|].
  - destruct N as [|[|m]]; try lia. replace (S (S m) - 1)%nat with (S m) by lia. rewrite lobh_last. pose proof (pos_INR m).
    assert (0 < 2 / (INR m + 1)) by (apply Rdiv_lt_0_compat; lra). lra.
  - rewrite lobh_lt by lia. pose proof (lh_pos k). lra.
Qed.
Lemma lob_sum m x y : peval (legL m) x = x * peval (legL (S m)) x -> peval (legL m) y = y * peval (legL (S m)) y ->
  rsum (S (S m)) (fun k => peval (legL k) x * peval (legL k) y / lobh (S (S m)) k) =
  rsum (S m) (fun k => peval (legL k) x * peval (legL k) y / lh k) + (INR m + 1) / 2 * (peval (legL (S m)) x * peval (legL (S m)) y).
Proof.
  intros Rx Ry. change (rsum (S (S m)) ?f) with (rsum (S m) f + f (S m)). cbv beta. rewrite lobh_last. f_equal.
  - apply sum_ext. intros k Hk. rewrite lobh_lt by lia. reflexivity.
  - pose proof (pos_INR m). field. lra.
Qed.
Lemma lob_den_pos N x i : (2 <= N)%nat -> lobatto_points N x -> (i < N)%nat -> 0 < lob_den N x i.
Proof.
  intros HN L Hi. pose proof (lob_point_eq N x i HN L Hi) as Z. destruct N as [|[|m]]; try lia. replace (S (S m) - 1)%nat with (S m) in Z by lia.
  pose proof (lob_val_neq m (x i) (lob_rel _ _ Z)) as Q. unfold lob_den. replace (S (S m) - 1)%nat with (S m) by lia. rewrite !S_INR. pose proof (pos_INR m).
  apply Rmult_lt_0_compat; [apply Rmult_lt_0_compat; lra|exact Q].
Qed.
Lemma lob_dual N x i j : (2 <= N)%nat -> lobatto_points N x -> (i < N)%nat -> (j < N)%nat ->
  lob_w N x i * rsum N (fun k => peval (legL k) (x i) * peval (legL k) (x j) / lobh N k) = if Nat.eqb i j then 1 else 0.
Proof.
  intros HN L Hi Hj. pose proof (lob_point_eq N x i HN L Hi) as Zi. pose proof (lob_point_eq N x j HN L Hj) as Zj. pose proof (lob_den_pos N x i HN L Hi) as Dp.
  unfold lob_w, lob_den in *. destruct N as [|[|m]]; try lia. replace (S (S m) - 1)%nat with (S m) in * by lia.
  apply lob_rel in Zi. apply lob_rel in Zj. rewrite (lob_sum m _ _ Zi Zj). pose proof (pos_INR m) as Pm. rewrite !S_INR in *.
  destruct (Nat.eqb_spec i j) as [<-|Nij].
  - pose proof (lob_diag m (x i) Zi) as D.
    assert (rsum (S m) (fun k => peval (legL k) (x i) * peval (legL k) (x i) / lh k) = (INR m + 1) / 2 * ((INR m + 1) * peval (legL (S m)) (x i) ^ 2)) as -> by (rewrite <- D; field; lra).
    pose proof (lob_val_neq m (x i) Zi) as Q. field. split; [|lra]. intros C. rewrite C in Q. lra.
  - pose proof (leg_CD m (x i) (x j)) as D. rewrite lalh, Zi, Zj in D.
    assert (x i <> x j) as Nx by (apply (increasing_distinct (S (S m)) x (proj1 L)); assumption).
    assert (rsum (S m) (fun k => peval (legL k) (x i) * peval (legL k) (x j) / lh k) = - ((INR m + 1) / 2 * (peval (legL (S m)) (x i) * peval (legL (S m)) (x j)))) as ->.
    { apply (Rmult_eq_reg_l ((x i - x j) * (2 / (INR m + 1)))); [|apply Rmult_integral_contrapositive_currified; [lra|]; assert (0 < 2 / (INR m + 1)) by (apply Rdiv_lt_0_compat; lra); lra].
      rewrite D. field. lra. }
    ring.
Qed.
Lemma lob_orth N x k l : (2 <= N)%nat -> lobatto_points N x -> (k < N)%nat -> (l < N)%nat ->
  rsum N (fun i => lob_w N x i * (peval (legL k) (x i) * peval (legL l) (x i))) = if Nat.eqb k l then lobh N k else 0.
Proof.
  intros HN L Hk Hl. apply (dual_discrete legL N); auto.
  - intros q Hq. eapply deglt_mono; [|apply deglt_legL]. lia.
  - apply leg_indep.
  - apply increasing_distinct, (proj1 L).
  - intros q Hq. apply lobh_neq; assumption.
  - intros i j Hi Hj. apply lob_dual; assumption.
Qed.
Lemma lob_exact N x : (2 <= N)%nat -> lobatto_points N x -> exact_below (2 * N - 2) N x (lob_w N x).
Proof.
  intros HN L. replace (2 * N - 2)%nat with (2 * (N - 1))%nat by lia. apply exact_of_orth. intros k l Hk Hl.
  rewrite lob_orth by (auto; lia). destruct (Nat.eqb k l); [|reflexivity]. apply lobh_lt. lia.
Qed.
Lemma lg_exact N x : (0 < N)%nat -> gauss_points N x -> exact_below (2 * N) N x (lg_w N x).
Proof. intros HN G. apply exact_of_orth. intros k l Hk Hl. apply lg_orth; auto. Qed.

(** ** the zeros of the derivative *)
Lemma dzeros m : exists z, increasing_pts m z /\ forall i, (i < m)%nat -> -1 < z i < 1 /\ peval (pderiv (legL (S m))) (z i) = 0.
Proof.
  destruct (gauss_points_exist (S m)) as (x & I & H).
  destruct (finite_choice m (fun i y => x i < y < x (S i) /\ peval (pderiv (legL (S m))) y = 0)) as [z Hz].
  { intros i Hi. destruct (MVT_cor2 (peval (legL (S m))) (peval (pderiv (legL (S m)))) (x i) (x (S i))) as (y & E & L).
    - apply I; lia.
    - intros y _. apply pderiv_correct.
    - exists y. split; [exact L|]. rewrite (proj2 (H (S i) ltac:(lia))), (proj2 (H i ltac:(lia))) in E. rewrite Rminus_0_r in E. symmetry in E. apply Rmult_integral in E.
      destruct E as [E|E]; [exact E|]. pose proof (I i (S i) ltac:(lia) ltac:(lia)). lra. }
  exists z. split.
  - intros i j Hij Hj. destruct (Hz i ltac:(lia)) as [[_ A] _]. destruct (Hz j Hj) as [[B _] _].
    destruct (Nat.eq_dec (S i) j) as [<-|]; [lra|]. pose proof (I (S i) j ltac:(lia) ltac:(lia)). lra.
  - intros i Hi. destruct (Hz i Hi) as [[A B] C]. split; [|exact C]. destruct (H i ltac:(lia)) as [? _]. destruct (H (S i) ltac:(lia)) as [? _]. lra.
Qed.
Lemma dleg_deg m : deglt (S m) (pderiv (legL (S m))).
Proof. apply (deglt_pderiv (S (S m))), deglt_legL. Qed.
Lemma dleg_nz m : peval (pderiv (legL (S m))) 1 <> 0. Proof. pose proof (leg_d1 m). lra. Qed.
(** every zero of the derivative is one of them *)
Lemma dzero_in m z t : increasing_pts m z -> (forall i, (i < m)%nat -> peval (pderiv (legL (S m))) (z i) = 0) -> peval (pderiv (legL (S m))) t = 0 -> exists i, (i < m)%nat /\ z i = t.
Proof.
  intros I Z Zt. destruct (factor m _ z (dleg_deg m) (increasing_distinct _ _ I) Z) as [cc F].
  rewrite F in Zt. pose proof (dleg_nz m) as N1. rewrite F in N1. apply Rmult_integral in Zt. destruct Zt as [C|C]; [rewrite C in N1; lra|].
  clear - C. induction m as [|m IH]; [cbn in C; lra|]. cbn in C. apply Rmult_integral in C. destruct C as [C|C]; [destruct (IH C) as (i & A & B); exists i; split; [lia|exact B]|].
  exists m. split; [lia|lra].
Qed.
(** they are symmetric *)
Lemma dzeros_sym m z : increasing_pts m z -> (forall i, (i < m)%nat -> -1 < z i < 1 /\ peval (pderiv (legL (S m))) (z i) = 0) -> forall i, (i < m)%nat -> z (m - 1 - i)%nat = - z i.
Proof.
  intros I H i Hi.
  assert (E : z (m - 1 - i)%nat = (fun j => - z (m - 1 - j)%nat) (m - 1 - i)%nat).
  { apply (roots_unique m (pderiv (legL (S m))) z (fun j => - z (m - 1 - j)%nat) 1 (dleg_deg m) (dleg_nz m) I); [| | |lia].
    - intros a b Hab Hb. pose proof (I (m - 1 - b)%nat (m - 1 - a)%nat ltac:(lia) ltac:(lia)). lra.
    - intros a Ha. apply H, Ha.
    - intros a Ha. destruct (H (m - 1 - a)%nat ltac:(lia)) as [L Z]. destruct (leg_dparity m _ Z) as [Q|[Q|Q]]; [exact Q|lra|lra]. }
  cbv beta in E. replace (m - 1 - (m - 1 - i))%nat with i in E by lia. exact E.
Qed.

(** ** Newton's method: after a step of size d the distance to some zero is at most (degree + 1) d *)
Lemma pderiv_proots n z x : (forall i, (i < n)%nat -> x <> z i) -> peval (pderiv (proots n z)) x = rprod n (fun i => x - z i) * rsum n (fun i => / (x - z i)).
Proof.
  induction n as [|n IH]; intros H; [cbn; ring|]. cbn [proots rprod]. rewrite pderiv_padd, pderiv_pX, pderiv_pscale, peval_proots, IH by (intros; apply H; lia).
  change (rsum (S n) (fun i => / (x - z i))) with (rsum n (fun i => / (x - z i)) + / (x - z n)). pose proof (H n ltac:(lia)). field. lra.
Qed.
Lemma rsum_inv_bound n x (z : nat -> R) r : 0 < r -> (forall i, (i < n)%nat -> r < Rabs (x - z i)) -> Rabs (rsum n (fun i => / (x - z i))) <= INR n * / r /\ ((0 < n)%nat -> Rabs (rsum n (fun i => / (x - z i))) < INR n * / r).
Proof.
  intros Hr. induction n as [|n IH]; intros H.
  - cbn. rewrite Rabs_R0. split; [lra|lia].
  - destruct (IH ltac:(intros; apply H; lia)) as [B _]. change (rsum (S n) (fun i => / (x - z i))) with (rsum n (fun i => / (x - z i)) + / (x - z n)).
    pose proof (Rabs_triang (rsum n (fun i => / (x - z i))) (/ (x - z n))) as T. pose proof (H n ltac:(lia)) as Q.
    assert (x - z n <> 0) as N0 by (intros C; rewrite C, Rabs_R0 in Q; lra).
    assert (Rabs (/ (x - z n)) < / r) as V. { rewrite Rabs_inv. apply Rinv_lt_contravar; [apply Rmult_lt_0_compat; lra|exact Q]. }
    rewrite S_INR, Rmult_plus_distr_r, Rmult_1_l. split; [|intros _]; lra.
Qed.
Lemma near_root m p z x : (0 < m)%nat -> deglt (S m) p -> distinct_pts m z -> (forall i, (i < m)%nat -> peval p (z i) = 0) -> peval (pderiv p) x <> 0 ->
  exists i, (i < m)%nat /\ Rabs (x - z i) <= INR m * Rabs (peval p x / peval (pderiv p) x).
Proof.
  intros Hm Dp D Z Nz. destruct (factor m p z Dp D Z) as [cc F].
  assert (dec : (exists i, (i < m)%nat /\ Rabs (x - z i) <= INR m * Rabs (peval p x / peval (pderiv p) x)) \/ (forall i, (i < m)%nat -> INR m * Rabs (peval p x / peval (pderiv p) x) < Rabs (x - z i))).
  { set (r := INR m * Rabs (peval p x / peval (pderiv p) x)). clearbody r. clear - m.
    induction m as [|m [(i & A & B)|IH]]; [right; intros; lia|left; exists i; split; [lia|exact B]|].
    destruct (Rle_or_lt (Rabs (x - z m)) r) as [L|L]; [left; exists m; split; [lia|exact L]|right]. intros i Hi. destruct (Nat.eq_dec i m) as [->|]; [exact L|apply IH; lia]. }
  destruct dec as [Y|G]; [exact Y|exfalso].
  assert (Nx : forall i, (i < m)%nat -> x <> z i). { intros i Hi C. pose proof (G i Hi) as Q. rewrite C, Rminus_diag_eq, Rabs_R0 in Q by reflexivity. pose proof (pos_INR m). pose proof (Rabs_pos (peval p (z i) / peval (pderiv p) (z i))). pose proof (Rmult_le_pos _ _ H H0). lra. }
  assert (Dv : peval (pderiv p) x = peval p x * rsum m (fun i => / (x - z i))).
  { rewrite (peq_deriv p (pscale cc (proots m z))) by (intros y; rewrite peval_pscale, peval_proots; apply F). rewrite pderiv_pscale, pderiv_proots, F by exact Nx. ring. }
  assert (P0 : peval p x <> 0) by (intros C; rewrite C, Rmult_0_l in Dv; contradiction).
  set (s := rsum m (fun i => / (x - z i))) in *. assert (s <> 0) by (intros C; rewrite C, Rmult_0_r in Dv; contradiction).
  assert (Q : peval p x / peval (pderiv p) x = / s) by (rewrite Dv; field; auto). rewrite Q in G.
  assert (0 < INR m) by (apply lt_0_INR; exact Hm). assert (0 < Rabs (/ s)) by (apply Rabs_pos_lt, Rinv_neq_0_compat; assumption).
  destruct (rsum_inv_bound m x z (INR m * Rabs (/ s)) ltac:(apply Rmult_lt_0_compat; assumption) G) as [_ B]. specialize (B Hm). fold s in B.
  rewrite Rabs_inv in B. assert (0 < Rabs s) by (apply Rabs_pos_lt; assumption).
  replace (INR m * / (INR m * / Rabs s)) with (Rabs s) in B by (field; lra). lra.
Qed.
Definition near (N : nat) (e v : R) : Prop := exists z, -1 < z < 1 /\ deriv_at 1 (legL (N - 1)) z = 0 /\ Rabs (v - z) <= (INR N - 1) * e.
Lemma norm2_ge d r : In d r -> Rabs d <= norm2 r.
Proof.
  intros H. unfold norm2. assert (0 <= fold_right (fun d acc => d * d + acc) 0 r) as _.
  { clear H. induction r; cbn; [lra|]. pose proof (Rle_0_sqr a). unfold Rsqr in *. lra. }
  assert (d * d <= fold_right (fun d acc => d * d + acc) 0 r) as B.
  { assert (P : forall s, 0 <= fold_right (fun d acc => d * d + acc) 0 s) by (induction s; cbn; [lra|]; pose proof (Rle_0_sqr a); unfold Rsqr in *; lra).
    induction r as [|a r IH]; [contradiction|]. cbn. destruct H as [->|H]; [pose proof (P r); lra|]. pose proof (IH H). pose proof (Rle_0_sqr a). unfold Rsqr in *. lra. }
  rewrite <- sqrt_Rsqr_abs. apply sqrt_le_1_alt. exact B.
Qed.
Lemma newton_dx_length n y dx : newton_dx n y = Some dx -> length dx = length y.
Proof. revert dx. induction y as [|v r IH]; intros dx H; cbn in H; [injection H as <-; reflexivity|]. destruct (Req_EM_T _ _); [discriminate|]. destruct (newton_dx n r) as [d|]; [|discriminate]. injection H as <-. cbn. rewrite (IH d); reflexivity. Qed.
Lemma step_near N y dx : (3 <= N)%nat -> newton_dx (N - 1) y = Some dx -> Forall (near N (norm2 dx)) (sub_list y dx).
Proof.
  intros HN H.
  assert (G : forall e y dx, newton_dx (N - 1) y = Some dx -> (forall d, In d dx -> Rabs d <= e) -> Forall (near N e) (sub_list y dx)).
  { clear y dx H. intros e. induction y as [|v r IH]; intros dx H B; cbn [newton_dx] in H; [injection H as <-; constructor|].
    destruct (Req_EM_T (deriv_at 2 (legL (N - 1)) v) 0) as [|Nz]; [discriminate|]. destruct (newton_dx (N - 1) r) as [d|] eqn:Ed; [|discriminate]. injection H as <-.
    unfold sub_list. cbn [combine map fst snd]. constructor; [|apply IH; [reflexivity|intros q Hq; apply B; right; exact Hq]].
    specialize (B _ (or_introl eq_refl)). destruct N as [|[|[|m]]]; try lia. unfold near. replace (S (S (S m)) - 1)%nat with (S (S m)) in * by lia.
    destruct (dzeros (S m)) as (z & I & Hz).
    destruct (near_root (S m) (pderiv (legL (S (S m)))) z v ltac:(lia) (dleg_deg (S m)) (increasing_distinct _ _ I) (fun i Hi => proj2 (Hz i Hi)) Nz) as (i & Hi & L).
    exists (z i). destruct (Hz i Hi) as [A Z]. split; [exact A|]. split; [exact Z|].
    change (peval (pderiv (legL (S (S m)))) v) with (deriv_at 1 (legL (S (S m))) v) in L.
    change (peval (pderiv (pderiv (legL (S (S m))))) v) with (deriv_at 2 (legL (S (S m))) v) in L.
    set (q := deriv_at 1 (legL (S (S m))) v / deriv_at 2 (legL (S (S m))) v) in *.
    replace (v - q - z i) with ((v - z i) + - q) by ring. eapply Rle_trans; [apply Rabs_triang|]. rewrite Rabs_Ropp.
    pose proof (Rabs_pos q). pose proof (pos_INR (S m)). assert (INR (S m) * Rabs q <= INR (S m) * e) by (apply Rmult_le_compat_l; lra). rewrite !S_INR in *. lra. }
  apply G; [exact H|]. intros d Hd. apply norm2_ge, Hd.
Qed.
Lemma newton_near N tol : (3 <= N)%nat -> forall k prev y y' e, newton_loop (S k) (N - 1) tol prev y = Some (y', e) -> length y' = length y /\ Forall (near N e) y'.
Proof.
  intros HN. assert (LS : forall (y dx : list R), length dx = length y -> length (sub_list y dx) = length y) by (intros y dx E; unfold sub_list; rewrite map_length, combine_length; lia).
  induction k as [|k IH]; intros prev y y' e H; cbn [newton_loop] in H; destruct (newton_dx (N - 1) y) as [dx|] eqn:E; try discriminate; cbv zeta in H;
    pose proof (LS y dx (newton_dx_length _ _ _ E)) as L; pose proof (step_near N y dx HN E) as S.
  - destruct (Rlt_dec _ _); [|destruct (Rlt_dec _ _)]; injection H as <- <-; auto.
  - destruct (Rlt_dec _ _); [injection H as <- <-; auto|]. destruct (Rlt_dec _ _); [injection H as <- <-; auto|].
    apply IH in H. destruct H as [A B]. split; [lia|exact B].
Qed.
