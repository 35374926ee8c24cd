(** Leg2ChebProofs.v -- the expansions of Legendre polynomials in Chebyshev polynomials and back. *)
From Coq Require Import Reals ZArith List Arith Bool Lia Lra.
From Verif Require Import Base Fld SparseModel RPoly StencilModel MatrixProofs ChebMatrixProofs HelmholtzProofs Leg2ChebModel.
Import ListNotations.
Local Open Scope R_scope.

Lemma sqrtPI_pos : 0 < sqrt PI.
Proof. apply sqrt_lt_R0, PI_RGT_0. Qed.
Lemma Lam_pos k : 0 < Lam k.
Proof.
  induction k as [|k IH]; cbn [Lam]; [apply sqrtPI_pos|]. pose proof (pos_INR k).
  apply Rmult_lt_0_compat; [apply Rmult_lt_0_compat; lra|]. apply Rinv_0_lt_compat. lra.
Qed.
Lemma Lam_S k : 2 * (INR k + 1) * Lam (S k) = (2 * INR k + 1) * Lam k.
Proof. cbn [Lam]. pose proof (pos_INR k). field. lra. Qed.
Lemma rsum_first n f : rsum (S n) f = f 0%nat + rsum n (fun i => f (S i)).
Proof. induction n as [|n IH]; [cbn; ring|]. change (rsum (S (S n)) f) with (rsum (S n) f + f (S n)). rewrite IH. cbn [gsum]. ring. Qed.
Lemma rsum_last n f : rsum (S n) f = rsum n f + f n. Proof. reflexivity. Qed.

(** T for every integer index *)
Definition Tz (z : Z) (x : R) : R := peval (chebT (Z.abs_nat z)) x.
Lemma Tz_opp z x : Tz (- z) x = Tz z x.
Proof. unfold Tz. f_equal. f_equal. lia. Qed.
Lemma Tz_rec z x : 2 * x * Tz z x = Tz (z + 1) x + Tz (z - 1) x.
Proof.
  assert (P : forall n : nat, 2 * x * Tz (Z.of_nat n) x = Tz (Z.of_nat n + 1) x + Tz (Z.of_nat n - 1) x).
  { intros n. destruct n as [|n].
    - assert (H0 : Tz 0 x = 1) by (unfold Tz; simpl; ring). assert (H1 : Tz 1 x = x) by (unfold Tz; simpl; ring).
      change (Z.of_nat 0 - 1)%Z with (- (1))%Z. rewrite Tz_opp. change (Z.of_nat 0 + 1)%Z with 1%Z. change (Z.of_nat 0) with 0%Z. rewrite H0, H1. ring.
    - unfold Tz. replace (Z.abs_nat (Z.of_nat (S n))) with (S n) by lia. replace (Z.abs_nat (Z.of_nat (S n) + 1)) with (S (S n)) by lia.
      replace (Z.abs_nat (Z.of_nat (S n) - 1)) with n by lia. rewrite chebT_SS. ring. }
  destruct (Z.le_ge_cases 0 z) as [H|H].
  - rewrite <- (Z2Nat.id z) by lia. apply P.
  - specialize (P (Z.to_nat (- z))). rewrite Z2Nat.id in P by lia. rewrite Tz_opp in P. rewrite P.
    rewrite <- (Tz_opp (z + 1)), <- (Tz_opp (z - 1)). replace (- (z + 1))%Z with (- z - 1)%Z by lia. replace (- (z - 1))%Z with (- z + 1)%Z by lia. ring.
Qed.

(** pi L_n = sum over p+q = n of Lam p * Lam q * T_(p-q) *)
Definition sym (n : nat) (x : R) : R := rsum (S n) (fun p => Lam p * Lam (n - p) * Tz (Z.of_nat n - 2 * Z.of_nat p) x).
(** the coefficient identity *)
Lemma sym_coef p q : (INR p + INR q + 2) * (Lam (S p) * Lam (S q)) =
  (2 * (INR p + INR q) + 3) / 2 * (Lam (S p) * Lam q + Lam p * Lam (S q)) - (INR p + INR q + 1) * (Lam p * Lam q).
Proof. cbn [Lam]. pose proof (pos_INR p). pose proof (pos_INR q). field. lra. Qed.
Lemma sym_rec n x : (INR n + 2) * sym (S (S n)) x = (2 * INR n + 3) * x * sym (S n) x - (INR n + 1) * sym n x.
Proof.
  unfold sym. set (t := fun p => Tz (Z.of_nat n + 2 - 2 * Z.of_nat p) x).
  assert (E1 : x * rsum (S (S n)) (fun p => Lam p * Lam (S n - p) * Tz (Z.of_nat (S n) - 2 * Z.of_nat p) x)
     = / 2 * rsum (S (S n)) (fun p => Lam p * Lam (S n - p) * t p) + / 2 * rsum (S (S n)) (fun p => Lam p * Lam (S n - p) * t (S p))).
  { rewrite <- !rsum_scal, <- rsum_add. apply rsum_ext. intros p Hp. unfold t.
    replace (Z.of_nat n + 2 - 2 * Z.of_nat p)%Z with (Z.of_nat (S n) - 2 * Z.of_nat p + 1)%Z by lia.
    replace (Z.of_nat n + 2 - 2 * Z.of_nat (S p))%Z with (Z.of_nat (S n) - 2 * Z.of_nat p - 1)%Z by lia.
    pose proof (Tz_rec (Z.of_nat (S n) - 2 * Z.of_nat p) x) as E. set (u := Tz _ _) in *. clearbody u.
    replace (x * (Lam p * Lam (S n - p) * u)) with (Lam p * Lam (S n - p) * / 2 * (2 * x * u)) by field. rewrite E. field. }
  assert (E0 : rsum (S n) (fun p => Lam p * Lam (n - p) * Tz (Z.of_nat n - 2 * Z.of_nat p) x) = rsum (S n) (fun p => Lam p * Lam (n - p) * t (S p))).
  { apply rsum_ext. intros p Hp. unfold t. replace (Z.of_nat n + 2 - 2 * Z.of_nat (S p))%Z with (Z.of_nat n - 2 * Z.of_nat p)%Z by lia. reflexivity. }
  assert (E2 : rsum (S (S (S n))) (fun p => Lam p * Lam (S (S n) - p) * Tz (Z.of_nat (S (S n)) - 2 * Z.of_nat p) x)
     = rsum (S (S (S n))) (fun p => Lam p * Lam (S (S n) - p) * t p)).
  { apply rsum_ext. intros p Hp. unfold t. replace (Z.of_nat (S (S n)) - 2 * Z.of_nat p)%Z with (Z.of_nat n + 2 - 2 * Z.of_nat p)%Z by lia. reflexivity. }
  rewrite E2, E0. rewrite (Rmult_assoc (2 * INR n + 3)), E1. clear E0 E1 E2.
  rewrite (rsum_first (S (S n))), (rsum_last (S n) (fun i => Lam (S i) * _ * _)).
  rewrite (rsum_first (S n) (fun p => Lam p * Lam (S n - p) * t p)), (rsum_last (S n) (fun p => Lam p * Lam (S n - p) * t (S p))).
  replace (S n - S n)%nat with 0%nat by lia. replace (S (S n) - S (S n))%nat with 0%nat by lia. rewrite !Nat.sub_0_r.
  assert (M : (INR n + 2) * rsum (S n) (fun i => Lam (S i) * Lam (S (S n) - S i) * t (S i))
    = (2 * INR n + 3) * (/ 2 * rsum (S n) (fun i => Lam (S i) * Lam (S n - S i) * t (S i)) + / 2 * rsum (S n) (fun p => Lam p * Lam (S n - p) * t (S p)))
      - (INR n + 1) * rsum (S n) (fun p => Lam p * Lam (n - p) * t (S p))).
  { rewrite <- !rsum_scal, <- rsum_add, <- !rsum_scal. unfold Rminus. rewrite (Ropp_mult_distr_l 1) || idtac.
    match goal with |- _ = ?a + - ?b => replace (a + - b) with (a + (-1) * b) by ring end.
    rewrite <- rsum_scal, <- rsum_add. apply rsum_ext. intros p Hp. cbv beta.
    assert (Hq : exists q, n = (p + q)%nat) by (exists (n - p)%nat; lia). destruct Hq as [q ->].
    replace (S (S (p + q)) - S p)%nat with (S q) by lia. replace (S (p + q) - S p)%nat with q by lia. replace (S (p + q) - p)%nat with (S q) by lia.
    replace (p + q - p)%nat with q by lia. rewrite plus_INR.
    pose proof (sym_coef p q) as E. set (u := t (S p)) in *. clearbody u.
    transitivity ((INR p + INR q + 2) * (Lam (S p) * Lam (S q)) * u); [ring|]. rewrite E. field. }
  assert (B : forall m, (INR m + 2) * Lam (S (S m)) = (2 * INR m + 3) / 2 * Lam (S m)).
  { intros m. pose proof (Lam_S (S m)) as E. rewrite S_INR in E. lra. }
  specialize (B n). set (s1 := rsum _ _) in M. set (s2 := rsum _ _) in M. set (s3 := rsum _ _) in M. set (s4 := rsum _ _) in M.
  fold s1 s2 s3 s4. clearbody s1 s2 s3 s4.
  transitivity ((INR n + 2) * Lam (S (S n)) * (Lam 0 * (t 0%nat + t (S (S n)))) + (INR n + 2) * s1); [ring|]. rewrite B, M. field.
Qed.
Lemma leg_sym n x : PI * peval (legL n) x = sym n x.
Proof.
  assert (H : PI * peval (legL n) x = sym n x /\ PI * peval (legL (S n)) x = sym (S n) x); [|tauto].
  induction n as [|n [IH1 IH2]].
  - assert (Q : sqrt PI * sqrt PI = PI) by (apply sqrt_sqrt; pose proof PI_RGT_0; lra).
    assert (H0 : Tz 0 x = 1) by (unfold Tz; simpl; ring). assert (H1 : Tz 1 x = x) by (unfold Tz; simpl; ring).
    assert (H2 : Tz (-1) x = x) by (unfold Tz; simpl; ring).
    split; unfold sym; cbn [gsum Lam Nat.sub INR].
    + change (Z.of_nat 0 - 2 * Z.of_nat 0)%Z with 0%Z. rewrite H0. replace (peval (legL 0) x) with 1 by (simpl; ring). set (r := sqrt PI) in *. clearbody r. rewrite <- Q. ring.
    + change (Z.of_nat 1 - 2 * Z.of_nat 0)%Z with 1%Z. change (Z.of_nat 1 - 2 * Z.of_nat 1)%Z with (-1)%Z. rewrite H1, H2.
      replace (peval (legL 1) x) with x by (simpl; ring). set (r := sqrt PI) in *. clearbody r. rewrite <- Q. field.
  - split; [exact IH2|]. pose proof (leg_rec n x) as E. pose proof (sym_rec n x) as E2. pose proof (pos_INR n).
    apply (Rmult_eq_reg_l (INR n + 2)); [|lra]. rewrite E2, <- IH1, <- IH2.
    transitivity (PI * ((INR n + 2) * peval (legL (S (S n))) x)); [ring|]. rewrite E. ring.
Qed.

(** ** folding the symmetric sum *)
Definition wt (k : nat) : R := if Nat.eqb k 0 then 1 else 2.
Lemma fold_sym n : forall H f, (n < 2 * H)%nat -> (forall p, (p <= n)%nat -> f p = f (n - p)%nat) ->
  rsum (S n) f = rsum H (fun h => if Nat.leb (2 * h) n then wt (n - 2 * h) * f h else 0).
Proof.
  induction n as [n IH] using lt_wf_ind. intros H f HH Hs. destruct H as [|H]; [lia|]. rewrite rsum_first with (n := H).
  destruct n as [|[|n]].
  - rewrite (rsum_zero H); [change (rsum 1 f) with (0 + f 0%nat); cbn [Nat.mul Nat.add Nat.leb Nat.sub]; unfold wt; cbn [Nat.eqb]; ring|]. intros i Hi. destruct (Nat.leb_spec (2 * S i) 0); [lia|reflexivity].
  - rewrite (rsum_zero H).
    + change (rsum 2 f) with (0 + f 0%nat + f 1%nat). rewrite (Hs 1%nat) by lia. cbn [Nat.mul Nat.add Nat.leb Nat.sub]. unfold wt. cbn [Nat.eqb]. ring.
    + intros i Hi. destruct (Nat.leb_spec (2 * S i) 1); [lia|reflexivity].
  - rewrite (rsum_first (S (S n))), rsum_last. rewrite (IH n ltac:(lia) H (fun i => f (S i))).
    + rewrite (Hs (S (S n))) by lia. rewrite Nat.sub_diag. destruct (Nat.leb_spec (2 * 0) (S (S n))); [|lia].
      rewrite (rsum_ext H (fun i => if Nat.leb (2 * S i) (S (S n)) then _ else _) (fun h => if Nat.leb (2 * h) n then wt (n - 2 * h) * f (S h) else 0)).
      * replace (wt (S (S n) - 2 * 0)) with 2 by reflexivity. ring.
      * intros h Hh. destruct (Nat.leb_spec (2 * S h) (S (S n))); destruct (Nat.leb_spec (2 * h) n); try lia; [|reflexivity].
        replace (S (S n) - 2 * S h)%nat with (n - 2 * h)%nat by lia. reflexivity.
    + lia.
    + intros p Hp. rewrite Hs by lia. f_equal. lia.
Qed.
(** pi L_n as a sum of Chebyshev polynomials *)
Lemma leg_cheb n H x : (n < 2 * H)%nat ->
  PI * peval (legL n) x = rsum H (fun h => if Nat.leb (2 * h) n then wt (n - 2 * h) * (Lam h * Lam (n - h)) * peval (chebT (n - 2 * h)) x else 0).
Proof.
  intros HH. rewrite leg_sym. unfold sym. rewrite (fold_sym n H _ HH).
  - apply rsum_ext. intros h Hh. destruct (Nat.leb_spec (2 * h) n); [|reflexivity]. unfold Tz.
    replace (Z.abs_nat (Z.of_nat n - 2 * Z.of_nat h)) with (n - 2 * h)%nat by lia. ring.
  - intros p Hp. replace (n - (n - p))%nat with p by lia. rewrite <- (Tz_opp (Z.of_nat n - 2 * Z.of_nat (n - p))).
    replace (- (Z.of_nat n - 2 * Z.of_nat (n - p)))%Z with (Z.of_nat n - 2 * Z.of_nat p)%Z by lia. ring.
Qed.

(** ** T_n as a sum of Legendre polynomials *)
(** mu 0 = -sqrt(pi), mu h = Lam (h-1) / (2h) *)
Definition mu (h : nat) : R := if Nat.eqb h 0 then - sqrt PI else Lam (h - 1) / INR (2 * h).
Lemma mu_S h : (INR h + 1) * mu (S h) = (INR h - / 2) * mu h.
Proof.
  unfold mu. cbn [Nat.eqb]. destruct h as [|h].
  - cbn. field.
  - cbn [Nat.eqb]. replace (S (S h) - 1)%nat with (S h) by lia. replace (S h - 1)%nat with h by lia. cbn [Lam]. rewrite !mult_INR, !S_INR. cbn [INR]. pose proof (pos_INR h). field. lra.
Qed.
Lemma c2l_a_S j : (1 <= j)%nat -> c2l_a (S j) * (INR j + 3 / 2) = INR j * c2l_a j.
Proof.
  intros Hj. unfold c2l_a. destruct (Nat.eqb_spec j 0); [lia|]. cbn [Nat.eqb Lam]. rewrite S_INR. pose proof (Lam_pos j). pose proof (lt_0_INR j ltac:(lia)). field. repeat split; lra.
Qed.
Definition tau (k h : nat) : R := - mu h * c2l_a (k + h) * (INR k + 2 * INR h).
(** coefficient of L_k in T_(k+2h) *)
Definition tl (k h : nat) : R := if Nat.eqb (k + h) 0 then 1 else tau k h * (INR k + / 2).
Lemma xL k x : (2 * INR k + 1) * (x * peval (legL k) x) = (INR k + 1) * peval (legL (S k)) x + INR k * peval (legL (k - 1)) x.
Proof.
  destruct k as [|k].
  - simpl. ring.
  - replace (S k - 1)%nat with k by lia. pose proof (leg_rec k x) as E. rewrite S_INR. lra.
Qed.
(** the recurrence of the coefficients, h >= 1 *)
Lemma tau_rec k h : (1 <= k + h)%nat -> (INR k + / 2) * tau k (S h) = INR k * tau (k - 1) (S h) + (INR k + 1) * tau (k + 1) h - (INR k + / 2) * tau k h.
Proof.
  intros Hk. unfold tau. pose proof (mu_S h) as M. rewrite S_INR.
  replace (k + S h)%nat with (S (k + h)) by lia. replace (k + 1 + h)%nat with (S (k + h)) by lia.
  pose proof (c2l_a_S (k + h) Hk) as A. rewrite !plus_INR in A. rewrite (plus_INR k 1). cbn [INR].
  pose proof (pos_INR h) as Hh. pose proof (pos_INR k) as Hk0.
  assert (EM : mu (S h) = (INR h - / 2) * mu h / (INR h + 1)) by (rewrite <- M; field; lra).
  assert (EA : c2l_a (S (k + h)) = (INR k + INR h) * c2l_a (k + h) / (INR k + INR h + 3 / 2)) by (rewrite <- A; field; lra).
  assert (EK : INR k * (- mu (S h) * c2l_a (k - 1 + S h) * (INR (k - 1) + 2 * (INR h + 1))) = INR k * (- mu (S h) * c2l_a (k + h) * (INR k + 2 * INR h + 1))).
  { destruct k as [|k]; [cbn; ring|]. replace (S k - 1 + S h)%nat with (S k + h)%nat by lia. replace (S k - 1)%nat with k by lia. rewrite S_INR. ring. }
  rewrite EK, EM, EA. field. lra.
Qed.
Definition tterm (n h : nat) (x : R) : R := if Nat.leb (2 * h) n then tl (n - 2 * h) h * peval (legL (n - 2 * h)) x else 0.
(** the step: n >= 2 *)
Lemma tl_pos k h : (1 <= k + h)%nat -> tl k h = tau k h * (INR k + / 2).
Proof. intros H. unfold tl. destruct (Nat.eqb_spec (k + h) 0); [lia|reflexivity]. Qed.
Definition up1 (n h : nat) (x : R) : R := if Nat.leb (2 * h) n then tau (n - 2 * h) h * INR (n - 2 * h + 1) * peval (legL (n - 2 * h + 1)) x else 0.
Definition dn1 (n h : nat) (x : R) : R := if Nat.leb (2 * h) n then tau (n - 2 * h) h * INR (n - 2 * h) * peval (legL (n - 2 * h - 1)) x else 0.
Lemma two_x n h x : (1 <= n)%nat -> 2 * x * tterm n h x = up1 n h x + dn1 n h x.
Proof.
  intros Hn. unfold tterm, up1, dn1. destruct (Nat.leb_spec (2 * h) n); [|ring]. rewrite tl_pos by lia. set (k := (n - 2 * h)%nat).
  pose proof (xL k x) as E. replace (k + 1)%nat with (S k) by lia. rewrite S_INR.
  transitivity (tau k h * ((2 * INR k + 1) * (x * peval (legL k) x))); [field|]. rewrite E. ring.
Qed.
Lemma term_0 n x : (1 <= n)%nat -> tterm (S n) 0 x = up1 n 0 x.
Proof.
  intros Hn. unfold tterm, up1. change (2 * 0)%nat with 0%nat. cbn [Nat.leb]. rewrite !Nat.sub_0_r. rewrite tl_pos by lia. replace (n + 1)%nat with (S n) by lia.
  unfold tau. rewrite !Nat.add_0_r. pose proof (c2l_a_S n Hn) as A. rewrite S_INR. cbn [INR].
  pose proof (pos_INR n). assert (EA : c2l_a (S n) = INR n * c2l_a n / (INR n + 3 / 2)) by (rewrite <- A; field; lra). rewrite EA. field. lra.
Qed.
Lemma term_S n h x : (2 <= n)%nat -> tterm (S n) (S h) x = up1 n (S h) x + dn1 n h x - tterm (n - 1) h x.
Proof.
  intros Hn. unfold tterm, up1, dn1. destruct (Nat.leb_spec (2 * S h) (S n)).
  - set (k := (S n - 2 * S h)%nat). destruct (Nat.leb_spec (2 * h) n); [|lia]. destruct (Nat.leb_spec (2 * h) (n - 1)); [|lia].
    replace (n - 2 * h)%nat with (k + 1)%nat by lia. replace (n - 1 - 2 * h)%nat with k by lia. replace (k + 1 - 1)%nat with k by lia.
    rewrite !tl_pos by lia. pose proof (tau_rec k h ltac:(lia)) as E.
    destruct (Nat.leb_spec (2 * S h) n).
    + replace (n - 2 * S h)%nat with (k - 1)%nat by lia. replace (k - 1 + 1)%nat with k by lia. rewrite (plus_INR k 1). cbn [INR].
      transitivity ((INR k + / 2) * tau k (S h) * peval (legL k) x); [ring|]. rewrite E. ring.
    + assert (Hk : k = 0%nat) by lia. rewrite Hk in *. cbn [INR Nat.add] in *. transitivity ((0 + / 2) * tau 0 (S h) * peval (legL 0) x); [ring|]. rewrite E. ring.
  - destruct (Nat.leb_spec (2 * S h) n); [lia|]. destruct (Nat.leb_spec (2 * h) (n - 1)); [lia|]. destruct (Nat.leb_spec (2 * h) n); [|ring].
    replace (n - 2 * h)%nat with 0%nat by lia. cbn [INR]. ring.
Qed.
Lemma cheb_leg n : forall H x, (n < 2 * H)%nat -> peval (chebT n) x = rsum H (fun h => tterm n h x).
Proof.
  assert (Z : forall n H x, (n < 2 * H)%nat -> rsum (S H) (fun h => tterm n h x) = rsum H (fun h => tterm n h x)).
  { intros m H x HH. rewrite rsum_last. unfold tterm at 2. destruct (Nat.leb_spec (2 * H) m); [lia|ring]. }
  assert (ZZ : forall n H K x, (n < 2 * H)%nat -> rsum (H + K) (fun h => tterm n h x) = rsum H (fun h => tterm n h x)).
  { intros m H K x HH. induction K as [|K IH]; [f_equal; lia|]. replace (H + S K)%nat with (S (H + K)) by lia. rewrite Z by lia. exact IH. }
  pose proof sqrtPI_pos as Hp.
  induction n as [n IH] using lt_wf_ind. intros H x HH. destruct n as [|[|[|n]]].
  - replace H with (1 + (H - 1))%nat by lia. rewrite ZZ by lia. cbn [gsum]. unfold tterm. cbn. ring.
  - replace H with (1 + (H - 1))%nat by lia. rewrite ZZ by lia. cbn [gsum]. unfold tterm. cbn [Nat.mul Nat.add Nat.leb Nat.sub]. rewrite tl_pos by lia.
    unfold tau, mu, c2l_a. cbn [Nat.add Nat.eqb Lam INR]. replace (peval (chebT 1) x) with (peval (legL 1) x) by (simpl; ring). field. lra.
  - replace H with (2 + (H - 2))%nat by lia. rewrite ZZ by lia. cbn [gsum]. unfold tterm. cbn [Nat.mul Nat.add Nat.leb Nat.sub]. rewrite !tl_pos by lia.
    unfold tau, mu, c2l_a. cbn [Nat.add Nat.eqb Nat.sub Nat.mul Lam INR].
    pose proof (leg_rec 0 x) as E. cbn [INR] in E. rewrite chebT_SS. replace (peval (chebT 1) x) with x by (simpl; ring). replace (peval (chebT 0) x) with 1 by (simpl; ring).
    replace (peval (legL 1) x) with x in E by (simpl; ring). replace (peval (legL 0) x) with 1 in * by (simpl; ring).
    replace (peval (legL 2) x) with ((3 * x * x - 1) / 2) by lra. field. lra.
  - rewrite chebT_SS. rewrite (IH (S (S n)) ltac:(lia) H x ltac:(lia)), (IH (S n) ltac:(lia) H x ltac:(lia)).
    rewrite <- (Z (S (S (S n))) H x HH), <- (Z (S (S n)) H x ltac:(lia)).
    rewrite <- rsum_scal. rewrite (rsum_ext _ (fun h => 2 * x * tterm (S (S n)) h x) (fun h => up1 (S (S n)) h x + dn1 (S (S n)) h x)) by (intros; apply two_x; lia).
    rewrite rsum_add. rewrite (rsum_first H (fun h => up1 _ h x)), (rsum_last H (fun h => dn1 _ h x)), (rsum_first H (fun h => tterm _ h x)).
    rewrite term_0 by lia. rewrite (rsum_ext H (fun i => tterm (S (S (S n))) (S i) x) (fun h => up1 (S (S n)) (S h) x + (dn1 (S (S n)) h x + (-1) * tterm (S n) h x))).
    + rewrite !rsum_add, rsum_scal. assert (D : dn1 (S (S n)) H x = 0) by (unfold dn1; destruct (Nat.leb_spec (2 * H) (S (S n))); [lia|reflexivity]). rewrite D. ring.
    + intros h Hh. rewrite term_S by lia. replace (S (S n) - 1)%nat with (S n) by lia. ring.
Qed.
