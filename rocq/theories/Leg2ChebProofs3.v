(** Leg2ChebProofs3.v -- the double sums: the coefficients describe the same polynomial. *)
From Coq Require Import Reals ZArith List Arith Bool Lia Lra.
From Verif Require Import Base Fld SparseModel RPoly StencilModel StencilProofs8 MatrixProofs ChebMatrixProofs HelmholtzProofs Leg2ChebModel Leg2ChebProofs Leg2ChebProofs2.
Import ListNotations.
Local Open Scope R_scope.

Lemma reindex_l a g N : rsum N (fun n => guard (Nat.leb a n) (g (n - a)%nat)) = rsum (N - a) g.
Proof.
  induction N as [|N IH]; [reflexivity|]. rewrite rsum_last, IH. unfold guard. destruct (Nat.leb_spec a N).
  - replace (S N - a)%nat with (S (N - a)) by lia. rewrite rsum_last. reflexivity.
  - replace (S N - a)%nat with (N - a)%nat by lia. ring.
Qed.
Lemma reindex_r a g N : rsum N (fun i => guard (Nat.ltb (i + a) N) (g i)) = rsum (N - a) g.
Proof.
  rewrite (rsum_more (N - a) N).
  - apply rsum_ext. intros i Hi. unfold guard. destruct (Nat.ltb_spec (i + a) N); [reflexivity|lia].
  - lia.
  - intros i Hi. unfold guard. destruct (Nat.ltb_spec (i + a) N); [lia|reflexivity].
Qed.
Lemma reindex a g N : rsum N (fun n => guard (Nat.leb a n) (g (n - a)%nat)) = rsum N (fun i => guard (Nat.ltb (i + a) N) (g i)).
Proof. rewrite reindex_l, reindex_r. reflexivity. Qed.
(** Sum over n of terms indexed by (n - 2h, h), gathered by i = n - 2h *)
Lemma gather N H (f : nat -> nat -> R) :
  rsum N (fun n => rsum H (fun h => guard (Nat.leb (2 * h) n) (f (n - 2 * h)%nat h)))
  = rsum N (fun i => rsum H (fun h => guard (Nat.ltb (i + 2 * h) N) (f i h))).
Proof.
  rewrite gsum_swap, (gsum_swap N H (fun i h => guard (Nat.ltb (i + 2 * h) N) (f i h))). apply rsum_ext. intros h Hh. apply (reindex (2 * h) (fun i => f i h)).
Qed.
Lemma guard_scal b x y : guard b (x * y) = x * guard b y. Proof. unfold guard. destruct b; ring. Qed.
Lemma guard_scal_r b x y : guard b (x * y) = guard b x * y. Proof. unfold guard. destruct b; ring. Qed.

Lemma l2c_expansion N c x :
  rsum N (fun k => l2c_val N c k * peval (chebT k) x) = rsum N (fun n => c n * peval (legL n) x).
Proof.
  pose proof PI_RGT_0 as HP. pose proof (evens_pos N) as HE.
  symmetry. set (F := (fun i h => wt i / PI * (Lam h * Lam (h + i) * c (2 * h + i)%nat) * peval (chebT i) x) : nat -> nat -> R).
  rewrite (rsum_ext N _ (fun n => rsum (evens N) (fun h => guard (Nat.leb (2 * h) n)
     (F (n - 2 * h)%nat h)))).
  - rewrite gather. apply rsum_ext. intros i Hi. unfold F. unfold l2c_val.
    rewrite (rsum_ext _ _ (fun h => (wt i / PI * peval (chebT i) x) * guard (Nat.ltb (i + 2 * h) N) (Lam h * Lam (h + i) * c (2 * h + i)%nat))).
    + rewrite rsum_scal. ring.
    + intros h Hh. rewrite <- guard_scal. f_equal. ring.
  - intros n Hn. unfold F. apply (Rmult_eq_reg_l PI); [|lra]. rewrite <- (rsum_scal (evens N) PI).
    transitivity (c n * (PI * peval (legL n) x)); [ring|]. rewrite (leg_cheb n (evens N)) by lia. rewrite <- rsum_scal.
    apply rsum_ext. intros h Hh. unfold guard. destruct (Nat.leb_spec (2 * h) n); [|ring].
    replace (h + (n - 2 * h))%nat with (n - h)%nat by lia. replace (2 * h + (n - 2 * h))%nat with n by lia. field. lra.
Qed.
(** the transposed matrix *)
Lemma l2c_adjoint N c d : rsum N (fun k => l2c_val N c k * d k) = rsum N (fun n => c n * l2c_T_val N d n).
Proof.
  symmetry. set (F := (fun i h => wt i / PI * (Lam h * Lam (h + i) * c (2 * h + i)%nat) * d i) : nat -> nat -> R).
  rewrite (rsum_ext N _ (fun n => rsum (evens N) (fun h => guard (Nat.leb (2 * h) n)
     (F (n - 2 * h)%nat h)))).
  - rewrite gather. apply rsum_ext. intros i Hi. unfold F. unfold l2c_val.
    rewrite (rsum_ext _ _ (fun h => (wt i / PI * d i) * guard (Nat.ltb (i + 2 * h) N) (Lam h * Lam (h + i) * c (2 * h + i)%nat))).
    + rewrite rsum_scal. ring.
    + intros h Hh. rewrite <- guard_scal. f_equal. ring.
  - intros n Hn. unfold F. unfold l2c_T_val. rewrite <- rsum_scal. apply rsum_ext. intros h Hh. unfold guard. destruct (Nat.leb_spec (2 * h) n); cbn [andb]; [|ring].
    destruct (Nat.ltb_spec n N); [|lia]. replace (h + (n - 2 * h))%nat with (n - h)%nat by lia. replace (2 * h + (n - 2 * h))%nat with n by lia. ring.
Qed.

(** ** cheb2leg *)
Lemma mu_pos h : mu (S h) = c2l_dn (S h).
Proof. reflexivity. Qed.
Lemma c2l_full H N v i : (i < N)%nat ->
  c2l_val H N v i = rsum (S H) (fun h => guard (Nat.ltb (i + 2 * h) N) (v (i + 2 * h)%nat * tl i h)).
Proof.
  intros Hi. pose proof sqrtPI_pos as HP. unfold c2l_val. rewrite rsum_first. unfold guard at 2. destruct (Nat.ltb_spec (i + 2 * 0) N); [|lia].
  rewrite Rmult_minus_distr_r. unfold Rminus. f_equal.
  - replace (i + 2 * 0)%nat with i by lia. unfold tl, tau, vnf, c2l_a, mu. rewrite Nat.add_0_r. cbn [Nat.eqb INR]. destruct (Nat.eqb_spec i 0) as [->|Hn].
    + cbn [INR]. field. lra.
    + set (A := 1 / (2 * Lam i * INR i * (INR i + / 2))). ring.
  - match goal with |- - (?X * ?Y) = _ => transitivity ((- Y) * X); [ring|] end. rewrite <- rsum_scal. apply rsum_ext. intros h Hh. cbn [Nat.add].
    unfold guard. replace (i + 2 * S h)%nat with (2 * S h + i)%nat by lia. destruct (Nat.ltb_spec (2 * S h + i) N); [|ring].
    rewrite tl_pos by lia. unfold tau. rewrite mu_pos. replace (i + S h)%nat with (S h + i)%nat by lia. unfold vnf. cbn [Nat.mul Nat.add Nat.eqb].
    replace (S (h + S (h + 0) + i)) with (i + 2 * S h)%nat by lia. rewrite plus_INR, mult_INR. change (INR 2) with 2. ring.
Qed.
Lemma half_lt N : (N - 1 < 2 * S ((N - 1) / 2))%nat.
Proof. pose proof (Nat.div_mod (N - 1) 2 ltac:(lia)). pose proof (Nat.mod_upper_bound (N - 1) 2 ltac:(lia)). lia. Qed.
Lemma c2l_expansion H N v x : (N - 1 < 2 * S H)%nat ->
  rsum N (fun k => c2l_val H N v k * peval (legL k) x) = rsum N (fun n => v n * peval (chebT n) x).
Proof.
  intros HH. symmetry.
  set (F := (fun i h => v (i + 2 * h)%nat * tl i h * peval (legL i) x) : nat -> nat -> R).
  rewrite (rsum_ext N _ (fun n => rsum (S H) (fun h => guard (Nat.leb (2 * h) n) (F (n - 2 * h)%nat h)))).
  - rewrite gather. apply rsum_ext. intros i Hi. unfold F. rewrite c2l_full by exact Hi. rewrite Rmult_comm, <- rsum_scal. apply rsum_ext. intros h Hh. rewrite guard_scal_r. ring.
  - intros n Hn. unfold F. rewrite (cheb_leg n (S H)) by lia. rewrite <- rsum_scal. apply rsum_ext. intros h Hh. unfold tterm, guard.
    destruct (Nat.leb_spec (2 * h) n); [|ring]. replace (n - 2 * h + 2 * h)%nat with n by lia. ring.
Qed.
(** more terms than range(2, N, 2) change nothing *)
Lemma c2l_enough H K N v i : (i < N)%nat -> (N - 1 < 2 * S H)%nat -> (H <= K)%nat -> c2l_val K N v i = c2l_val H N v i.
Proof.
  intros Hi HH HK. rewrite !c2l_full by exact Hi. apply rsum_more; [lia|]. intros h Hh. unfold guard. destruct (Nat.ltb_spec (i + 2 * h) N); [lia|reflexivity].
Qed.

(** ** coefficients are determined by the polynomial *)
Lemma ip_pcomb n c P q : ip q (pcomb n c P) = rsum n (fun i => c i * ip q (P i)).
Proof. induction n as [|n IH]; [apply ip_nil_r|]. cbn [pcomb gsum]. rewrite ip_padd_r, ip_pscale_r, IH. reflexivity. Qed.
Lemma cip_pcomb n c P q : cip q (pcomb n c P) = rsum n (fun i => c i * cip q (P i)).
Proof. induction n as [|n IH]; [apply cip_nil_r|]. cbn [pcomb gsum]. rewrite cip_padd_r, cip_pscale_r, IH. reflexivity. Qed.
Lemma peval_pcomb n c P x : peval (pcomb n c P) x = rsum n (fun i => c i * peval (P i) x).
Proof. exact (deriv_at_pcomb 0 n c P x). Qed.
Lemma rsum_at N k f : (k < N)%nat -> (forall i, (i < N)%nat -> i <> k -> f i = 0) -> rsum N f = f k.
Proof.
  intros Hk Hz. rewrite (rsum_ext N f (fun i => if Nat.eqb i k then f i else 0)).
  - rewrite rsum_one. destruct (Nat.ltb_spec k N); [reflexivity|lia].
  - intros i Hi. destruct (Nat.eqb_spec i k); [reflexivity|]. apply Hz; assumption.
Qed.
Lemma leg_coeffs N a b : (forall x, rsum N (fun k => a k * peval (legL k) x) = rsum N (fun k => b k * peval (legL k) x)) -> forall k, (k < N)%nat -> a k = b k.
Proof.
  intros H k Hk. assert (E : ip (legL k) (pcomb N a legL) = ip (legL k) (pcomb N b legL)).
  { apply ip_ext; [reflexivity|]. intros x. rewrite !peval_pcomb. apply H. }
  rewrite !ip_pcomb in E. pose proof (pos_INR k) as HK.
  rewrite (rsum_at N k (fun i => a i * _)), (rsum_at N k (fun i => b i * _)) in E; try exact Hk; try (intros i Hi Hne; rewrite t00_neq by auto; ring).
  rewrite t00_eq in E. apply (Rmult_eq_reg_r (2 / (2 * INR k + 1))); [exact E|]. apply Rgt_not_eq, Rdiv_lt_0_compat; lra.
Qed.
Lemma cheb_coeffs N a b : (forall x, rsum N (fun k => a k * peval (chebT k) x) = rsum N (fun k => b k * peval (chebT k) x)) -> forall k, (k < N)%nat -> a k = b k.
Proof.
  intros H k Hk. assert (E : cip (chebT k) (pcomb N a chebT) = cip (chebT k) (pcomb N b chebT)).
  { apply cip_ext; [reflexivity|]. intros x. rewrite !peval_pcomb. apply H. }
  rewrite !cip_pcomb in E. pose proof PI_RGT_0 as HK.
  assert (Z : forall i, i <> k -> cip (chebT k) (chebT i) = 0) by (intros i Hi; rewrite cc00; unfold c00; destruct (Nat.eqb_spec k i); [congruence|reflexivity]).
  rewrite (rsum_at N k (fun i => a i * _)), (rsum_at N k (fun i => b i * _)) in E; try exact Hk; try (intros i Hi Hne; rewrite Z by auto; ring).
  rewrite cc00 in E. unfold c00 in E. rewrite Nat.eqb_refl in E. apply (Rmult_eq_reg_r (if Nat.eqb k 0 then PI else PI / 2)); [exact E|]. destruct (Nat.eqb k 0); lra.
Qed.
