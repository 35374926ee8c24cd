(** EvalProperties.v -- C34: evaluating an expansion returns the sum of coefficients times basis
    functions; one dimension: Clenshaw and three term recursions. *)
From Coq Require Import QArith Qcanon Arith Lia ZArith List Reals Lra Ring Field.
From Verif Require Import Base Fld Witness RPoly StencilProofs JacobiModel JacobiProofs JacobiProofs3 JacobiProofs4 JacobiProperties EvalModel EvalProofs.
From Verif Require StencilProperties.
Import ListNotations.
Local Open Scope nat_scope.

(** *** Clenshaw: chebK n x is T_n(x), by the recurrence T_(n+2) = 2 x T_(n+1) - T_n *)
Theorem C34_clenshaw : forall (K : Fld) (x : K) (c : nat -> K) (N : nat), (1 <= N)%nat ->
  chebval K x c N = fsum N (fun k => fmul (c k) (chebK K k x)).
Proof. intros. apply chebval_correct. assumption. Qed.
Print Assumptions C34_clenshaw.
(** the version used inside the fast Legendre transform has no branch for one coefficient *)
Theorem C34_clenshaw_S_partial : forall (K : Fld) (x : K) (c : nat -> K) (N : nat), (2 <= N)%nat ->
  chebvalS K x c N = fsum N (fun k => fmul (c k) (chebK K k x)).
Proof. intros. apply chebvalS_correct. assumption. Qed.
Print Assumptions C34_clenshaw_S_partial.
(** the polynomial T_n of the stencil theorems (C29) is the same, so chebval(cos t) = sum c_k cos(k t) *)
Lemma chebK_peval n (x : R) : chebK RFld n x = peval (chebT n) x.
Proof.
  assert (chebK RFld n x = peval (chebT n) x /\ chebK RFld (S n) x = peval (chebT (S n)) x) as H; [|apply H].
  induction n as [|n [IH1 IH2]].
  - split; cbn; ring.
  - split; [exact IH2|]. unfold chebT in *. rewrite three_term_SS, !peval_padd, !peval_pscale, peval_pX, <- IH1, <- IH2. rewrite chebK_SS. cbn. ring.
Qed.
Theorem C34_clenshaw_cosine : forall (t : R) (c : nat -> R) (N : nat), (1 <= N)%nat ->
  chebval RFld (cos t) c N = gsum 0%R Rplus N (fun k => c k * cos (INR k * t))%R.
Proof.
  intros t c N HN. rewrite (C34_clenshaw RFld) by exact HN. apply gsum_ext. intros k _. rewrite chebK_peval.
  destruct (StencilProperties.C29_chebyshev_meaning k t) as [H _]. rewrite H. reflexivity.
Qed.
Print Assumptions C34_clenshaw_cosine.
(** 1 + 3 T_1 + 5 T_2 - 2 T_3 at 1/2 is 1 + 3/2 - 5/2 + 2 *)
Example C34_clenshaw_example : chebval QcFld (qcf 1 2) (fun k => match k with 0 => qcf 1 1 | 1 => qcf 3 1 | 2 => qcf 5 1 | _ => qcf (-2) 1 end) 4 = qcf 2 1.
Proof. apply qeqb_true. vm_compute. reflexivity. Qed.

(** *** three term recursions *)
(** every family with P_0 = 1 and x P_n = anm_n P_(n+1) + ann_n P_n + anp_n P_(n-1), anm_n <> 0 *)
Definition family (K : Fld) (a : rec_coeffs K) (P : nat -> K -> K) : Prop :=
  (forall x, P 0%nat x = f1) /\ (forall n x, recursion_of K a P x n) /\ forall n, anm K a n <> f0.
Theorem C34_recursive_evaluation : forall (K : Fld) a P, family K a P ->
  forall (xj u : nat -> K) (M N j : nat), (j < N)%nat ->
  evaluate_expansion_all K a xj u M N j = fsum M (fun k => fmul (u k) (P k (xj j))).
Proof.
  intros K a P (H0 & Hr & Hn) xj u M N j Hj.
  apply (evaluate_expansion_correct K a P xj (M + 2) N); auto.
Qed.
Print Assumptions C34_recursive_evaluation.
(** quadrature sums, numba *)
Theorem C34_recursive_scalar_product : forall (K : Fld) a P, family K a P ->
  forall (xj wj u : nat -> K) (M N : nat) (out0 : nat -> K) (k : nat), (k < M)%nat ->
  scalar_product_numba K a xj wj u M N out0 k = fsum N (fun j => fmul (fmul (P k (xj j)) (wj j)) (u j)).
Proof.
  intros K a P (H0 & Hr & Hn) xj wj u M N out0 k Hk. unfold scalar_product_numba.
  apply (outer_sum K a P xj (M + 2) N) with (f := fun j v => fmul (fmul v (wj j)) (u j)); auto.
  intros j Hj. apply (rec_start_ok K a P xj (M + 2) N); auto. lia.
Qed.
Print Assumptions C34_recursive_scalar_product.
(** Cython: the loops over modes and points have their bounds exchanged, which does not matter when the
    input and output arrays have equal length *)
Theorem C34_recursive_scalar_product_cython_partial : forall (K : Fld) a P, family K a P ->
  forall (xj wj u : nat -> K) (N : nat) (out0 : nat -> K) (k : nat), (k < N)%nat ->
  scalar_product_cython K a xj wj u N N out0 k = fsum N (fun j => fmul (fmul (P k (xj j)) (wj j)) (u j)).
Proof.
  intros K a P (H0 & Hr & Hn) xj wj u N out0 k Hk. unfold scalar_product_cython. cbv zeta.
  apply (outer_sum K a P xj (N + 2) N) with (f := fun j v => fmul (fmul v (wj j)) (u j)); auto.
  intros j Hj. apply (rec_start_ok K a P xj (N + 2) N); auto. lia.
Qed.
Print Assumptions C34_recursive_scalar_product_cython_partial.
(** with more points than modes it sums over the first points only: 3 points, 2 modes *)
Definition chebrec : rec_coeffs QcFld :=
  mkRec QcFld (fun n => if Nat.eqb n 0 then qcf 1 1 else qcf 1 2) (fun _ => qcf 0 1) (fun n => if Nat.eqb n 0 then qcf 0 1 else qcf 1 2).
Lemma chebrec_family : family QcFld chebrec (chebK QcFld).
Proof.
  repeat split.
  - intros n x. unfold recursion_of, chebrec. cbn [anm ann anp]. destruct n as [|n].
    + cbn [Nat.eqb]. change (qcf 1 1) with (f1 : QcFld). change (qcf 0 1) with (f0 : QcFld). cbn. ring.
    + cbn [Nat.eqb]. rewrite chebK_SS. change (qcf 0 1) with (f0 : QcFld). cbn.
      assert (qcf 1 2 + qcf 1 2 = 1)%Qc as E by (apply Qc_is_canon; reflexivity).
      match goal with |- (_ = qcf 1 2 * ((1 + 1) * ?x * ?p - ?q) + 0 * ?r + qcf 1 2 * ?s)%Qc =>
        transitivity ((qcf 1 2 + qcf 1 2) * (x * p))%Qc; [rewrite E; ring|ring] end.
  - intros n. unfold chebrec. cbn [anm]. destruct (Nat.eqb n 0); intros E; apply (f_equal (fun q : Qc => Qnum (this q))) in E; discriminate E.
Qed.
Theorem C34_recursive_scalar_product_cython_refuted : exists (xj wj u out0 : nat -> QcFld) (k : nat), (k < 2)%nat /\
  scalar_product_cython QcFld chebrec xj wj u 3 2 out0 k <> fsum 3 (fun j => fmul (fmul (chebK QcFld k (xj j)) (wj j)) (u j)).
Proof.
  exists (fun _ => qcf 1 2), (fun _ => qcf 1 1), (fun _ => qcf 1 1), (fun _ => qcf 0 1), 0%nat. split; [lia|]. apply qeqb_false. vm_compute. reflexivity.
Qed.
Print Assumptions C34_recursive_scalar_product_cython_refuted.
(** the products of the fast Legendre transform: modes a0 .. a0+M-1, points i0 .. i1-1 *)
Theorem C34_restricted_product : forall (K : Fld) a P, family K a P ->
  forall (xj u : nat -> K) (i0 i1 a0 M : nat) (out0 : nat -> K) (k : nat), (k < M)%nat ->
  let L := fun m j => P (a0 + m)%nat (xj (i0 + j)%nat) in
  let S := fsum (i1 - i0) (fun j => fmul (P (a0 + k)%nat (xj (i0 + j)%nat)) (u (i0 + j)%nat)) in
  restricted_product_numba K a xj (L 0%nat) (L 1%nat) u i0 i1 a0 M out0 k = S /\
  restricted_product_cython K a xj (L 0%nat) (L 1%nat) (L 2%nat) u i0 i1 a0 M out0 k = S.
Proof.
  intros K a P (H0 & Hr & Hn) xj u i0 i1 a0 M out0 k Hk L S. split.
  - apply (restricted_numba_cython K a P xj (a0 + M + 2) u i0 i1 a0 M out0 (L 0%nat) (L 1%nat) (L 2%nat)); auto.
    intros j _. unfold L. rewrite Nat.add_0_r. auto.
  - apply (restricted_cython_correct K a P xj (a0 + M + 2)); auto.
    intros j _. unfold L. rewrite Nat.add_0_r. auto.
Qed.
Print Assumptions C34_restricted_product.
Example C34_recursive_example : exists P, family QcFld chebrec P. Proof. exists (chebK QcFld). exact chebrec_family. Qed.

(** *** Legendre: legendre/bases.py 239-242 get_recursion_matrix.  Diagonal -1 of column j is
    (j+1)/(2j+1); diagonal 1 of column j is entry j-1 of the array (k+1)/(2k+3) *)
Local Open Scope R_scope.
Definition legrec : rec_coeffs RFld :=
  mkRec RFld (fun j => (INR j + 1) / (2 * INR j + 1)) (fun _ => 0) (fun j => (INR (j - 1) + 1) / (2 * INR (j - 1) + 3)).
Theorem C34_legendre_family : family RFld legrec (fun n x => peval (legL n) x).
Proof.
  repeat split.
  - intros x. cbn. ring.
  - intros n x. unfold recursion_of, legrec. cbn [anm ann anp]. change (@fmul RFld) with Rmult. change (@fadd RFld) with Rplus. destruct n as [|n].
    + cbn. field.
    + unfold legL. rewrite three_term_SS, !peval_padd, !peval_pscale, peval_pX. rewrite S_INR. replace (S n - 1)%nat with n by lia.
      pose proof (pos_INR n). match goal with |- _ * ?p = _ => generalize p end. intros p. match goal with |- context [peval ?q x] => generalize (peval q x) end. intros q. change (@eq (car RFld)) with (@eq R). field. split; lra.
  - intros n. unfold legrec. cbn [anm]. change (@f0 RFld) with 0. pose proof (pos_INR n). intros E. apply Rmult_integral in E. destruct E as [E|E]; [lra|].
    apply (Rinv_neq_0_compat (2 * INR n + 1)); lra.
Qed.
Print Assumptions C34_legendre_family.
Theorem C34_legendre_recursive : forall (xj u : nat -> R) (M N j : nat), (j < N)%nat ->
  evaluate_expansion_all RFld legrec xj u M N j = gsum 0 Rplus M (fun k => u k * peval (legL k) (xj j)).
Proof. intros. apply (C34_recursive_evaluation RFld legrec _ C34_legendre_family). assumption. Qed.
Print Assumptions C34_legendre_recursive.

(** *** Jacobi families: spectralbase.py 1352-1354, pmat(a, 1, alpha, beta, M, N, gn); recursions.py 457:
    a diagonal whose formula simplifies to 0 is not stored, and the kernels then use ann = 0 *)
Definition jac_ann (g : nat -> R) (a b : R) (j : nat) : R :=
  if Req_EM_T (a ^ 2 - b ^ 2) 0 then 0 else scaled g (coef_a_s a b) j j.
Definition jacrec (g : nat -> R) (a b : R) : rec_coeffs RFld :=
  mkRec RFld (fun j => scaled g (coef_a_s a b) (S j) j)
             (jac_ann g a b)
             (fun j => scaled g (coef_a_s a b) (j - 1) j).
Theorem C34_jacobi_family_partial : forall g a b, -1 < a -> -1 < b -> g 0%nat = 1 -> (forall n, g n <> 0) ->
  (a = b \/ a + b <> 0) -> family RFld (jacrec g a b) (fun n x => Q g a b n x).
Proof.
  intros g a b Ha Hb Hg0 Hg Hab. repeat split.
  - intros x. unfold Q. rewrite Hg0. cbn. ring.
  - intros n x. unfold recursion_of, jacrec. cbn [anm ann anp]. change (@fmul RFld) with Rmult. change (@fadd RFld) with Rplus. change (@f0 RFld) with 0.
    change (@eq (car RFld)) with (@eq R). rewrite (C35_multiplication_by_x_cancelled g a b n x Ha Hb Hg).
    assert (jac_ann g a b n = scaled g (coef_a_s a b) n n) as ->.
    { unfold jac_ann. destruct (Req_EM_T (a ^ 2 - b ^ 2) 0) as [E|]; [|reflexivity]. assert (a = b) as <-.
      { destruct Hab as [|Hab]; [assumption|]. assert ((a - b) * (a + b) = 0) as E2 by (rewrite <- E; ring). apply Rmult_integral in E2. lra. }
      unfold scaled, coef_a_s. destruct (Z.eqb_spec (Z.of_nat n) 0) as [E0|E0].
      - replace (delta (Z.of_nat n) 1) with 0; [unfold Rdiv; ring|]. rewrite E0. reflexivity.
      - unfold coef_a. cbv zeta. replace (delta (Z.of_nat n + 1) (Z.of_nat n)) with 0 by (symmetry; (apply delta_diff || apply delta_eq); lia).
        replace (delta (Z.of_nat n - 1) (Z.of_nat n)) with 0 by (symmetry; (apply delta_diff || apply delta_eq); lia).
        replace (a ^ 2 - a ^ 2) with 0 by ring. unfold Rdiv. ring. }
    destruct n as [|n].
    + cbn [Nat.add gsum]. ring.
    + replace (S n + 2)%nat with (S (S (S n))) by lia. cbn [gsum]. replace (S n - 1)%nat with n by lia.
      rewrite (StencilProofs.gsum_zero n); [ring|]. intros i Hi. unfold scaled. rewrite coef_a_s_band by lia. ring.
  - intros n. unfold jacrec. cbn [anm]. change (@f0 RFld) with 0. unfold scaled. intros E. apply Rmult_integral in E. destruct E as [E|E].
    + apply Rmult_integral in E. destruct E as [E|E]; [apply (Hg n E)|]. apply (Rinv_neq_0_compat (g (S n)) (Hg _) E).
    + unfold coef_a_s in E. destruct (Z.eqb_spec (Z.of_nat n) 0) as [E0|E0].
      * replace (Z.of_nat (S n)) with 1%Z in E by lia. change (delta 1 0) with 0 in E. change (delta 1 1) with 1 in E.
        assert (2 / (a + b + 2) > 0) by (apply Rdiv_lt_0_compat; lra). lra.
      * unfold coef_a in E. cbv zeta in E. replace (delta (Z.of_nat (S n) + 1) (Z.of_nat n)) with 0 in E by (symmetry; (apply delta_diff || apply delta_eq); lia).
        replace (delta (Z.of_nat (S n)) (Z.of_nat n)) with 0 in E by (symmetry; (apply delta_diff || apply delta_eq); lia).
        replace (delta (Z.of_nat (S n) - 1) (Z.of_nat n)) with 1 in E by (symmetry; (apply delta_diff || apply delta_eq); lia).
        assert (1 <= IZR (Z.of_nat n)) by (apply IZR_le; lia). rewrite !Rmult_0_r, Rminus_0_r, Rplus_0_l, Rmult_1_r in E.
        assert (2 * (IZR (Z.of_nat n) + 1) * (IZR (Z.of_nat n) + a + b + 1) / ((2 * IZR (Z.of_nat n) + a + b + 2) * (2 * IZR (Z.of_nat n) + a + b + 1)) > 0); [|lra].
        apply Rdiv_lt_0_compat; repeat apply Rmult_lt_0_compat; lra.
Qed.
Print Assumptions C34_jacobi_family_partial.
Theorem C34_jacobi_recursive_partial : forall g a b, -1 < a -> -1 < b -> g 0%nat = 1 -> (forall n, g n <> 0) -> (a = b \/ a + b <> 0) ->
  forall (xj u : nat -> R) (M N j : nat), (j < N)%nat ->
  evaluate_expansion_all RFld (jacrec g a b) xj u M N j = gsum 0 Rplus M (fun k => u k * Q g a b k (xj j)).
Proof. intros g a b Ha Hb H0 Hg Hab xj u M N j Hj. apply (C34_recursive_evaluation RFld _ _ (C34_jacobi_family_partial g a b Ha Hb H0 Hg Hab)). assumption. Qed.
Print Assumptions C34_jacobi_recursive_partial.
Example C34_jacobi_example : (1 / 2 : R) = 1 / 2 \/ 1 / 2 + 1 / 2 <> 0. Proof. left; reflexivity. Qed.
(** alpha = - beta <> 0: entry (0, 0) of the matrix is (beta - alpha)/2 but the diagonal is dropped;
    P^(1/2,-1/2)_1 = x + 1/2 is evaluated as x *)
Theorem C34_jacobi_opposite_parameters_refuted : exists (xj u : nat -> R),
  evaluate_expansion_all RFld (jacrec (fun _ => 1) (1 / 2) (- (1 / 2))) xj u 2 1 0 <> gsum 0 Rplus 2 (fun k => u k * Q (fun _ => 1) (1 / 2) (- (1 / 2)) k (xj 0%nat)).
Proof.
  exists (fun _ => 0), (fun k => if Nat.eqb k 1 then 1 else 0). unfold evaluate_expansion_all. cbn [for_up fst]. unfold rec_shift, rec_start, upd. cbn [Lnm Ln Lnp Nat.eqb].
  unfold jacrec, jac_ann. cbn [anm ann anp]. destruct (Req_EM_T ((1 / 2) ^ 2 - (- (1 / 2)) ^ 2) 0) as [_|E]; [|exfalso; apply E; field].
  change (@fmul RFld) with Rmult. change (@fadd RFld) with Rplus. change (@fsub RFld) with Rminus. change (@fdiv RFld) with Rdiv. change (@f0 RFld) with 0. change (@f1 RFld) with 1.
  cbn [gsum Nat.eqb]. unfold Q. cbn [jacP three_term peval]. unfold Rdiv at 1. intros E. ring_simplify in E. lra.
Qed.
Print Assumptions C34_jacobi_opposite_parameters_refuted.
