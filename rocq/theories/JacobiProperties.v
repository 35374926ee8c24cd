(** JacobiProperties.v -- C35: the recursion matrices of Jacobi polynomials (jacobi/recursions.py). *)
From Coq Require Import Reals Lra Lia ZArith List Arith.
From Verif Require Import Base Fld Witness SparseModel SparseSpec SparseProperties RPoly StencilProofs JacobiModel JacobiProofs JacobiProofs2 JacobiProofs3 JacobiProofs4 JacobiProofs5.
Import ListNotations.
Local Open Scope R_scope.

(** jacP a b n (RPoly.v) is the Jacobi polynomial P^(a,b)_n given by its three-term recurrence;
    Q_n = g_n P^(a,b)_n is the standardization a family uses (gn = 1, cn, un). *)
Definition Q (g : nat -> R) (a b : R) (n : nat) (x : R) : R := g n * peval (jacP a b n) x.
Definition dQ (g : nat -> R) (a b : R) (k n : nat) (x : R) : R := g n * deriv_at k (jacP a b n) x.
Notation rsum n f := (gsum 0 Rplus n f).

Lemma scaled_sum g (f : matfun) j L v w : (forall n, g n <> 0) ->
  w = rsum L (fun i => f (Z.of_nat i) (Z.of_nat j) * v i) -> g j * w = rsum L (fun i => scaled g f i j * (g i * v i)).
Proof.
  intros Hg ->. rewrite <- StencilProofs8.gsum_scal. apply gsum_ext_R. intros i _. unfold scaled. field. apply Hg.
Qed.

(** *** x Q_j = sum_i a(i,j) Q_i : the recursion matrix A, for every scaling *)
Theorem C35_multiplication_by_x : forall g a b j x, -1 < a -> -1 < b -> (forall n, g n <> 0) ->
  (j = 0%nat -> a + b <> 0 /\ a + b + 1 <> 0) ->
  x * Q g a b j x = rsum (j + 2) (fun i => scaled g (coef_a a b) i j * Q g a b i x).
Proof.
  intros g a b j x Ha Hb Hg H. unfold Q. replace (x * (g j * peval (jacP a b j) x)) with (g j * (x * peval (jacP a b j) x)) by ring.
  apply scaled_sum; auto. apply xP_sum; auto.
Qed.
Print Assumptions C35_multiplication_by_x.

(** after cancellation (what pmat puts in the matrix) there is no restriction on the parameters:
    Legendre (0, 0) and Chebyshev (-1/2, -1/2) are covered *)
Theorem C35_multiplication_by_x_cancelled : forall g a b j x, -1 < a -> -1 < b -> (forall n, g n <> 0) ->
  x * Q g a b j x = rsum (j + 2) (fun i => scaled g (coef_a_s a b) i j * Q g a b i x).
Proof.
  intros g a b j x Ha Hb Hg. unfold Q. replace (x * (g j * peval (jacP a b j) x)) with (g j * (x * peval (jacP a b j) x)) by ring.
  apply scaled_sum; auto. apply xP_sum_s; auto.
Qed.
Print Assumptions C35_multiplication_by_x_cancelled.
(** and it agrees with the formula in the source wherever that is defined *)
Theorem C35_cancellation_is_exact : forall a b, -1 < a -> -1 < b ->
  (forall i j, (0 <= i)%Z -> (j = 0%Z -> a + b <> 0 /\ a + b + 1 <> 0) -> coef_a_s a b i j = coef_a a b i j) /\
  (forall i j, (1 <= i)%Z -> (i = 1%Z -> a + b + 1 <> 0) -> (a <> b -> a + b <> 0) -> coef_b_s a b i j = coef_b a b i j).
Proof. intros a b Ha Hb. split; intros; [apply coef_a_s_raw|apply coef_b_s_raw]; auto. Qed.
Print Assumptions C35_cancellation_is_exact.

(** *** x^q Q_j through the q'th matrix power, any q *)
Theorem C35_powers_of_x : forall a b q j x, -1 < a -> -1 < b ->
  x ^ q * peval (jacP a b j) x =
  rsum (j + q + 1) (fun i => matpow (coef_a_s a b) q (Z.of_nat i) (Z.of_nat j) * peval (jacP a b i) x).
Proof.
  intros a b q j x Ha Hb. apply (pow_rec (coef_a_s a b) (coef_a_s_band a b) (coef_a_s_m1 a b) x (fun i => peval (jacP a b i) x)).
  intros l. apply xP_sum_s; auto.
Qed.
Print Assumptions C35_powers_of_x.

(** *** (1 - x^2) Q_j' = sum_i c(i,j) Q_i *)
Theorem C35_matrix_c : forall g a b j x, -1 < a -> -1 < b -> (forall n, g n <> 0) ->
  (1 - x ^ 2) * dQ g a b 1 j x = rsum (j + 2) (fun i => scaled g (coef_c a b) i j * Q g a b i x).
Proof.
  intros g a b j x Ha Hb Hg. unfold Q, dQ. replace ((1 - x ^ 2) * (g j * deriv_at 1 (jacP a b j) x)) with (g j * ((1 - x ^ 2) * deriv_at 1 (jacP a b j) x)) by ring.
  apply scaled_sum; auto. apply cP_sum; auto.
Qed.
Print Assumptions C35_matrix_c.

(** *** Q_j = sum_i b(i,j) Q_i' *)
Theorem C35_matrix_b : forall g a b j x, -1 < a -> -1 < b -> (forall n, g n <> 0) ->
  (a <> b -> a + b <> 0) -> (j = 0%nat -> a + b + 1 <> 0) ->
  Q g a b j x = rsum (j + 2) (fun i => scaled g (coef_b a b) i j * dQ g a b 1 i x).
Proof. intros g a b j x Ha Hb Hg H1 H2. unfold Q, dQ. apply scaled_sum; auto. apply bP_sum; auto. Qed.
Print Assumptions C35_matrix_b.

(** *** Q_j = sum_i B^q(i,j) d^q Q_i / dx^q, any q: pmat(b, q) *)
Theorem C35_integration_powers : forall a b q j x, -1 < a -> -1 < b ->
  peval (jacP a b j) x = rsum (j + q + 1) (fun i => pmat_b a b q i j * deriv_at q (jacP a b i) x).
Proof. intros. apply b_pow; auto. Qed.
Print Assumptions C35_integration_powers.

(** *** d^k P^(a,b)_n / dx^k = psi P^(a+k,b+k)_(n-k), any k; zero for k > n *)
Theorem C35_psi : forall a b n k x, -1 < a -> -1 < b ->
  deriv_at k (jacP a b n) x =
  if (k <=? n)%nat then psi a b n k * peval (jacP (a + INR k) (b + INR k) (n - k)) x else 0.
Proof.
  intros a b n k x Ha Hb. destruct (Nat.leb_spec k n).
  - replace n with ((n - k) + k)%nat at 1 2 by lia. apply jac_deriv; auto.
  - apply jac_deriv_high; auto.
Qed.
Print Assumptions C35_psi.

(** *** x^q d^k Q_j = sum_i a_(k,q)(i,j) d^k Q_i, any k and q *)
Theorem C35_underlined_a : forall a b k q j x, -1 < a -> -1 < b -> (k <= j)%nat ->
  (k = 0%nat -> a + b <> 0 /\ a + b + 1 <> 0) ->
  x ^ q * deriv_at k (jacP a b j) x =
  rsum (j - k + q + 1) (fun i => coef_a_ k q a b (k + i) j * deriv_at k (jacP a b (k + i)) x).
Proof.
  intros a b k q j x Ha Hb H Hk. replace j with ((j - k) + k)%nat at 1 by lia. rewrite a_deriv by auto.
  apply gsum_ext_R. intros i _. replace (j - k + k)%nat with j by lia. rewrite (Nat.add_comm i k). reflexivity.
Qed.
Print Assumptions C35_underlined_a.

(** *** bnd_values: derivatives of every order of every P_n at the two ends *)
Theorem C35_boundary_values : forall a b k i, -1 < a -> -1 < b ->
  deriv_at k (jacP a b i) (-1) = bnd_left a b k i /\ deriv_at k (jacP a b i) 1 = bnd_right a b k i.
Proof. intros. split; [apply bnd_left_ok|apply bnd_right_ok]; auto. Qed.
Print Assumptions C35_boundary_values.

(** *** ShiftedMatrix: entry (m, n) of the result is entry (m+r, n+s) of A, for every matrix,
    band structure and shift; M, N are as ShiftedMatrix chooses them in its three branches *)
Theorem C35_shifted_matrix : forall (K : Fld) (A : smat K) M N r s,
  wf K A -> sm_scale K A = f1 -> Forall (fun kv => exists n f, snd kv = Arr K n f) (sm_items K A) ->
  (M + r <= sm_rows K A <= M + Nat.max r s)%nat -> (N + s <= sm_cols K A <= N + Nat.max r s)%nat ->
  exists B, shifted K A M N r s = Some B /\ wf K B /\ sm_rows K B = M /\ sm_cols K B = N /\
    forall m n, (m < M)%nat -> (n < N)%nat -> mat_entry K B m n = mat_entry K A (m + r) (n + s).
Proof. intros K A M N r s Hwf Hs Ha HM HN. apply (shifted_correct K (sm_rows K A) (sm_cols K A)); auto. Qed.
Print Assumptions C35_shifted_matrix.
(** ... but it drops the scale of A (A.items() yields the unscaled diagonals) *)
Definition scaled_identity : smat QcFld := mkSmat QcFld 2 2 (qc 2) [(0%Z, Arr QcFld 2 (fun _ => qc 1))].
Theorem C35_shifted_scale_refuted : wf QcFld scaled_identity /\
  exists B, shifted_sparse QcFld scaled_identity 0 0 = Some B /\ mat_entry QcFld B 0 0 <> mat_entry QcFld scaled_identity 0 0.
Proof.
  split; [split; [repeat constructor; simpl; tauto|repeat constructor; simpl; lia]|].
  eexists. split; [reflexivity|]. intros H. assert (qeqb (qc 1) (qc 2) = true) as E by (change (qc 1) with (f1 : QcFld); vm_compute in H; discriminate H).
  discriminate E.
Qed.
Print Assumptions C35_shifted_scale_refuted.

(** non-vacuity: Chebyshev, j = 1: x P_1 has a non-zero coefficient on P_0 and on P_2 *)
Example C35_nonvacuous : -1 < -1/2 /\ coef_a_s (-1/2) (-1/2) 0%Z 1%Z = 1/4 /\ coef_a_s (-1/2) (-1/2) 2%Z 1%Z = 2/3 /\
  matpow (coef_a_s (-1/2) (-1/2)) 2%nat 0%Z 0%Z = 1/2 /\ pmat_b 0 0 2%nat 2%nat 0%nat = 1/3.
Proof.
  split; [lra|]. unfold pmat_b, matpow, matpow_loop, mat_step, coef_a_s, coef_b_s, coef_a, delta. simpl.
  repeat split; try field; lra.
Qed.
Example C35_shift_nonvacuous : let A := mkSmat QcFld 4%nat 5%nat f1 [((-1)%Z, Arr QcFld 3%nat (fun t => qc (Z.of_nat t))); (2%Z, Arr QcFld 3%nat (fun t => qc (10 + Z.of_nat t)%Z))] in
  match shifted_sparse QcFld A 1%nat 2%nat with
  | Some B => (sm_rows QcFld B, sm_cols QcFld B, map fst (sm_items QcFld B), mat_entry QcFld B 2%nat 0%nat, mat_entry QcFld B 0%nat 1%nat)
  | None => (0%nat, 0%nat, [], f0, f0) end = (3%nat, 3%nat, [(-2)%Z; 1%Z], qc 2, qc 11).
Proof. vm_compute. reflexivity. Qed.
