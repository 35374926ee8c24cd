(** UTransProperties.v -- C55: the transforms of the Chebyshev family of the second kind. *)
From Coq Require Import Reals Lra Lia List Arith ZArith.
From Verif Require Import Base Fld SparseModel SparseSpec RPoly MatrixSpec StencilModel StencilModel2 StencilSpec StencilProofs StencilProofs8 StencilProofs9 ChebTransModel ChebTransProofs
  UTransModel UTransSpec UTransProofs UTransProofs2 UTransProofs3.
Import ListNotations.
Local Open Scope R_scope.

(** ** the orthogonal space *)
(** backward evaluates the expansion in U_0, ..., U_(N-1) at the quadrature points *)
Theorem C55_backward_values : forall q N c, (0 < N)%nat ->
  yields (u_backward q N N c) N (fun i => rsum N (fun k => c k * peval (chebU k) (u_point q N i))).
Proof. exact backward_values. Qed.
Print Assumptions C55_backward_values.
(** scalar_product is the weighted quadrature with every polynomial (the weights divided by the domain factor) *)
Theorem C55_scalar_product_values : forall q N df u, (0 < N)%nat -> df <> 0 ->
  yields (u_scalar_product q N N df u) N (fun k => rsum N (fun i => u_weight q N i / df * u i * peval (chebU k) (u_point q N i))).
Proof. exact scalar_values. Qed.
Print Assumptions C55_scalar_product_values.
Theorem C55_forward_backward : forall q N df c v, (0 < N)%nat -> df <> 0 -> u_backward q N N c = Some v -> yields (u_forward q N N df v) N c.
Proof. exact fwd_bck. Qed.
Print Assumptions C55_forward_backward.
Theorem C55_backward_forward : forall q N df u b, (0 < N)%nat -> df <> 0 -> u_forward q N N df u = Some b -> yields (u_backward q N N b) N u.
Proof. exact bck_fwd. Qed.
Print Assumptions C55_backward_forward.
(** the diagonal of the mass matrix: the quadrature of U_k U_l, and with exact integration the integral with weight sqrt(1 - x^2) *)
Theorem C55_mass_quadrature : forall q N df k l, (k < N)%nat -> (l < N)%nat ->
  rsum N (fun i => u_weight q N i / df * (peval (chebU k) (u_point q N i) * peval (chebU l) (u_point q N i))) = if Nat.eqb k l then buu q N df true k else 0.
Proof.
  intros q N df k l Hk Hl. rewrite (gsum_ext_R N _ (fun i => / df * (u_weight q N i * (Uk k q N i * Uk l q N i)))) by (intros; unfold Rdiv; ring).
  rewrite gsum_scal, u_quad_orth by assumption. unfold buu, Rdiv. destruct (Nat.eqb k l); ring.
Qed.
Print Assumptions C55_mass_quadrature.
Theorem C55_mass_exact : forall q N k l, chebu_inner (peval (chebU k)) (peval (chebU l)) (if Nat.eqb k l then buu q N 1 false k else 0).
Proof. intros q N k l. unfold buu. replace (u_L2_norm_sq / 1) with u_L2_norm_sq by field. apply u_exact_orth. Qed.
Print Assumptions C55_mass_exact.
(** the points are distinct and inside (-1, 1), the weights positive *)
Theorem C55_rule : forall q N i, (i < N)%nat -> -1 < u_point q N i < 1 /\ 0 < u_weight q N i /\
  forall j, (j < i)%nat -> u_point q N i < u_point q N j.
Proof.
  intros q N i Hi. pose proof PI_RGT_0 as HP. unfold Rgt in HP. assert (HN : 0 < INR N) by (apply lt_0_INR; lia). destruct (utheta_range q N i Hi) as [H0 H1]. rewrite u_point_theta. split.
  - split; [rewrite <- cos_PI|rewrite <- cos_0]; apply cos_decreasing_1; lra.
  - split.
    + rewrite u_weight_theta. pose proof (sin_utheta q N i Hi). apply Rmult_lt_0_compat; [apply Rdiv_lt_0_compat; [exact HP|destruct q; lra]|apply pow_lt; assumption].
    + intros j Hj. rewrite u_point_theta. destruct (utheta_range q N j ltac:(lia)) as [G0 G1]. apply cos_decreasing_1; try lra.
      assert (J : INR j < INR i) by (apply lt_INR; exact Hj). unfold utheta. destruct q.
      * apply Rmult_lt_compat_r; [apply Rinv_0_lt_compat; lra|]. nra.
      * apply Rmult_lt_compat_r; [apply Rinv_0_lt_compat; lra|]. apply Rmult_lt_compat_l; [exact HP|]. apply lt_INR. lia.
Qed.
Print Assumptions C55_rule.
(** ** composite spaces: all classes with a stencil, homogeneous boundary conditions *)
Notation basis_at cls N k x := (peval (basis_function chebU (stencil_matrix cls N) k) x).
Definition unconds (cls : stencil_class) : nat := List.length (sc_bcs cls).
Theorem C55_composite_backward : Forall (fun cls => forall q N c, (0 < N)%nat ->
  yields (u_comp_backward q cls N N c) N (fun i => rsum (N - unconds cls) (fun k => c k * basis_at cls N k (u_point q N i)))) chebyshevu_classes.
Proof. apply (Forall_impl (P := good_head)); [|exact chebyshevu_heads]. intros cls HC q N c. apply (u_comp_expansion cls HC). Qed.
Print Assumptions C55_composite_backward.
Theorem C55_composite_scalar_product : Forall (fun cls => forall q N df u, (unconds cls < N)%nat -> df <> 0 ->
  yields (u_comp_scalar_product q cls N N df u) (N - unconds cls)
    (fun k => rsum N (fun i => u_weight q N i / df * u i * basis_at cls N k (u_point q N i)))) chebyshevu_classes.
Proof. apply (Forall_impl (P := good_head)); [|exact chebyshevu_heads]. intros cls HC q N df u. apply (u_comp_scalar cls HC). Qed.
Print Assumptions C55_composite_scalar_product.
(** forward recovers the coefficients, whatever solver: the mass system for the scalar product of the expansion has the coefficient
    array as its only solution *)
Theorem C55_composite_forward_backward : Forall (fun cls => forall q N df c v, (unconds cls < N)%nat -> df <> 0 -> u_comp_backward q cls N N c = Some v ->
  exists b, u_comp_scalar_product q cls N N df v = Some b /\
    forall a, (forall k, (k < N - unconds cls)%nat ->
        rsum (N - unconds cls) (fun j => rsum N (fun i => u_weight q N i * (basis_at cls N k (u_point q N i) * basis_at cls N j (u_point q N i))) / df * a j) = b k) <->
      (forall k, (k < N - unconds cls)%nat -> a k = c k)) chebyshevu_classes.
Proof. apply (Forall_impl (P := good_head)); [|exact chebyshevu_heads]. intros cls HC q N df c v. apply (u_comp_fwd_bck cls HC). Qed.
Print Assumptions C55_composite_forward_backward.
(** FINDING: with a padding factor the fast transforms raise, because the factors sin(theta) have the length of the space without padding *)
Theorem C55_padding_refuted : forall q cls N n df u c, (2 <= N)%nat -> (N < n)%nat ->
  u_backward q N n c = None /\ u_forward q N n df u = None /\ u_comp_backward q cls N n c = None /\ u_comp_scalar_product q cls N n df u = None.
Proof.
  intros q cls N n df u c HN Hn. assert (T : forall a b, times n N a b = None).
  { intros. unfold times. destruct (Nat.eqb_spec N n), (Nat.eqb_spec N 1); try lia. reflexivity. }
  assert (X : forall w, u_expansion_fast q N n w = None) by (intros w; unfold u_expansion_fast; destruct q; apply T).
  unfold u_backward, u_forward, u_comp_backward, u_comp_scalar_product, u_scalar_product, u_scalar_product_fast. rewrite T, !X. repeat split; reflexivity.
Qed.
Print Assumptions C55_padding_refuted.

(** ** examples *)
(** x = U_1 / 2 at the points 1/2, -1/2 *)
Example C55_example : yields (u_backward GU 2 2 (fun k => match k with 1%nat => / 2 | _ => 0 end)) 2 (fun i => match i with 0%nat => / 2 | _ => - / 2 end).
Proof.
  destruct (C55_backward_values GU 2 (fun k => match k with 1%nat => / 2 | _ => 0 end) ltac:(lia)) as [v [E H]]. exists v. split; [exact E|].
  intros i Hi. rewrite H by exact Hi. cbn [gsum]. change (chebU 1) with [0; 2]. cbn [peval u_point INR].
  destruct i as [|[|i]]; [| |lia]; cbn [INR].
  - replace ((0 + 1) * PI / (1 + 1 + 1)) with (PI / 3) by field. rewrite cos_PI3. field.
  - replace ((1 + 1) * PI / (1 + 1 + 1)) with (2 * (PI / 3)) by field. rewrite cos_2PI3. field.
Qed.
Example C55_example_classes : In chebyshevu_CompactDirichlet chebyshevu_classes /\ (unconds chebyshevu_CompactDirichlet < 6)%nat.
Proof. split; [cbn; tauto|cbn; lia]. Qed.
