(** ChebTransProperties.v -- C44: the Chebyshev transforms. *)
From Coq Require Import Reals Lra Lia List Arith ZArith.
From Verif Require Import Base Fld SparseModel SparseSpec SparseProofs RPoly StencilModel StencilModel2 StencilSpec LegMatrixModel LegMatrixSpec ChebMatrixModel ChebMatrixSpec
  ChebMatrixProofs ChebQuadModel ChebQuadProofs ChebTransModel ChebTransProofs ChebTransProofs2 ChebTransProofs3 StencilProofs StencilProofs8 StencilProofs9.
Import ListNotations.
Local Open Scope R_scope.

(** the least number of points of a rule *)
Notation rule_min q := (match q with GL => 2 | LG => 1 end)%nat.

(** ** the orthogonal space *)
(** backward evaluates the expansion in the N polynomials at the n (padded) quadrature points *)
Theorem C44_backward_values : forall q N n c i, (rule_min q <= n)%nat -> (N <= n)%nat -> (i < n)%nat ->
  cheb_backward q N n c i = rsum N (fun k => c k * peval (chebT k) (cheb_point q n i)).
Proof.
  intros q N n c i Hn HN Hi. unfold cheb_backward. rewrite expansion_values by assumption.
  rewrite (gsum_split N n); [|exact HN|intros k Hk; unfold truncate; destruct (Nat.ltb_spec k N); [lia|ring]].
  apply gsum_ext_R. intros k Hk. unfold truncate. destruct (Nat.ltb_spec k N); [reflexivity|lia].
Qed.
Print Assumptions C44_backward_values.
(** scalar_product is the quadrature of the function with every basis polynomial (the weights divided by the domain factor) *)
Theorem C44_scalar_product_values : forall q N n df u k, (rule_min q <= n)%nat -> df <> 0 -> (k < N)%nat ->
  cheb_scalar_product q N n df u k = rsum n (fun i => cheb_weight q n i / df * u i * peval (chebT k) (cheb_point q n i)).
Proof.
  intros q N n df u k Hn Hdf Hk. unfold cheb_scalar_product, truncate. destruct (Nat.ltb_spec k N); [|lia]. apply scalar_values; assumption.
Qed.
Print Assumptions C44_scalar_product_values.
(** forward recovers the coefficients: without padding, and with any padding on Gauss points *)
Theorem C44_forward_backward : forall q N n df c k, (rule_min q <= n)%nat -> (N <= n)%nat -> df <> 0 ->
  q = LG \/ n = N -> (k < N)%nat -> cheb_forward q N n df (cheb_backward q N n c) k = c k.
Proof.
  intros q N n df c k Hn HN Hdf Hq Hk. rewrite forward_backward_gen by assumption. rewrite (norm_pad q n N k Hq).
  pose proof (norm_ne0 true q N k). field. assumption.
Qed.
Print Assumptions C44_forward_backward.
(** backward recovers the function values *)
Theorem C44_backward_forward : forall q N df u i, (rule_min q <= N)%nat -> df <> 0 -> (i < N)%nat ->
  cheb_backward q N N (cheb_forward q N N df u) i = u i.
Proof. exact backward_forward. Qed.
Print Assumptions C44_backward_forward.
(** FINDING: with Gauss-Lobatto points and padding all coefficients but the last are recovered; the last comes back halved,
    because BTTmat.solve divides by the norm of the unpadded rule *)
Theorem C44_padded_lobatto_refuted : forall N n df c, (2 <= N)%nat -> (N < n)%nat -> df <> 0 ->
  (forall k, (k < N - 1)%nat -> cheb_forward GL N n df (cheb_backward GL N n c) k = c k) /\
  cheb_forward GL N n df (cheb_backward GL N n c) (N - 1) = c (N - 1)%nat / 2.
Proof.
  intros N n df c HN Hn Hdf. pose proof PI_RGT_0 as HP. unfold Rgt in HP. split.
  - intros k Hk. rewrite forward_backward_gen by (try assumption; lia). unfold cheb_norm_sq, cheb_l2_norm_sq. cbv zeta.
    destruct (Nat.eqb_spec k (n - 1)); [lia|]. destruct (Nat.eqb_spec k (N - 1)); [lia|]. destruct (Nat.eqb k 0); field; lra.
  - rewrite forward_backward_gen by (try assumption; lia). unfold cheb_norm_sq, cheb_l2_norm_sq. cbv zeta. rewrite Nat.eqb_refl.
    destruct (Nat.eqb_spec (N - 1) (n - 1)); [lia|]. destruct (Nat.eqb_spec (N - 1) 0); [lia|]. field. lra.
Qed.
Print Assumptions C44_padded_lobatto_refuted.
(** solve of the mass matrix inverts its product when it was assembled by quadrature with scale 1 *)
Theorem C44_mass_solve : forall q N df c k, df <> 0 -> btt_solve q N df (btt_matvec (cheb_norm_sq true q N) 1 df c) k = c k.
Proof.
  intros q N df c k Hdf. rewrite btt_solve_val. unfold btt_matvec. pose proof (norm_ne0 true q N k). field. split; assumption.
Qed.
Print Assumptions C44_mass_solve.
(** FINDING: it ignores the scale of the matrix, and with exact integration and Gauss-Lobatto points it halves the last entry *)
Theorem C44_mass_solve_refuted : forall q N df s c k, df <> 0 ->
  btt_solve q N df (btt_matvec (cheb_norm_sq true q N) s df c) k = s * c k /\
  ((2 <= N)%nat -> btt_solve GL N df (btt_matvec (cheb_norm_sq false GL N) 1 df c) (N - 1) = c (N - 1)%nat / 2).
Proof.
  intros q N df s c k Hdf. split.
  - rewrite btt_solve_val. unfold btt_matvec. pose proof (norm_ne0 true q N k). field. split; assumption.
  - intros HN. rewrite btt_solve_val. unfold btt_matvec. pose proof PI_RGT_0 as HP. unfold cheb_norm_sq, cheb_l2_norm_sq, cheb_L2_norm_sq. cbv zeta.
    rewrite Nat.eqb_refl. destruct (Nat.eqb_spec (N - 1) 0); [lia|]. field. lra.
Qed.
Print Assumptions C44_mass_solve_refuted.

(** ** composite spaces: all classes with a stencil *)
(** basis function k of the space at x *)
Notation basis_at cls N k x := (peval (basis_function chebT (stencil_matrix cls N) k) x).
Definition nconds (cls : stencil_class) : nat := List.length (sc_bcs cls).
Theorem C44_composite_backward : Forall (fun cls => forall q N n c i, (rule_min q <= n)%nat -> (N <= n)%nat -> (i < n)%nat ->
  comp_backward q cls N n c i = rsum (N - nconds cls) (fun k => c k * basis_at cls N k (cheb_point q n i))) chebyshev_classes.
Proof. apply (Forall_impl (P := good_head)); [|exact chebyshev_heads]. intros cls HC q N n c i. apply (comp_expansion cls HC). Qed.
Print Assumptions C44_composite_backward.
Theorem C44_composite_scalar_product : Forall (fun cls => forall q N n df u, (rule_min q <= n)%nat -> (nconds cls < N)%nat -> (N <= n)%nat -> df <> 0 ->
  exists b, comp_scalar_product q cls N n df u = Some b /\ forall k, (k < N - nconds cls)%nat ->
    b k = rsum n (fun i => cheb_weight q n i / df * u i * basis_at cls N k (cheb_point q n i))) chebyshev_classes.
Proof. apply (Forall_impl (P := good_head)); [|exact chebyshev_heads]. intros cls HC q N n df u. apply (comp_scalar cls HC). Qed.
Print Assumptions C44_composite_scalar_product.
(** forward recovers the coefficients, whatever solver: a solution of the mass system (quadrature on the N points, over the
    domain factor) for the scalar product of the expansion is the coefficient array, and there is no other *)
Theorem C44_composite_forward_backward : Forall (fun cls => forall q N n df c, (rule_min q <= N)%nat -> (nconds cls < N)%nat -> (N <= n)%nat -> df <> 0 ->
  q = LG \/ n = N ->
  exists b, comp_scalar_product q cls N n df (comp_backward q cls N n c) = Some b /\
    forall a, (forall k, (k < N - nconds cls)%nat ->
        rsum (N - nconds cls) (fun j => quad_sum (cheb_rule q N) (fun x => basis_at cls N k x * basis_at cls N j x) / df * a j) = b k) <->
      (forall k, (k < N - nconds cls)%nat -> a k = c k)) chebyshev_classes.
Proof.
  apply (Forall_impl (P := good_head)); [|exact chebyshev_heads]. intros cls HC q N n df c HN Hb Hn Hdf Hq.
  destruct (comp_mass cls HC q N n df c ltac:(lia) Hb Hn Hdf) as [b [E Hv]]. exists b. split; [exact E|]. intros a.
  change (List.length (sc_bcs cls)) with (nconds cls) in *.
  assert (V : forall k, (k < N - nconds cls)%nat -> b k = rsum (N - nconds cls) (fun j => mass cls q N N k j / df * c j)).
  { intros k Hk. rewrite Hv by exact Hk. apply gsum_ext_R. intros j Hj. rewrite (mass_pad cls q n N k j Hq HN Hn). reflexivity. }
  split.
  - intros H k Hk. apply Rminus_diag_uniq. revert k Hk. apply (mass_injective cls HC q N N (fun k => a k - c k) HN (le_n N)).
    intros k Hk. specialize (H k Hk). rewrite V in H by exact Hk. change (List.length (sc_bcs cls)) with (nconds cls).
    rewrite (gsum_ext_R (N - nconds cls) _ (fun j => df * (mass cls q N N k j / df * a j) + (- df) * (mass cls q N N k j / df * c j))) by (intros; field; exact Hdf).
    rewrite gsum_add, !gsum_scal. unfold mass, phi in *. rewrite H. ring.
  - intros H k Hk. rewrite V by exact Hk. apply gsum_ext_R. intros j Hj. rewrite H by exact Hj. reflexivity.
Qed.
Print Assumptions C44_composite_forward_backward.

(** ** examples *)
Example C44_example_classes : In chebyshev_ShenDirichlet chebyshev_classes /\ nconds chebyshev_ShenDirichlet = 2%nat /\ (rule_min GL <= 6)%nat /\ (2 < 6)%nat.
Proof. repeat split; try lia. left. reflexivity. Qed.
(** T_2 on three Lobatto points, domain [0, 1] (domain factor 2) *)
Example C44_example : cheb_forward GL 3 3 2 (fun i => if Nat.eqb i 1 then -1 else 1) 2 = 1.
Proof.
  pose proof PI_RGT_0 as HP. unfold cheb_forward, cheb_scalar_product, btt_solve, truncate, scalar_product_fast, xfftn_fwd, dct1. cbn [gsum Nat.eqb Nat.ltb Nat.leb Nat.sub INR pow].
  replace (PI * 1 * (1 + 1) / (1 + 1)) with PI by field. rewrite cos_PI. field. lra.
Qed.
(** FINDING: the fast scalar product of a composite space whose stencil is constant does not clear the rows beyond the last basis
    function (kind='vandermonde' does) *)
Theorem C44_rows_beyond_refuted : forall N, (4 <= N)%nat -> exists u b, comp_scalar_product LG chebyshev_ShenDirichlet N N 1 u = Some b /\ b (N - 2)%nat <> 0.
Proof.
  intros N HN. exists (evaluate_expansion_fast LG N (fun k => if Nat.eqb k (N - 2) then 1 else 0)). unfold comp_scalar_product.
  pose proof (stencil_wf chebyshev_ShenDirichlet ltac:(assert (H := chebyshev_heads); inversion H; assumption) N ltac:(cbn; lia)) as W.
  destruct (matvec_correct RFld (stencil_matrix chebyshev_ShenDirichlet N) N N
     (scalar_product_fast LG N 1 (evaluate_expansion_fast LG N (fun k => if Nat.eqb k (N - 2) then 1 else 0))) W (le_n N) (le_n N)) as [out [E [Hout _]]].
  rewrite E, Nat.eqb_refl. exists out. split; [reflexivity|]. rewrite Hout by (cbn; lia).
  unfold mat_vec, fsum. cbn [sm_cols stencil_matrix]. change (@f0 RFld) with 0. change (@fadd RFld) with Rplus. change (@fmul RFld) with Rmult.
  rewrite (gsum_ext_R N _ (fun j => if Nat.eqb j (N - 2) then PI / 2 else 0)).
  - rewrite gsum_one by lia. pose proof PI_RGT_0. lra.
  - intros j Hj. rewrite scalar_of_expansion by (try lia; lra). destruct (Nat.eqb_spec j (N - 2)) as [->|]; [|ring].
    unfold cheb_norm_sq, cheb_l2_norm_sq. cbv zeta. destruct (Nat.eqb_spec (N - 2) 0); [lia|].
    unfold mat_entry, stencil_matrix. cbn [sm_items sm_scale chebyshev_ShenDirichlet sc_stencil map stencil_item fst snd lookup].
    destruct (Z.eq_dec (Z.of_nat 0) (Z.of_nat (N - 2) - Z.of_nat (N - 2))) as [_|C]; [|exfalso; apply C; lia]. cbn. field.
Qed.
Print Assumptions C44_rows_beyond_refuted.
