(** StencilProperties.v -- C29: basis functions of composite spaces satisfy the homogeneous
    boundary conditions of the space, for every size N and every index. *)
From Coq Require Import Reals Lra Lia ZArith String List Arith FinFun.
From Verif Require Import Base Fld SparseModel SparseSpec RPoly StencilModel StencilModel2 StencilSpec
  StencilProofs StencilProofs2 StencilProofs3 StencilProofs4 StencilProofs5 StencilProofs6 StencilProofs7 StencilProofs8 StencilProofs9.
Import ListNotations.
Local Open Scope R_scope.

(** ** the specification means what it says *)
(** deriv_at is the derivative *)
Theorem C29_derivative_meaning : forall p k x,
  deriv_at 0 p x = peval p x /\ derivable_pt_lim (deriv_at k p) x (deriv_at (S k) p x).
Proof. intros p k x. split; [reflexivity|]. apply (pderiv_correct (dn k p) x). Qed.
Print Assumptions C29_derivative_meaning.
(** chebT and chebU are the Chebyshev polynomials *)
Theorem C29_chebyshev_meaning : forall n t,
  peval (chebT n) (cos t) = cos (INR n * t) /\ sin t * peval (chebU n) (cos t) = sin ((INR n + 1) * t).
Proof.
  intros n t.
  assert (cos (1 * t) = cos t /\ sin (1 * t) = sin t /\ sin ((1 + 1) * t) = sin t * (2 * cos t)) as [E1 [E2 E3]].
  { rewrite !Rmult_1_l. repeat split. replace ((1 + 1) * t) with (2 * t) by ring. rewrite sin_2a. ring. }
  assert (forall n, (peval (chebT n) (cos t) = cos (INR n * t) /\ peval (chebT (S n)) (cos t) = cos (INR (S n) * t)) /\
     (sin t * peval (chebU n) (cos t) = sin ((INR n + 1) * t) /\ sin t * peval (chebU (S n)) (cos t) = sin ((INR (S n) + 1) * t))) as H;
    [|destruct (H n) as [[? _] [? _]]; auto].
  clear n. induction n as [|n [[IH1 IH2] [IH3 IH4]]].
  - simpl. replace (1 + cos t * 0) with 1 by ring. replace (0 * t) with 0 by ring. rewrite cos_0.
    replace (0 + 1) with 1 by ring. rewrite E1, E2, E3. repeat split; ring.
  - split; split; auto.
    + unfold chebT in *. rewrite three_term_SS, !peval_padd, !peval_pscale, peval_pX, IH1, IH2.
      rewrite !S_INR. replace ((INR n + 1 + 1) * t) with ((INR n + 1) * t + t) by ring.
      replace (INR n * t) with ((INR n + 1) * t - t) by ring. rewrite cos_plus, cos_minus. ring.
    + unfold chebU in *. rewrite three_term_SS, !peval_padd, !peval_pscale, peval_pX.
      transitivity (2 * cos t * (sin t * peval (three_term (fun _ => 2) (fun _ => 0) (fun _ => 1) [0; 2] (S n)) (cos t))
                    - sin t * peval (three_term (fun _ => 2) (fun _ => 0) (fun _ => 1) [0; 2] n) (cos t)); [ring|].
      rewrite IH3, IH4. rewrite !S_INR. replace ((INR n + 1 + 1 + 1) * t) with ((INR n + 1 + 1) * t + t) by ring.
      replace ((INR n + 1) * t) with ((INR n + 1 + 1) * t - t) by ring. rewrite sin_plus, sin_minus. ring.
Qed.
Print Assumptions C29_chebyshev_meaning.

(** ** every class of a family *)
Theorem C29_chebyshev : Forall (bcs_ok chebT) chebyshev_classes.
Proof. exact chebyshev_ok. Qed.
Print Assumptions C29_chebyshev.
Theorem C29_legendre : Forall (bcs_ok legL) legendre_classes.
Proof. exact legendre_ok. Qed.
Print Assumptions C29_legendre.
Theorem C29_chebyshevu : Forall (bcs_ok chebU) chebyshevu_classes.
Proof. exact chebyshevu_ok. Qed.
Print Assumptions C29_chebyshevu.
(** G stands for sp.gamma: of the gamma function only positivity is used, and for Jacobi the
    functional equation *)
Theorem C29_ultraspherical : forall (G : R -> R) (a : R),
  (forall x, 0 < x -> 0 < G x) -> -1 < a -> Forall (bcs_ok (ultraQ a)) (ultraspherical_classes G a).
Proof. exact ultraspherical_ok. Qed.
Print Assumptions C29_ultraspherical.
Theorem C29_jacobi : forall (G : R -> R) (a b : R),
  (forall x, 0 < x -> 0 < G x) -> (forall x, 0 < x -> G (x + 1) = x * G x) -> -1 < a -> -1 < b ->
  (a <> b -> Forall (bcs_ok (jacP a b)) (jacobi_ne_classes G a b)) /\
  (a = b -> Forall (bcs_ok (jacP a b)) (jacobi_classes G a b)).
Proof. intros G a b H1 H2 Ha Hb. split; [intros _; apply jacobi_ne_ok; auto | intros <-; apply jacobi_ok; auto]. Qed.
Print Assumptions C29_jacobi.
(** Laguerre functions p(x) exp(-x/2): value or derivative at x = 0 *)
Theorem C29_laguerre : forall N k, (k < N - 1)%nat ->
  peval (basis_function lagL (stencil_matrix laguerre_CompactDirichlet N) k) 0 * exp (- 0 / 2) = 0 /\
  derivable_pt_lim (fun x => peval (basis_function lagL (stencil_matrix laguerre_CompactNeumann N) k) x * exp (- x / 2)) 0 0.
Proof.
  intros N k Hk. split.
  - apply Rmult_eq_0_compat_r.
    change (deriv_at 0 (basis_function lagL (stencil_matrix laguerre_CompactDirichlet N) k) 0 = 0).
    rewrite basis_deriv; [|nodup|nodup|exact Hk].
    cbn [stencil_sum sval sc_stencil laguerre_CompactDirichlet]. cbn [Nat.add]. rewrite !lag_zero by lia. unfold vLa. lra.
  - set (p := basis_function lagL (stencil_matrix laguerre_CompactNeumann N) k).
    assert (deriv_at 1 p 0 = deriv_at 0 p 0 / 2) as E.
    { unfold p. rewrite !basis_deriv; [|nodup|nodup|exact Hk|nodup|nodup|exact Hk].
      cbn [stencil_sum sval sc_stencil laguerre_CompactNeumann]. cbn [Nat.add]. rewrite !lag_zero by lia. unfold vLa.
      rewrite S_INR. pose proof (pos_INR k). field. lra. }
    replace 0 with (deriv_at 1 p 0 * exp (- 0 / 2) + peval p 0 * (exp (- 0 / 2) * (- (1) / 2))) at 2
      by (rewrite E, deriv_at_0; field).
    apply (derivable_pt_lim_mult (peval p) (fun x => exp (- x / 2))); [apply (pderiv_correct p)|].
    apply (derivable_pt_lim_comp (fun x => - x / 2) exp); [|apply derivable_pt_lim_exp].
    assert (derivable_pt_lim (mult_real_fct (- (1) / 2) id) 0 (- (1) / 2 * 1)) as D
      by (apply derivable_pt_lim_scal, derivable_pt_lim_id).
    replace (- (1) / 2) with (- (1) / 2 * 1) by ring. intros e He. destruct (D e He) as [d Hd]. exists d. intros h H1 H2.
    specialize (Hd h H1 H2). unfold mult_real_fct, id in Hd.
    replace ((- (0 + h) / 2 - - 0 / 2) / h) with ((- (1) / 2 * (0 + h) - - (1) / 2 * 0) / h) by (field; auto). exact Hd.
Qed.
Print Assumptions C29_laguerre.

(** ** stencils written out explicitly *)
Theorem C29_explicit_stencils : forall s N k, (4 <= N)%nat -> (k < N - 2)%nat ->
  Forall (satisfies (basis_function chebT (heinrichs_matrix s N) k)) [mkBc Left 0; mkBc Right 0] /\
  Forall (satisfies (basis_function chebT (combined_shen_neumann_matrix N) k)) [mkBc Left 1; mkBc Right 1] /\
  Forall (satisfies (basis_function chebT (mik_neumann_matrix N) k)) [mkBc Left 1; mkBc Right 1].
Proof.
  intros s N k HN Hk. split; [|split]; apply Forall_forall; intros c Hc.
  - apply heinrichs_ok; auto.
  - apply combined_ok; auto.
  - apply mik_ok; auto.
Qed.
Print Assumptions C29_explicit_stencils.
Theorem C29_legendre_bipolar : forall N k, (7 <= N)%nat -> (k < N - 4)%nat ->
  Forall (satisfies (basis_function legL (leg_bipolar_matrix N) k)) [mkBc Left 0; mkBc Left 1; mkBc Right 0; mkBc Right 1].
Proof. intros N k HN Hk. apply Forall_forall; intros c Hc. apply leg_bipolar_ok; auto. Qed.
Print Assumptions C29_legendre_bipolar.
(** chebyshev.ShenBiPolar: all basis functions but the first *)
Theorem C29_chebyshev_bipolar_partial : forall N k, (7 <= N)%nat -> (1 <= k < N - 4)%nat ->
  Forall (satisfies (basis_function chebT (cheb_bipolar_matrix N) k)) [mkBc Left 0; mkBc Left 1; mkBc Right 0; mkBc Right 1].
Proof. intros N k HN Hk. apply Forall_forall; intros c Hc. apply cheb_bipolar_ok; auto. Qed.
Print Assumptions C29_chebyshev_bipolar_partial.
(** FINDING: its first basis function satisfies neither u(1) = 0 nor u'(1) = 0 *)
Theorem C29_chebyshev_bipolar_refuted : forall N, (7 <= N)%nat ->
  ~ satisfies (basis_function chebT (cheb_bipolar_matrix N) 0) (mkBc Right 0) /\
  ~ satisfies (basis_function chebT (cheb_bipolar_matrix N) 0) (mkBc Right 1).
Proof.
  intros N HN. destruct (cheb_bipolar_row0 N HN) as [E1 E2]. unfold satisfies. cbn [bc_order bc_side end_point].
  rewrite E1, E2. split; lra.
Qed.
Print Assumptions C29_chebyshev_bipolar_refuted.
(** FINDING: the default boundary condition of chebyshevu.LowerDirichlet and
    ultraspherical.LowerDirichlet names the right end, but no basis function vanishes there
    (they vanish at the left end) *)
Theorem C29_lower_dirichlet_refuted :
  bcs_ok chebU (with_bcs chebyshevu_LowerDirichlet [mkBc Left 0]) /\
  (forall N k, (k < N - 1)%nat ->
     ~ Forall (satisfies (basis_function chebU (stencil_matrix chebyshevu_LowerDirichlet N) k)) (sc_bcs chebyshevu_LowerDirichlet)) /\
  (forall a, -1 < a -> bcs_ok (ultraQ a) (with_bcs (ultraspherical_LowerDirichlet a) [mkBc Left 0])) /\
  (forall a N k, -1 < a -> (k < N - 1)%nat ->
     ~ Forall (satisfies (basis_function (ultraQ a) (stencil_matrix (ultraspherical_LowerDirichlet a) N) k))
              (sc_bcs (ultraspherical_LowerDirichlet a))).
Proof.
  split; [exact chebyshevu_lower_ok|]. split; [|split; [exact ultraspherical_lower_ok|]].
  - intros N k Hk H. inversion H as [|c l Hc _]. subst. unfold satisfies in Hc. rewrite basis_deriv in Hc; [|nodup|nodup|exact Hk].
    cbn [bc_order bc_side end_point stencil_sum sval sc_stencil chebyshevu_LowerDirichlet] in Hc. cbn [Nat.add] in Hc.
    rewrite !chebU_right in Hc by lia. unfold vU in Hc. rewrite S_INR in Hc. pose proof (pos_INR k).
    assert (1 * ((INR k + 1) * 1) + ((INR k + 1) / (INR k + 2) * ((INR k + 1 + 1) * 1) + 0) = 2 * (INR k + 1)) as E by (field; lra).
    rewrite E in Hc. lra.
  - intros a N k Ha Hk H. inversion H as [|c l Hc _]. subst. unfold satisfies in Hc. rewrite basis_deriv in Hc; [|nodup|nodup|exact Hk].
    cbn [bc_order bc_side end_point stencil_sum sval sc_stencil ultraspherical_LowerDirichlet] in Hc. cbn [Nat.add] in Hc.
    rewrite !ultraQ_right in Hc by (auto; lia). unfold vQ in Hc. lra.
Qed.
Print Assumptions C29_lower_dirichlet_refuted.
(** FINDING: chebyshev.Heinrichs2 and chebyshev.PolarDirichlet store N entries on the diagonal
    -2, which has N - 2: every matvec with their stencil matrix raises *)
Theorem C29_wrong_length_refuted : forall N u, (4 <= N)%nat ->
  matvec RFld (heinrichs2_matrix N) N N u = None /\ matvec RFld (polar_dirichlet_matrix N) N N u = None.
Proof.
  intros N u HN. split.
  - unfold heinrichs2_matrix. eapply bad_diag_matvec; [exact HN|reflexivity].
  - unfold polar_dirichlet_matrix. eapply bad_diag_matvec; [exact HN|reflexivity].
Qed.
Print Assumptions C29_wrong_length_refuted.

(** ** the basis functions are linearly independent: N - (number of conditions) of them *)
Theorem C29_independent : forall (G : R -> R) (a b : R), (forall x, 0 < x -> 0 < G x) -> -1 < a -> -1 < b ->
  Forall (fun cls => forall N u,
    (forall j, (j < N)%nat -> gsum 0 Rplus (N - length (sc_bcs cls)) (fun k => u k * mat_entry RFld (stencil_matrix cls N) k j) = 0) ->
    forall k, (k < N - length (sc_bcs cls))%nat -> u k = 0)
   (chebyshev_classes ++ legendre_classes ++ chebyshevu_classes ++ laguerre_classes ++
    ultraspherical_classes G a ++ jacobi_classes G a b ++ jacobi_ne_classes G a b).
Proof.
  intros G a b HG Ha Hb. apply (Forall_impl _ good_independent).
  repeat (apply Forall_app; split).
  - apply chebyshev_heads.
  - apply legendre_heads.
  - apply chebyshevu_heads.
  - apply laguerre_heads.
  - apply ultraspherical_heads; auto.
  - apply jacobi_heads; auto.
  - apply jacobi_ne_heads; auto.
Qed.
Print Assumptions C29_independent.

(** ** the rows behind the last basis function are zero on the diagonals computed from n (a constant diagonal runs
    through all N rows) *)
Theorem C29_rows_beyond_dim : forall cls N i f k, find (fun it => Nat.eqb (fst it) i) (sc_stencil cls) = Some (i, SFun f) ->
  (N - length (sc_bcs cls) <= k)%nat -> mat_entry RFld (stencil_matrix cls N) k (k + i) = 0.
Proof.
  intros cls N i f k H Hk. unfold mat_entry, stencil_matrix. cbn [sm_items sm_scale].
  replace (Z.of_nat (k + i) - Z.of_nat k)%Z with (Z.of_nat i) by lia.
  assert (E : lookup RFld (map (stencil_item N (length (sc_bcs cls))) (sc_stencil cls)) (Z.of_nat i) =
              Some (snd (stencil_item N (length (sc_bcs cls)) (i, SFun f)))).
  { induction (sc_stencil cls) as [|it l IH]; [discriminate|]. cbn [find] in H. cbn [map].
    unfold lookup; fold lookup. destruct (Nat.eqb_spec (fst it) i) as [E|E].
    - injection H as ->. unfold stencil_item at 1. cbn [fst snd lookup]. destruct (Z.eq_dec (Z.of_nat i) (Z.of_nat i)) as [_|N']; [reflexivity|congruence].
    - unfold stencil_item at 1. cbn [fst lookup]. destruct (Z.eq_dec (Z.of_nat (fst it)) (Z.of_nat i)); [lia|]. apply IH, H. }
  rewrite E. cbn [stencil_item snd dget]. rewrite Nat.min_l by lia.
  destruct (Nat.ltb_spec k (N - length (sc_bcs cls))); [lia|]. cbn. ring.
Qed.
Print Assumptions C29_rows_beyond_dim.
Example C29_rows_beyond_dim_example : mat_entry RFld (stencil_matrix chebyshev_ShenNeumann 8) 6 8 = 0.
Proof. exact (C29_rows_beyond_dim chebyshev_ShenNeumann 8 2 _ 6 eq_refl (le_n 6)). Qed.

(** ** C42: to_ortho gives the coefficients of the same function *)
Theorem C42_to_ortho : forall (P : nat -> poly) (S : smat RFld) dim u x,
  sm_scale RFld S = 1 -> NoDup (map fst (sm_items RFld S)) ->
  (dim <= sm_cols RFld S)%nat -> Forall (fun kv => (- Z.of_nat dim <= fst kv)%Z) (sm_items RFld S) ->
  peval (pcomb (sm_cols RFld S) (to_ortho S dim u) P) x = peval (pcomb dim u (basis_function P S)) x.
Proof. exact to_ortho_function. Qed.
Print Assumptions C42_to_ortho.
(** in particular for every class with a stencil *)
Theorem C42_to_ortho_classes : forall (G : R -> R) (a b : R), (forall x, 0 < x -> 0 < G x) -> -1 < a -> -1 < b ->
  Forall (fun cls => forall P N u x,
    let dim := (N - length (sc_bcs cls))%nat in
    peval (pcomb N (to_ortho (stencil_matrix cls N) dim u) P) x = peval (pcomb dim u (basis_function P (stencil_matrix cls N))) x)
   (chebyshev_classes ++ legendre_classes ++ chebyshevu_classes ++ laguerre_classes ++
    ultraspherical_classes G a ++ jacobi_classes G a b ++ jacobi_ne_classes G a b).
Proof.
  intros G a b HG Ha Hb. apply (Forall_impl _ (P := good_head)).
  - intros cls [Hn _] P N u x dim.
    apply (to_ortho_function P (stencil_matrix cls N) dim u x); cbn [stencil_matrix sm_scale sm_items sm_cols].
    + reflexivity.
    + rewrite map_map. unfold stencil_item. cbn [fst].
      rewrite <- (map_map fst Z.of_nat). apply FinFun.Injective_map_NoDup; [intros p q; lia|exact Hn].
    + subst dim. lia.
    + apply Forall_forall. intros kv Hkv. apply in_map_iff in Hkv. destruct Hkv as [it [<- _]]. unfold stencil_item. cbn [fst]. lia.
  - repeat (apply Forall_app; split).
    + apply chebyshev_heads.
    + apply legendre_heads.
    + apply chebyshevu_heads.
    + apply laguerre_heads.
    + apply ultraspherical_heads; auto.
    + apply jacobi_heads; auto.
    + apply jacobi_ne_heads; auto.
Qed.
Print Assumptions C42_to_ortho_classes.

(** ** hypotheses are met *)
(** a function with the properties of gamma used above *)
Fixpoint fall (x : R) (m : nat) : R := match m with O => 1 | S m => (x - 1) * fall (x - 1) m end.
Definition gamma_like (x : R) : R := if Rlt_dec x 1 then / x else fall x (Z.to_nat (up x - 2)).
Lemma fall_pos m x : INR m < x -> 0 < fall x m.
Proof.
  revert x. induction m as [|m IH]; intros x H; cbn [fall]; [lra|]. rewrite S_INR in H. pose proof (pos_INR m).
  apply Rmult_lt_0_compat; [lra|]. apply IH. lra.
Qed.
Example C29_gamma_exists :
  (forall x, 0 < x -> 0 < gamma_like x) /\ (forall x, 0 < x -> gamma_like (x + 1) = x * gamma_like x).
Proof.
  split; intros x Hx.
  - unfold gamma_like. destruct (Rlt_dec x 1); [apply Rinv_0_lt_compat; auto|]. apply fall_pos.
    destruct (archimed x) as [A1 A2]. rewrite INR_IZR_INZ.
    assert (1 < up x)%Z by (apply lt_IZR; lra). rewrite Z2Nat.id by lia. rewrite minus_IZR. lra.
  - unfold gamma_like. destruct (Rlt_dec (x + 1) 1); [lra|].
    assert (up (x + 1) = up x + 1)%Z as E.
    { symmetry. apply tech_up; rewrite plus_IZR; destruct (archimed x); lra. }
    rewrite E. destruct (archimed x) as [A1 A2]. destruct (Rlt_dec x 1).
    + assert (up x = 1)%Z as -> by (symmetry; apply tech_up; lra). simpl. field. lra.
    + assert (1 < up x)%Z by (apply lt_IZR; lra).
      replace (Z.to_nat (up x + 1 - 2)) with (S (Z.to_nat (up x - 2))) by lia. cbn [fall].
      replace (x + 1 - 1) with x by ring. reflexivity.
Qed.
(** the basis functions are not zero: phi_0 of ShenBiharmonic for N = 6 is
    T_0 - (4/3) T_2 + (1/3) T_4, with phi_0(0) = 8/3 *)
Example C29_nontrivial :
  In chebyshev_ShenBiharmonic chebyshev_classes /\ (0 < 6 - length (sc_bcs chebyshev_ShenBiharmonic))%nat /\
  peval (basis_function chebT (stencil_matrix chebyshev_ShenBiharmonic 6) 0) 0 = 8 / 3.
Proof.
  split; [simpl; tauto|]. split; [simpl; lia|].
  change (deriv_at 0 (basis_function chebT (stencil_matrix chebyshev_ShenBiharmonic 6) 0) 0 = 8 / 3).
  rewrite basis_deriv; [|nodup|nodup|simpl; lia]. cbn [stencil_sum sval sc_stencil chebyshev_ShenBiharmonic].
  unfold deriv_at. cbn [Nat.add INR]. unfold chebT. simpl. field.
Qed.
(** to_ortho of the first two coefficients *)
Example C42_nontrivial : to_ortho (stencil_matrix chebyshev_ShenDirichlet 5) 3 (fun k => INR k + 1) 2 = 2.
Proof. unfold to_ortho. simpl. lra. Qed.
