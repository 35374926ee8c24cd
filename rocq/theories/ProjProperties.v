(** ProjProperties.v -- C58: project(uh, T) for a Function uh, in one dimension.

    Not covered: tensor product spaces, Arrays and sympy functions, the discrete inner product (the inner products are the exact
    ones; quadrature with N points can differ in the highest mode), inhomogeneous boundary conditions in the Galerkin branch. *)
From Coq Require Import Reals ZArith List Bool Arith String Lia Lra.
From Verif Require Import Base Fld SparseModel SparseSpec RPoly StencilModel StencilModel2 StencilSpec StencilProofs StencilProofs9 MatrixSpec MatrixProofs
  LegMatrixProofs BndModel BndSpec BndProofs ProjModel ProjSpec ProjProofs ProjProofs2.
Import ListNotations.
Local Open Scope R_scope.

Lemma quad_eqb_eq a b : quad_eqb a b = true <-> a = b.
Proof. destruct a, b; cbn; split; congruence. Qed.
Lemma family_eqb_eq a b : family_eqb a b = true <-> a = b.
Proof. destruct a, b; cbn; split; congruence. Qed.

(** to a space of the same class and kind with at least as many points (whatever the quadrature): the result is the same function *)
Theorem C58_denser : forall W T u G to, good_space W -> good_space T -> s_class W = s_class T -> same_kind W T -> (sN W <= sN T)%nat ->
  forall x, function T (project true to G W T u) x = function W u x.
Proof.
  intros W T u G to GW GT EC SK HN x. destruct (assign_same W T GW GT u SK HN) as (v & Ev & Hv).
  unfold project. destruct (spaces_equal W T) eqn:Q.
  - unfold spaces_equal in Q. apply andb_prop in Q as (_ & Q). unfold assign in Ev. apply Nat.eqb_eq in Q. rewrite Q, Nat.ltb_irrefl, Nat.eqb_refl in Ev.
    injection Ev as <-. apply Hv.
  - assert (compatible_base W T = false) as ->.
    { destruct (compatible_base W T) eqn:K; [|reflexivity]. unfold compatible_base in K. apply andb_prop in K as (K & _). apply andb_prop in K as (K1 & K2).
      unfold spaces_equal in Q. rewrite EC, String.eqb_refl, K1, K2 in Q. discriminate. }
    cbn [negb andb]. rewrite Ev. apply Hv.
Qed.
Print Assumptions C58_denser.
(** the spaces of the library: two sizes of an orthogonal space, or of a composite space with the same class, boundary functions
    and domain, are of the same kind *)
Theorem C58_kinds : forall f q q' d N M, same_kind (orth_space f q d N) (orth_space f q' d M) /\
  forall name nh nh' cls O B, In cls (chebyshev_classes ++ legendre_classes ++ chebyshevu_classes) ->
    same_kind (comp_space name f q d nh cls O B N) (comp_space name f q' d nh' cls O B M).
Proof.
  intros f q q' d N M. split.
  - repeat split; try reflexivity. intros k X H1 H2. cbn in H1, H2.
    assert (forall n, (k < n)%nat -> peval (phi (polys f) (orth_base n) k) X = peval (polys f k) X) as E.
    { intros n Hn. apply orth_phi; [|split; reflexivity|exact Hn]. repeat split; cbn; try lia; repeat constructor; cbn; try lia; intros []. }
    cbn [s_family s_base orth_space]. rewrite !E by (unfold sdim, cdim in *; cbn in *; lia). reflexivity.
  - intros name nh nh' cls O B Hin. repeat split; try reflexivity. intros k X H1 H2.
    assert (good_head cls) as (Hd & Hb & _).
    { assert (Forall good_head (chebyshev_classes ++ legendre_classes ++ chebyshevu_classes)) as F.
      { repeat (apply Forall_app; split); [apply chebyshev_heads|apply legendre_heads|apply chebyshevu_heads]. }
      rewrite Forall_forall in F. auto. }
    unfold phi. cbn [s_family s_base comp_space cS]. unfold sdim, cdim in *. cbn [s_base comp_space cN cnb] in *.
    etransitivity; [exact (basis_deriv (polys f) cls N k 0 X Hd Hb H1)|]. symmetry. exact (basis_deriv (polys f) cls M k 0 X Hd Hb H2).
Qed.
Print Assumptions C58_kinds.
(** to the orthogonal space with the same family and domain, when to_ortho is used (the same size and quadrature; or with
    use_assign=False at least the same size): the result is the same function *)
Theorem C58_to_ortho : forall W T u G ua, good_space W -> good_space T -> s_class W <> s_class T ->
  s_family W = s_family T -> s_domain W = s_domain T -> (s_quad W = s_quad T /\ sN W = sN T) \/ (ua = false /\ (sN W <= sN T)%nat) ->
  s_orth W = false -> s_orth T = true -> identity_base (s_base T) -> member W u ->
  forall x, function T (project ua true G W T u) x = function W u x.
Proof.
  intros W T u G ua GW GT EC EF ED HQ HW HT HI HM x.
  assert (sN W <= sN T)%nat as EN by (destruct HQ as [(_ & ->)|(_ & H)]; lia).
  destruct (ortho_same W T GW GT u HW HM EF ED EN HI) as (v & Ev & Hv).
  unfold project, spaces_equal. destruct (String.eqb_spec (s_class W) (s_class T)) as [E|_]; [congruence|]. cbn [andb].
  assert (negb (compatible_base W T) && ua = false) as ->.
  { destruct HQ as [(E1 & E2)|(-> & _)]; [|apply andb_false_r]. unfold compatible_base.
    rewrite EF, E1, E2, Nat.eqb_refl, (proj2 (quad_eqb_eq _ _) eq_refl), (proj2 (family_eqb_eq _ _) eq_refl). reflexivity. }
  rewrite HT. cbn [andb]. rewrite Ev. apply Hv.
Qed.
Print Assumptions C58_to_ortho.
(** project is the projection (and by C58_unique the only one) between spaces of the same family and domain, in each of these
    cases: the spaces are of the same kind, and the target is at least as large; they have the same size and quadrature and
    different classes; the target is smaller than the dimension of the source and use_assign is true; use_assign=False and the
    classes are different, when the target is not orthogonal or at least as large *)
Theorem C58_projection_partial : forall W T u G ua to, good_space W -> good_space T ->
  s_family W = s_family T -> s_domain W = s_domain T -> s_nh W = false -> member W u -> right_system G W T ->
  (s_orth T = true -> identity_base (s_base T)) ->
  (ua = true /\ s_class W = s_class T /\ same_kind W T /\ (sN W <= sN T)%nat) \/
  (s_class W <> s_class T /\ sN W = sN T /\ s_quad W = s_quad T) \/
  (ua = true /\ (sN T < sdim W)%nat) \/
  (ua = false /\ s_class W <> s_class T /\ (s_orth T = true -> (sN W <= sN T)%nat)) ->
  is_projection W T u (project ua to G W T u).
Proof.
  intros W T u G ua to GW GT EF ED Hh HM HR HI H.
  assert (is_projection W T u (galerkin G W T (fun _ => 0) u)) as PG by (apply galerkin_right; assumption).
  assert (s_class W <> s_class T -> spaces_equal W T = false) as NE.
  { intros E. unfold spaces_equal. destruct (String.eqb_spec (s_class W) (s_class T)); [congruence|reflexivity]. }
  assert (s_orth T = true -> (sN W <= sN T)%nat ->
    is_projection W T u (match fun_to_ortho W (sN T) u with (true, v) => v | (false, v) => galerkin G W T v u end)) as PO.
  { intros HT EN. destruct (s_orth W) eqn:HW.
    - unfold fun_to_ortho. rewrite HW. exact PG.
    - destruct (ortho_same W T GW GT u HW HM EF ED EN (HI HT)) as (v & Ev & Hv). rewrite Ev. apply same_projection, Hv. }
  destruct H as [(-> & EC & SK & HN)|[(EC & EN & EQ)|[(-> & HN)|(-> & EC & HN)]]].
  - apply same_projection. intros x. apply C58_denser; assumption.
  - unfold project. rewrite (NE EC). unfold compatible_base.
    rewrite EF, EQ, EN, Nat.eqb_refl, (proj2 (quad_eqb_eq _ _) eq_refl), (proj2 (family_eqb_eq _ _) eq_refl), <- EN. cbn [andb negb].
    destruct (s_orth T) eqn:HT; cbn [andb]; [|exact PG]. destruct to; [|exact PG]. rewrite EN. apply PO; [reflexivity|lia].
  - assert (sdim W <= sN W)%nat by (unfold sdim, cdim, sN; lia).
    unfold project, spaces_equal, compatible_base. assert ((sN W =? sN T)%nat = false) as -> by (apply Nat.eqb_neq; lia).
    rewrite andb_false_r. cbn [andb negb].
    unfold assign. destruct (Nat.ltb_spec (sN W) (sN T)); [lia|]. destruct (Nat.eqb_spec (sN W) (sN T)); [lia|].
    destruct (Nat.leb_spec (sdim W) (sN T)); [lia|exact PG].
  - unfold project. rewrite (NE EC), andb_false_r. destruct (s_orth T) eqn:HT; cbn [andb]; [|exact PG]. destruct to; [|exact PG].
    apply PO; auto.
Qed.
Print Assumptions C58_projection_partial.
(** the projection is unique: two results with the same boundary values are the same function *)
Theorem C58_unique : forall W T u c d, good_space T ->
  (forall i, (i < cnb (s_base T))%nat -> c (sdim T + i)%nat = d (sdim T + i)%nat) ->
  is_projection W T u c -> is_projection W T u d ->
  forall x, fst (s_domain T) < x < snd (s_domain T) -> function T c x = function T d x.
Proof. exact projection_unique. Qed.
Print Assumptions C58_unique.

(** ** examples and findings *)
Definition unit (k : nat) : nat -> R := fun j => if Nat.eqb j k then 1 else 0.
Lemma function_unit s k x : (k < sdim s)%nat -> function s (unit k) x = basis s k x.
Proof.
  intros Hk. rewrite function_hom.
  - rewrite (sum_ext _ _ (fun j => if Nat.eqb j k then basis s j x else 0)) by (intros j _; unfold unit; destruct (Nat.eqb j k); ring).
    induction (sdim s) as [|n IH]; [lia|]. cbn [gsum]. destruct (Nat.eqb_spec n k) as [->|Ne].
    + rewrite sum_0; [ring|]. intros i Hi. destruct (Nat.eqb_spec i k); [lia|reflexivity].
    + rewrite IH by lia. ring.
  - intros i _. unfold unit. destruct (Nat.eqb_spec (sdim s + i) k); [lia|reflexivity].
Qed.
Lemma orth_wf N : wf_base (orth_base N).
Proof. repeat split; cbn; try lia; repeat constructor; cbn; try lia; intros []. Qed.
Lemma orth_basis f q d N k x : (k < N)%nat -> basis (orth_space f q d N) k x = peval (polys f k) (to_ref d x).
Proof. intros Hk. apply orth_phi; [apply orth_wf|split; reflexivity|exact Hk]. Qed.
Definition ref : R * R := (-1, 1).
Lemma ref_ref x : to_ref ref x = x. Proof. unfold to_ref, ref. cbn [fst snd]. field. Qed.
Lemma ref_true x : to_true ref x = x. Proof. unfold to_true, ref. cbn [fst snd]. field. Qed.
(** the boundary functions (1 - x)/2 and (1 + x)/2 *)
Definition dirichlet_B (i j : nat) : R := match i, j with 0%nat, 0%nat => 1/2 | 0%nat, 1%nat => - (1/2) | 1%nat, 0%nat => 1/2 | 1%nat, 1%nat => 1/2 | _, _ => 0 end.
Definition leg_dirichlet (q : quad) (N : nat) : space := comp_space "ShenDirichlet" Legendre q ref false legendre_ShenDirichlet 2 dirichlet_B N.
Lemma dirichlet_wf q N : (2 <= N)%nat -> wf_base (s_base (leg_dirichlet q N)).
Proof. intros H. repeat split; cbn; try lia; repeat constructor; cbn; unfold cdim; cbn; try lia; intros [X|[]]; discriminate. Qed.
Lemma dirichlet_basis q N k x : (k < N - 2)%nat -> basis (leg_dirichlet q N) k x = peval (legL k) x - peval (legL (2 + k)) x.
Proof.
  intros Hk. unfold basis, phi. cbn [s_family s_base s_domain leg_dirichlet comp_space cS polys]. rewrite ref_ref.
  etransitivity; [refine (basis_deriv legL legendre_ShenDirichlet N k 0 x _ _ Hk); [nodup|nodup]|].
  cbn [sc_stencil legendre_ShenDirichlet stencil_sum sval]. change (1 * peval (legL k) x + (-1 * peval (legL (2 + k)) x + 0) = peval (legL k) x - peval (legL (2 + k)) x). ring.
Qed.
(** if the residual times a basis function of a Legendre space on (-1, 1) is the polynomial p, and its integral is not zero *)
Lemma not_projection W T u c i p : (i < sdim T)%nat -> s_family T = Legendre ->
  (forall X, (function T c (to_true (s_domain T) X) - function W u (to_true (s_domain T) X)) * basis T i (to_true (s_domain T) X) = peval p X) ->
  pint p <> 0 -> ~ is_projection W T u c.
Proof.
  intros Hi EF E Hp H. specialize (H i Hi). unfold inner_w in H. rewrite EF in H. cbn [weighted] in H.
  apply Hp. eapply integral_unique; [|exact H]. apply integral_poly. intros X. apply E.
Qed.
Ltac leg := cbn [legL three_term INR polys chebT]; rewrite ?peval_padd, ?peval_pscale, ?peval_pX; cbn [peval].

(** FINDING: a Chebyshev Function projected to a Legendre space of the same size keeps its coefficients, whatever the quadrature
    rules: with the same rule (both have 'GL') the spaces are equal for ==, otherwise assign copies.  T_2 becomes L_2. *)
Theorem C58_families_refuted : forall qW qT N to G, (3 <= N)%nat ->
  let W := orth_space Chebyshev qW ref N in let T := orth_space Legendre qT ref N in
  (forall k, project true to G W T (unit 2) k = unit 2 k) /\ ~ is_projection W T (unit 2) (project true to G W T (unit 2)).
Proof.
  intros qW qT N to G HN W T. assert (project true to G W T (unit 2) = unit 2) as ->.
  { unfold project, spaces_equal, compatible_base, assign, sN. cbn [W T s_class s_quad s_base s_family orth_space orth_base cN]. rewrite Nat.eqb_refl, Nat.ltb_irrefl.
    cbn [String.eqb Ascii.eqb Bool.eqb family_eqb]. rewrite !andb_true_r, andb_false_r. cbn [andb negb]. destruct (quad_eqb qW qT); reflexivity. }
  split; [reflexivity|]. apply (not_projection W T _ _ 0 [-1/2 + 1; 0; 3/2 - 2]).
  - unfold sdim, cdim. cbn. lia.
  - reflexivity.
  - intros X. rewrite !function_unit by (unfold sdim, cdim; cbn; lia). unfold W, T. rewrite !orth_basis by lia. cbn [orth_space s_domain]. rewrite ref_ref, ref_true. leg. field.
  - unfold pint, pprim. cbn. lra.
Qed.
Print Assumptions C58_families_refuted.
(** FINDING: == does not compare domains: x on (-1, 1) becomes 2x - 1 on (0, 1) *)
Theorem C58_domains_refuted : forall q N ua to G, (2 <= N)%nat ->
  let W := orth_space Legendre q ref N in let T := orth_space Legendre q (0, 1) N in
  ~ is_projection W T (unit 1) (project ua to G W T (unit 1)).
Proof.
  intros q N ua to G HN W T. assert (project ua to G W T (unit 1) = unit 1) as ->.
  { unfold project, spaces_equal, sN. cbn [W T s_class s_quad s_base orth_space orth_base cN]. rewrite Nat.eqb_refl, (proj2 (quad_eqb_eq q q) eq_refl). reflexivity. }
  apply (not_projection W T _ _ 0 [-1/2; 1/2]).
  - unfold sdim, cdim. cbn. lia.
  - reflexivity.
  - intros X. rewrite !function_unit by (unfold sdim, cdim; cbn; lia). unfold W, T. rewrite !orth_basis by lia. cbn [orth_space s_domain]. rewrite ref_ref.
    unfold to_true, to_ref. cbn [fst snd]. leg. field.
  - unfold pint, pprim. cbn. lra.
Qed.
Print Assumptions C58_domains_refuted.
(** FINDING: == does not compare the bases of a class: ShenDirichlet with and without scaled=True *)
Theorem C58_scaled_refuted : forall q N ua to G, (3 <= N)%nat ->
  let W := leg_dirichlet q N in
  let T := comp_space "ShenDirichlet" Legendre q ref false legendre_ShenDirichlet_scaled 2 dirichlet_B N in
  ~ is_projection W T (unit 0) (project ua to G W T (unit 0)).
Proof.
  intros q N ua to G HN W T. assert (project ua to G W T (unit 0) = unit 0) as ->.
  { unfold project, spaces_equal, sN. cbn [W T s_class s_quad s_base leg_dirichlet comp_space cN]. rewrite Nat.eqb_refl, (proj2 (quad_eqb_eq q q) eq_refl). reflexivity. }
  set (r := / sqrt 6).
  assert (0 < r < 1) as Hr.
  { assert (1 < sqrt 6) as H by (rewrite <- sqrt_1; apply sqrt_lt_1; lra).
    split; [apply Rinv_0_lt_compat; lra|]. rewrite <- Rinv_1. apply Rinv_lt_contravar; lra. }
  assert (forall x, basis T 0 x = r * (1 - (3 * x * x - 1) / 2)) as E.
  { intros x. unfold basis, phi. cbn [s_family s_base s_domain T comp_space cS polys]. rewrite ref_ref.
    etransitivity; [refine (basis_deriv legL legendre_ShenDirichlet_scaled N 0 0 x _ _ _); [nodup|nodup|cbn; lia]|].
    cbn [sc_stencil legendre_ShenDirichlet_scaled stencil_sum sval deriv_at dn]. cbn [Nat.add INR]. replace (4 * 0 + 6) with 6 by ring. fold r.
    unfold Rdiv. fold r. unfold deriv_at, dn. leg. field. }
  apply (not_projection W T _ _ 0 (pscale ((r - 1) * r) [9/4; 0; -9/2; 0; 9/4])).
  - unfold sdim, cdim. cbn. lia.
  - reflexivity.
  - intros X. rewrite !function_unit by (unfold sdim, cdim; cbn; lia). unfold W. rewrite dirichlet_basis by lia. cbn [T comp_space s_domain]. rewrite ref_true, !E.
    cbn [Nat.add]. leg. field.
  - unfold pint, pprim. cbn. nra.
Qed.
Print Assumptions C58_scaled_refuted.
(** FINDING: assign does not compare the bases: a function of an orthogonal space is projected to a larger composite space by
    copying its coefficients, so that 1 becomes L_0 - L_2 *)
Theorem C58_orthogonal_to_composite_refuted : forall q q' N M to G, (1 <= N)%nat -> (N < M)%nat -> (3 <= M)%nat ->
  let W := orth_space Legendre q ref N in let T := leg_dirichlet q' M in
  ~ is_projection W T (unit 0) (project true to G W T (unit 0)).
Proof.
  intros q q' N M to G HN HM H3 W T.
  assert (exists v, project true to G W T (unit 0) = v /\ forall k, (k < M)%nat -> v k = unit 0 k) as (v & -> & Hv).
  { eexists; split; [reflexivity|]. unfold project, spaces_equal, compatible_base, assign, sN. cbn [W T s_class s_quad s_base s_family orth_space orth_base leg_dirichlet comp_space cN String.eqb Ascii.eqb Bool.eqb andb].
    assert ((N =? M)%nat = false) as -> by (apply Nat.eqb_neq; lia). cbn [andb negb]. rewrite (proj2 (Nat.ltb_lt N M) HM).
    intros k Hk. unfold padding, cdim. cbn [cN cnb orth_base]. rewrite !Nat.sub_0_r.
    assert ((M <=? k)%nat = false) as -> by (apply Nat.leb_gt; lia). cbn [andb]. destruct (Nat.ltb_spec k N); [reflexivity|].
    unfold unit. destruct (Nat.eqb_spec k 0); [lia|reflexivity]. }
  assert (forall x, function T v x = function T (unit 0) x) as Ef.
  { intros x. rewrite !function_sum. f_equal; apply sum_ext; intros k Hk; rewrite Hv; auto; unfold sdim, cdim in *; cbn in *; lia. }
  apply (not_projection W T _ _ 0 (pscale (-1/4) [-3; 0; 12; 0; -9])).
  - unfold sdim, cdim. cbn. lia.
  - reflexivity.
  - intros X. rewrite Ef. rewrite !function_unit by (unfold sdim, cdim; cbn; lia). unfold W, T. rewrite orth_basis, dirichlet_basis by lia. cbn [orth_space leg_dirichlet comp_space s_domain]. rewrite ref_ref, ref_true. cbn [Nat.add]. leg. field.
  - unfold pint, pprim. cbn. lra.
Qed.
Print Assumptions C58_orthogonal_to_composite_refuted.
(** FINDING: assign to a slightly smaller composite space puts coefficients in the places of the boundary values *)
Theorem C58_truncation_refuted : forall q to G, let W := leg_dirichlet q 6 in let T := leg_dirichlet q 5 in
  project true to G W T (unit 3) 3%nat = 1 /\ sdim T = 3%nat /\ ~ is_projection W T (unit 3) (project true to G W T (unit 3)).
Proof.
  intros q to G W T.
  assert (exists v, project true to G W T (unit 3) = v /\ forall k, (k < 5)%nat -> v k = unit 3 k) as (v & -> & Hv).
  { eexists; split; [reflexivity|]. unfold project, spaces_equal, compatible_base, assign, sN, sdim, cdim.
    cbn [W T s_class s_quad s_base s_family leg_dirichlet comp_space cN cnb]. cbn [Nat.eqb andb negb Nat.ltb Nat.leb Nat.sub sc_bcs legendre_ShenDirichlet List.length]. rewrite !andb_false_r. cbn [negb andb].
    intros k Hk. destruct k as [|[|[|[|[|k]]]]]; try reflexivity; lia. }
  split; [rewrite Hv by lia; reflexivity|]. split; [reflexivity|].
  assert (forall x, function T v x = (1 - x) / 2) as Ef.
  { intros x. rewrite function_sum. unfold sdim, cdim. cbn [T leg_dirichlet comp_space s_base s_domain s_family cN cnb sc_bcs legendre_ShenDirichlet List.length Nat.sub gsum Nat.add].
    rewrite !Hv by lia. unfold unit. cbn [Nat.eqb]. unfold bfun. rewrite !peval_pcomb. cbn [cO cB gsum dirichlet_B polys]. rewrite ref_ref. leg. field. }
  apply (not_projection W T _ _ 0 (pmul (padd [1/2; -1/2] (pscale (-1) (padd (legL 3) (pscale (-1) (legL 5))))) (padd (legL 0) (pscale (-1) (legL 2))))).
  - unfold sdim, cdim. cbn. lia.
  - reflexivity.
  - intros X. rewrite Ef. rewrite !function_unit by (unfold sdim, cdim; cbn; lia). unfold W, T. rewrite !dirichlet_basis by lia. cbn [leg_dirichlet comp_space s_domain]. rewrite ref_true.
    rewrite peval_pmul, !peval_padd, !peval_pscale, !peval_padd, !peval_pscale. cbn [Nat.add peval]. field.
  - unfold pint, pprim. cbn. lra.
Qed.
Print Assumptions C58_truncation_refuted.
(** FINDING: use_assign=False, to an orthogonal space with one point less: to_ortho raises after its first step, and what it has
    written is added to the right hand side: the result is no projection, although the linear system is right *)
Theorem C58_leftover_refuted : forall q q' N G, (4 <= N)%nat -> let W := leg_dirichlet q (S N) in let T := orth_space Legendre q' ref N in
  right_system G W T -> ~ is_projection W T (unit 0) (project false true G W T (unit 0)).
Proof.
  intros q q' N G HN W T HR H.
  assert (project false true G W T (unit 0) = galerkin G W T (to_ortho_step (S N) (S N - 2) (unit 0) (fun _ => 0) (0%Z, Scal RFld 1)) (unit 0)) as E.
  { unfold project, spaces_equal. cbn [W T s_class leg_dirichlet comp_space orth_space String.eqb Ascii.eqb Bool.eqb andb s_orth]. rewrite andb_false_r.
    assert (fun_to_ortho W (sN T) (unit 0) = let '(ok, v) := to_ortho_try (S N) (S N - 2) N (unit 0) [(0%Z, Scal RFld 1); (2%Z, Scal RFld (-1))] (fun _ => 0) in
      if ok then (true, v) else (false, v)) as -> by reflexivity.
    cbn [to_ortho_try].
    assert (step_fits (S N) (S N - 2) N (0%Z, Scal RFld 1) = true) as ->.
    { unfold step_fits. cbn [fst Z.leb Z.compare]. apply orb_true_intro. left. apply Z.leb_le. lia. }
    assert (step_fits (S N) (S N - 2) N (2%Z, Scal RFld (-1)) = false) as ->; [|reflexivity].
    unfold step_fits. cbn [fst Z.leb Z.compare]. apply orb_false_intro; apply Z.leb_gt; lia. }
  rewrite E in H.
  assert (good_space W /\ good_space T) as (GW & GT).
  { split; (split; [cbn; lra|]); [apply dirichlet_wf; lia|apply orth_wf]. }
  assert (0 < sdim T)%nat as H0 by (unfold sdim, cdim; cbn; lia).
  pose proof (galerkin_residual W T G (to_ortho_step (S N) (S N - 2) (unit 0) (fun _ => 0) (0%Z, Scal RFld 1)) (unit 0) 0 HR) as V.
  assert (member W (unit 0)) as HM.
  { intros _ i _. unfold unit. destruct (Nat.eqb_spec (sdim W + i) 0) as [X|_]; [unfold sdim, cdim in X; cbn in X; lia|reflexivity]. }
  specialize (V HM eq_refl H0). specialize (H 0%nat H0).
  assert (0 = to_ortho_step (S N) (S N - 2) (unit 0) (fun _ => 0) (0%Z, Scal RFld 1) 0%nat) as F by (eapply integral_unique; [exact H|exact V]).
  unfold to_ortho_step in F.
  match type of F with 0 = (if ?c then _ else _) => assert (c = true) as Hc end.
  { apply andb_true_intro. split; [reflexivity|]. apply Z.ltb_lt. change (0 <=? 0)%Z with true. cbv iota. rewrite !Z.max_l by lia. lia. }
  rewrite Hc in F. cbn in F. lra.
Qed.
Print Assumptions C58_leftover_refuted.
(** ** the hypotheses can be met *)
Definition leg_system (W : space) (T : space) : system :=
  mkSystem (fun i j => ip (phi legL (s_base W) j) (phi legL (s_base T) i)) (fun r k => r k * ((2 * INR k + 1) / 2)).
Example C58_ex_system : forall q q' N M, (2 <= M)%nat -> right_system (leg_system (leg_dirichlet q M) (orth_space Legendre q' ref N)) (leg_dirichlet q M) (orth_space Legendre q' ref N).
Proof.
  intros q q' N M HM. split.
  - intros i j Hi Hj. unfold inner_w. cbn [s_family s_domain orth_space weighted]. apply integral_poly. intros X. rewrite ref_true. unfold basis. cbn [s_domain orth_space leg_dirichlet comp_space]. rewrite !ref_ref, peval_pmul. reflexivity.
  - exists (fun i k => T00 k i). split.
    + intros i k Hi Hk. unfold inner_w. cbn [s_family s_domain orth_space weighted]. rewrite <- t00. apply integral_poly. intros X.
      unfold sdim, cdim in *. cbn [s_base orth_space orth_base cN cnb] in *. rewrite ref_true, !orth_basis, !ref_ref, peval_pmul by lia. reflexivity.
    + intros r i Hi. rewrite (sum_ext _ _ (fun k => if Nat.eqb k i then r k else 0)).
      * induction (sdim _) as [|n IH]; [lia|]. cbn [gsum]. destruct (Nat.eqb_spec n i) as [->|Ne].
        -- rewrite sum_0; [ring|]. intros k Hk. destruct (Nat.eqb_spec k i); [lia|reflexivity].
        -- rewrite IH by lia. ring.
      * intros k Hk. unfold T00. cbn [g_solve leg_system]. destruct (Nat.eqb_spec k i) as [->|]; [|ring]. pose proof (pos_INR i). field. lra.
Qed.
Example C58_ex_spaces : forall q N, (2 <= N)%nat -> good_space (leg_dirichlet q N) /\ good_space (orth_space Legendre q ref N) /\ identity_base (s_base (orth_space Legendre q ref N)) /\
  same_kind (leg_dirichlet q N) (leg_dirichlet q (N + 3)).
Proof.
  intros q N HN. split; [|split; [|split]].
  - split; [cbn; lra|apply dirichlet_wf; exact HN].
  - split; [cbn; lra|apply orth_wf].
  - split; reflexivity.
  - refine (proj2 (C58_kinds Legendre q q ref N (N + 3)) "ShenDirichlet"%string false false legendre_ShenDirichlet 2%nat dirichlet_B _).
    apply in_or_app. right. apply in_or_app. left. cbn. tauto.
Qed.
(** psi_0 = L_0 - L_2 of the Dirichlet space, projected to the orthogonal space: to_ortho gives (1, 0, -1, 0, ..) *)
Example C58_ex_to_ortho : forall q N G x, (3 <= N)%nat ->
  function (orth_space Legendre q ref N) (project true true G (leg_dirichlet q N) (orth_space Legendre q ref N) (unit 0)) x = peval (legL 0) x - peval (legL 2) x.
Proof.
  intros q N G x HN. rewrite C58_to_ortho; auto.
  - rewrite function_unit by (unfold sdim, cdim; cbn; lia). rewrite dirichlet_basis by lia. reflexivity.
  - apply C58_ex_spaces. lia.
  - apply C58_ex_spaces. lia.
  - discriminate.
  - split; reflexivity.
  - intros _ i Hi. unfold unit. destruct (Nat.eqb_spec (sdim (leg_dirichlet q N) + i) 0) as [X|]; [unfold sdim, cdim in X; cbn in X; lia|reflexivity].
Qed.
