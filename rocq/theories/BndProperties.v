(** BndProperties.v -- C52: inhomogeneous boundary conditions.

    Not covered: more than one inhomogeneous axis (Solver2D), boundary values given as Function or Project, floating point. *)
From Coq Require Import Reals ZArith List Bool Arith Lia Lra.
From Verif Require Import Base Fld SparseModel SparseSpec RPoly StencilModel StencilModel2 StencilSpec StencilProofs StencilProperties PencilModel BndModel BndSpec BndProofs BndProofs2 BndProofs3.
Import ListNotations.
Local Open Scope R_scope.

(** ** one axis *)
(** backward evaluates the expansion, boundary functions included, also when the physical space is padded to n > N points *)
Theorem C52_backward : forall P b n u x, wf_base b -> (cN b <= n)%nat ->
  backward b P true false n u x = peval (expansion P b u) x /\
  ((forall i, (i < cnb b)%nat -> u (cdim b + i)%nat = 0) -> backward b P false false n u x = peval (expansion P b u) x).
Proof. intros P b n u x W Hn. split; [apply backward_ok; auto|apply backward_hom; auto]. Qed.
Print Assumptions C52_backward.
(** kind 'vandermonde' gives the same; Sn is the stencil matrix of size n *)
Theorem C52_vandermonde : forall P b n Sn u x, wf_base b -> (cN b <= n)%nat ->
  (forall k j, (k < cdim b)%nat -> (j < n)%nat -> mat_entry RFld Sn k j = if (j <? cN b)%nat then mat_entry RFld (cS b) k j else 0) ->
  backward_vandermonde b Sn P false n u x = backward b P true false n u x.
Proof.
  intros P b n Sn u x W Hn HS. rewrite backward_ok by auto. apply vandermonde_ok; auto. destruct W as (_ & _ & _ & H & _). lia.
Qed.
Print Assumptions C52_vandermonde.
(** forward sets the boundary coefficients, and the remainder is orthogonal to every basis function *)
Theorem C52_forward : forall P b Q A g nh bcs u, wf_base b -> correct P b Q g A ->
  (nh = false -> forall j, (j < cnb b)%nat -> bcs j = 0) ->
  let v := forward b P Q A nh bcs g u in
  has_bcs b bcs v /\
  (forall i, (i < cdim b)%nat -> product Q g (at_points Q (phi P b i)) (fun q => u q - peval (expansion P b v) (qx Q q)) = 0) /\
  (forall w, has_bcs b bcs w ->
     (forall i, (i < cdim b)%nat -> product Q g (at_points Q (phi P b i)) (fun q => u q - peval (expansion P b w) (qx Q q)) = 0) ->
     forall k, (k < cN b)%nat -> w k = v k).
Proof.
  intros P b Q A g nh bcs u W C Hn v.
  assert (forall i w, product Q g (at_points Q (phi P b i)) (fun q => u q - peval (expansion P b w) (qx Q q)) =
    product Q g (at_points Q (phi P b i)) u - product Q g (at_points Q (phi P b i)) (at_points Q (expansion P b w))) as E.
  { intros i w. unfold product. rewrite <- sum_sub. apply sum_ext. intros q _. unfold at_points. ring. }
  assert (has_bcs b bcs v) as Hv by (apply forward_bcs; assumption).
  assert (forall i, (i < cdim b)%nat -> product Q g (at_points Q (phi P b i)) (at_points Q (expansion P b v)) = product Q g (at_points Q (phi P b i)) u) as Hr.
  { intros i Hi. apply forward_residual; assumption. }
  split; [exact Hv|]. split.
  - intros i Hi. rewrite E, Hr by exact Hi. ring.
  - intros w Hw Hres. apply (residual_unique P b W Q A g C w v).
    + intros j Hj. rewrite (Hw j Hj), (Hv j Hj). reflexivity.
    + intros i Hi. rewrite Hr by exact Hi. specialize (Hres i Hi). rewrite E in Hres. lra.
Qed.
Print Assumptions C52_forward.
(** a function of the space is recovered: backward then forward *)
Theorem C52_roundtrip : forall P b Q A g nh bcs v, wf_base b -> correct P b Q g A ->
  (nh = false -> forall j, (j < cnb b)%nat -> bcs j = 0) -> has_bcs b bcs v ->
  forall k, (k < cN b)%nat -> forward b P Q A nh bcs g (fun q => backward b P true false (cN b) v (qx Q q)) k = v k.
Proof.
  intros P b Q A g nh bcs v W C Hn Hb k Hk. rewrite <- (forward_expansion P b W Q A g C nh bcs v k Hn Hb Hk).
  unfold forward, forward_measured, add_mass_rhs, scalar_product.
  assert (forall i, rsum (qn Q) (fun q => g q * backward b P true false (cN b) v (qx Q q) * qw Q q * rsum (cN b) (fun j => peval (P j) (qx Q q) * mat_entry RFld (cS b) i j)) =
    rsum (qn Q) (fun q => g q * at_points Q (expansion P b v) q * qw Q q * rsum (cN b) (fun j => peval (P j) (qx Q q) * mat_entry RFld (cS b) i j))) as E.
  { intros i. apply sum_ext. intros q _. rewrite backward_ok by auto. reflexivity. }
  assert (forall (f h : nat -> R), (forall i, f i = h i) -> (if (k <? cdim b)%nat then a_solve A f k else f k) = (if (k <? cdim b)%nat then a_solve A h k else h k)) as X.
  { intros f h H. destruct (Nat.ltb_spec k (cdim b)) as [L|L]; [|apply H].
    destruct C as (C1 & C2 & _). pose proof (C2 (fun i => a_solve A f i - a_solve A h i)) as U.
    assert (a_solve A f k - a_solve A h k = 0); [|lra]. apply U; [|exact L]. intros i Hi.
    rewrite (sum_ext _ _ (fun k0 => product Q g (at_points Q (phi P b i)) (at_points Q (phi P b k0)) * a_solve A f k0 - product Q g (at_points Q (phi P b i)) (at_points Q (phi P b k0)) * a_solve A h k0)) by (intros; ring).
    rewrite sum_sub, !C1 by exact Hi. rewrite H. ring. }
  apply X. intros i.
  assert (forall i, set_boundary_dofs (cN b) (cnb b) bcs (fun i => if (i <? cdim b)%nat then rsum (qn Q) (fun q => g q * backward b P true false (cN b) v (qx Q q) * qw Q q * rsum (cN b) (fun j => peval (P j) (qx Q q) * mat_entry RFld (cS b) i j)) else 0) i =
    set_boundary_dofs (cN b) (cnb b) bcs (fun i => if (i <? cdim b)%nat then rsum (qn Q) (fun q => g q * at_points Q (expansion P b v) q * qw Q q * rsum (cN b) (fun j => peval (P j) (qx Q q) * mat_entry RFld (cS b) i j)) else 0) i) as Y.
  { intros i0. unfold set_boundary_dofs. rewrite E. reflexivity. }
  destruct nh; [|apply Y]. rewrite Y. f_equal. destruct (i <? cdim b)%nat; [|reflexivity]. apply sum_ext. intros j _. rewrite Y. reflexivity.
Qed.
Print Assumptions C52_roundtrip.

(** ** the conditions hold *)
(** any linear boundary functional F that vanishes on the basis functions and is 1 on its own boundary function, 0 on the others *)
Theorem C52_trace : forall P b Q A g nh bcs u F j, wf_base b -> correct P b Q g A -> linear_fun F -> (j < cnb b)%nat ->
  (forall k, (k < cdim b)%nat -> F (phi P b k) = 0) -> (forall i, (i < cnb b)%nat -> F (bfun P b i) = if Nat.eqb i j then 1 else 0) ->
  F (expansion P b (forward b P Q A nh bcs g u)) = bcs j.
Proof. intros. apply (trace_ok P b F bcs _ j); auto. apply forward_bcs; assumption. Qed.
Print Assumptions C52_trace.
(** the classes of C29: the condition is a derivative of some order at an end of [-1, 1] *)
Definition class_base (cls : stencil_class) (N O : nat) (B : nat -> nat -> R) : cbase := mkCbase N (length (sc_bcs cls)) (stencil_matrix cls N) O B.
Definition dual (P : nat -> poly) (cls : stencil_class) (O : nat) (B : nat -> nat -> R) : Prop :=
  forall i j, (i < length (sc_bcs cls))%nat -> (j < length (sc_bcs cls))%nat ->
    let c := nth j (sc_bcs cls) (mkBc Left 0) in
    deriv_at (bc_order c) (pcomb O (B i) P) (end_point (bc_side c)) = if Nat.eqb i j then 1 else 0.
Lemma linear_deriv m x : linear_fun (fun p => deriv_at m p x).
Proof. split; [|split]; intros; [apply deriv_at_padd|apply deriv_at_pscale|apply deriv_at_nil]. Qed.
Lemma class_trace P cls N O B bcs v j : bcs_ok P cls -> dual P cls O B -> (j < length (sc_bcs cls))%nat ->
  has_bcs (class_base cls N O B) bcs v ->
  let c := nth j (sc_bcs cls) (mkBc Left 0) in
  deriv_at (bc_order c) (expansion P (class_base cls N O B) v) (end_point (bc_side c)) = bcs j.
Proof.
  intros OK D Hj Hv c. apply (trace_ok P (class_base cls N O B) (fun p => deriv_at (bc_order c) p (end_point (bc_side c))) bcs v j); auto.
  - apply linear_deriv.
  - intros k Hk. specialize (OK N k Hk). rewrite Forall_forall in OK. apply OK. apply nth_In. exact Hj.
  - intros i Hi. apply (D i j Hi Hj).
Qed.
Theorem C52_classes : forall P classes, In (P, classes)
    [(chebT, chebyshev_classes); (legL, legendre_classes); (chebU, chebyshevu_classes)] ->
  forall cls N O B Q A g nh bcs u, In cls classes -> dual P cls O B -> wf_base (class_base cls N O B) ->
  correct P (class_base cls N O B) Q g A ->
  forall j, (j < length (sc_bcs cls))%nat -> let c := nth j (sc_bcs cls) (mkBc Left 0) in
  deriv_at (bc_order c) (expansion P (class_base cls N O B) (forward (class_base cls N O B) P Q A nh bcs g u)) (end_point (bc_side c)) = bcs j.
Proof.
  intros P classes Hin cls N O B Q A g nh bcs u Hc D W C j Hj. apply class_trace; auto.
  - assert (Forall (bcs_ok P) classes) as F.
    { cbn in Hin. repeat destruct Hin as [Hin|Hin]; try (injection Hin as <- <-); [apply C29_chebyshev|apply C29_legendre|apply C29_chebyshevu|destruct Hin]. }
    rewrite Forall_forall in F. auto.
  - apply forward_bcs; assumption.
Qed.
Print Assumptions C52_classes.

(** FINDING: with dealias_direct, _padding_backward zeroes the boundary coefficients before it copies them to themselves, so
    that the boundary values are lost *)
Theorem C52_dealias_direct_refuted : forall P b u F, wf_base b -> (2 * cN b / 3 <= cdim b)%nat -> linear_fun F ->
  (forall k, (k < cdim b)%nat -> F (phi P b k) = 0) ->
  exists w, (forall x, backward b P true true (cN b) u x = peval (expansion P b w) x) /\ F (expansion P b w) = 0.
Proof.
  intros P b u F W Hd HF H0. exists (padding_same b true u). split.
  - intros x. rewrite <- (backward_ok P b W (cN b) (padding_same b true u) x) by lia. unfold backward. rewrite Nat.eqb_refl. reflexivity.
  - assert (forall i, (i < cnb b)%nat -> padding_same b true u (cdim b + i)%nat = 0) as Z.
    { intros i Hi. unfold padding_same. destruct (_ && _)%bool; unfold cdim in *.
      - destruct (Nat.leb_spec (2 * cN b / 3) (cN b - cnb b + (cN b - cnb b + i - (cN b - cnb b))))%nat as [L|L]; [reflexivity|lia].
      - destruct (Nat.leb_spec (2 * cN b / 3) (cN b - cnb b + i))%nat as [L|L]; [reflexivity|lia]. }
    unfold expansion. destruct HF as (F1 & F2 & F3). rewrite F1, !lin_pcomb by (split; [|split]; auto).
    rewrite sum_0 by (intros k Hk; rewrite H0 by exact Hk; ring). rewrite sum_0 by (intros i Hi; rewrite Z by exact Hi; ring). ring.
Qed.
Print Assumptions C52_dealias_direct_refuted.

(** ** tensor product spaces with one inhomogeneous axis *)
(** set_tensor_bcs and forward: the boundary rows of the result are the transforms along the other axes of the boundary values,
    bcs_final holds the same, and for each mode of the other axes the remainder is orthogonal to the basis functions *)
Theorem C52_tensor : forall (OP SP OQ SQ : Type) (T : tensor OP SP OQ SQ) P b Q A nh vals u,
  wf_base b -> linear_op (t_before T) -> linear_op (t_after T) -> t_c T <> 0 ->
  correct P b Q (fun q => this_const T * t_gA T q) A ->
  (nh = false -> forall j p q, (j < cnb b)%nat -> vals j p q = 0) ->
  (forall p, t_gP T p = 1) -> (forall q, t_gQ T q = 1) -> (t_first T = true -> t_last T <> LBefore) ->
  (t_c T = 1 \/ (t_first T = true /\ t_last T = LThis) \/ (t_first T = false /\ t_last T <> LThis)) ->
  let v := tensor_forward T b P Q A nh (tensor_bcs T vals) u in
  (forall j s t, (j < cnb b)%nat -> v (cdim b + j)%nat s t = others T (vals j) s t /\
                                    tensor_bcs_final T b P Q A nh vals j s t = others T (vals j) s t) /\
  (forall i s t, (i < cdim b)%nat ->
     product Q (t_gA T) (at_points Q (phi P b i)) (fun k => others T (u k) s t - peval (expansion P b (fun k => v k s t)) (qx Q k)) = 0).
Proof.
  intros OP SP OQ SQ T P b Q A nh vals u W HB HA C0 CA Hn GP GQ HF HC v. split.
  - intros j s t Hj. split; [unfold v; rewrite tensor_rows by auto|rewrite final_eq by auto]; apply bcs_right; auto.
  - intros i s t Hi.
    transitivity (product Q (t_gA T) (at_points Q (phi P b i)) (fun k => others T (u k) s t) - product Q (t_gA T) (at_points Q (phi P b i)) (at_points Q (expansion P b (fun k => v k s t)))).
    { unfold product. rewrite <- sum_sub. apply sum_ext. intros q _. unfold at_points. ring. }
    unfold v. rewrite (tensor_residual T P b Q A W HB HA C0 CA); auto; [ring|].
    intros E j s' q Hj. unfold tensor_bcs, x_before.
    assert (forall p, vals j p q = 0) as Z by (intros p; apply Hn; auto).
    destruct HB as (L1 & L2 & L3).
    assert (forall f : OP -> R, (forall p, f p = 0) -> t_before T f s' = 0) as Z0.
    { intros f Hf. rewrite (L3 f (fun p => 0 * f p)) by (intros p; rewrite Hf; ring). rewrite L2. ring. }
    destruct (t_first T); [apply Z0; auto|]. destruct (t_last T); rewrite Z0; try (intros p; rewrite Z; ring); try reflexivity. field. exact C0.
Qed.
Print Assumptions C52_tensor.
(** so the expansion takes the transformed boundary values on the boundary *)
Theorem C52_tensor_trace : forall (OP SP OQ SQ : Type) (T : tensor OP SP OQ SQ) P b Q A nh vals u F j s t,
  wf_base b -> linear_op (t_before T) -> linear_op (t_after T) -> t_c T <> 0 ->
  (forall p, t_gP T p = 1) -> (forall q, t_gQ T q = 1) -> (t_first T = true -> t_last T <> LBefore) ->
  (t_c T = 1 \/ (t_first T = true /\ t_last T = LThis) \/ (t_first T = false /\ t_last T <> LThis)) ->
  linear_fun F -> (j < cnb b)%nat ->
  (forall k, (k < cdim b)%nat -> F (phi P b k) = 0) -> (forall i, (i < cnb b)%nat -> F (bfun P b i) = if Nat.eqb i j then 1 else 0) ->
  F (expansion P b (fun k => tensor_forward T b P Q A nh (tensor_bcs T vals) u k s t)) = others T (vals j) s t.
Proof.
  intros OP SP OQ SQ T P b Q A nh vals u F j s t W HB HA C0 GP GQ HF HC LF Hj H0 H1.
  apply (trace_ok P b F (fun j => others T (vals j) s t) _ j); auto. intros i Hi. rewrite tensor_rows by auto. apply bcs_right; auto.
Qed.
Print Assumptions C52_tensor_trace.
(** FINDING: the values are not multiplied by the measure of the other axes before the transforms that divide by their measured
    mass matrices, and the constant factor is applied only when this axis is not the first.  The boundary value 1 becomes
    2/3 (two points with measures 2 and 1, one constant basis function), 1/2 and 2 *)
Definition mean2 (f : bool -> R) (s : unit) : R := (f true + f false) / 3.
Definition ident (f : unit -> R) (s : unit) : R := f s.
Theorem C52_measure_refuted : forall P b Q A nh u u', wf_base b -> (0 < cnb b)%nat ->
  (let T := mkTensor bool unit unit unit 1 (fun _ => 1) (fun p => if p then 2 else 1) (fun _ => 1) mean2 ident LThis false in
   linear_op (t_before T) /\ linear_op (t_after T) /\
   others T (fun _ _ => 1) tt tt = 1 /\ tensor_forward T b P Q A nh (tensor_bcs T (fun _ _ _ => 1)) u (cdim b) tt tt = 2 / 3) /\
  (let T := mkTensor unit unit unit unit 2 (fun _ => 1) (fun _ => 1) (fun _ => 1) ident ident LAfter true in
   others T (fun _ _ => 1) tt tt = 1 /\ tensor_forward T b P Q A nh (tensor_bcs T (fun _ _ _ => 1)) u' (cdim b) tt tt = 1 / 2) /\
  (let T := mkTensor unit unit unit unit 2 (fun _ => 1) (fun _ => 1) (fun _ => 1) ident ident LThis false in
   others T (fun _ _ => 1) tt tt = 1 /\ tensor_forward T b P Q A nh (tensor_bcs T (fun _ _ _ => 1)) u' (cdim b) tt tt = 2).
Proof.
  intros P b Q A nh u u' W Hb.
  assert (linear_op mean2) as M by (unfold mean2; split; [|split]; intros; [field|field|rewrite !H; reflexivity]).
  assert (linear_op ident) as I by (unfold ident; split; [|split]; intros; [ring|ring|apply H]).
  split; [|split]; intros T.
  - split; [exact M|]. split; [exact I|]. split; [unfold others, T, mean2, ident; cbn [t_after t_gQ t_before t_gP]; lra|].
    rewrite <- (Nat.add_0_r (cdim b)). assert (t_c T <> 0) as Z by (cbn [t_c T]; lra). rewrite tensor_rows by auto.
    unfold tensor_bcs, x_after, x_before, T, mean2, ident; cbn [t_last t_first t_c t_before t_after]. lra.
  - split; [unfold others, T, ident; cbn [t_after t_gQ t_before t_gP]; lra|].
    rewrite <- (Nat.add_0_r (cdim b)). assert (t_c T <> 0) as Z by (cbn [t_c T]; lra). rewrite tensor_rows by auto.
    unfold tensor_bcs, x_after, x_before, T, ident; cbn [t_last t_first t_c t_before t_after]. lra.
  - split; [unfold others, T, ident; cbn [t_after t_gQ t_before t_gP]; lra|].
    rewrite <- (Nat.add_0_r (cdim b)). assert (t_c T <> 0) as Z by (cbn [t_c T]; lra). rewrite tensor_rows by auto.
    unfold tensor_bcs, x_after, x_before, T, ident; cbn [t_last t_first t_c t_before t_after]. lra.
Qed.
Print Assumptions C52_measure_refuted.

(** ** the array of boundary values on [size] processes *)
(** every process writes its part of the global array that is zero but for the last nb rows *)
Theorem C52_rows : forall (V : Type) (zero : V) Np size nb mesh vals, (0 < size <= Np)%nat -> (nb <= Np / size)%nat ->
  forall r, (r < size)%nat -> exists a, place_rows zero Np size r nb mesh vals = Some a /\
    forall k, (k < blen Np size r)%nat -> a k = if (Np - nb <=? bstart Np size r + k)%nat then vals (bstart Np size r + k - (Np - nb))%nat else zero.
Proof. exact place_ok. Qed.
Print Assumptions C52_rows.
(** FINDING: it raises IndexError when the last process owns fewer rows than there are conditions *)
Theorem C52_rows_refuted :
  (forall (V : Type) (zero : V) Np size nb mesh vals, (0 < size)%nat -> (Np / size < nb)%nat -> place_rows zero Np size (size - 1) nb mesh vals = None) /\
  (4 / 3 < 2)%nat.
Proof. split; [exact place_fails|apply Nat.ltb_lt; vm_compute; reflexivity]. Qed.
Print Assumptions C52_rows_refuted.

(** ** time dependent values *)
(** after any history of updates, the values are those of the last update that gave a time, also those of set_tensor_bcs *)
Theorem C52_update : forall l h t ud rest,
  (Forall (fun c => c = (None, false)) rest -> s_bcs (run l (h ++ (Some t, ud) :: rest)) = map (fun v => inl (value_at t v)) l) /\
  (Forall (fun c => fst c = None) rest -> tensor_values l (run l (h ++ (Some t, ud) :: rest)) = map (value_at t) l) /\
  (existsb is_time l = false -> s_bcs (run l h) = map (fun v => inl (value_at t v)) l).
Proof.
  intros l h t ud rest. split; [apply run_last|]. split; [apply run_tensor|]. intros H. rewrite run_const by exact H.
  rewrite <- (no_time l H t). apply raw_vals.
Qed.
Print Assumptions C52_update.
(** FINDING: update(update_tensor=True) without a time puts the unevaluated expression back *)
Theorem C52_update_refuted : forall l f h ud t, nth_error l 0 = Some (BTime f) ->
  nth_error (s_bcs (run l (h ++ [(Some t, ud); (None, true)]))) 0 = Some (inr f).
Proof.
  intros l f h ud t H. unfold run. rewrite fold_left_app. cbn [fold_left fst snd]. unfold update at 1. cbn [s_bcs].
  destruct l as [|v l]; [discriminate|]. cbn in H. injection H as ->. reflexivity.
Qed.
Print Assumptions C52_update_refuted.

(** ** the hypotheses are met: Legendre, u(-1) and u(1) given, N = 3, one quadrature point *)
Definition ex_B (i j : nat) : R := match i, j with O, O => 1/2 | O, _ => -(1/2) | _, _ => 1/2 end.
Definition ex_b : cbase := class_base legendre_ShenDirichlet 3 2 ex_B.
Definition ex_Q : quadr := mkQuadr 1 (fun _ => 0) (fun _ => 2).
Definition ex_A : assembled := mkAssembled (fun r k => r k / (9/2)) (fun i j => 3/2).
Lemma ex_wf : wf_base ex_b.
Proof.
  unfold wf_base, ex_b, class_base. cbn [cS cN cnb cO cdim sc_bcs legendre_ShenDirichlet length]. repeat split; try lia.
  - cbn. repeat constructor; cbn; lia.
  - cbn. repeat constructor; cbn; lia.
Qed.
Lemma ex_phi x : peval (phi legL ex_b 0) x = 3 / 2 * (1 - x * x).
Proof.
  unfold phi, ex_b, class_base. cbn [cS]. rewrite <- (deriv_at_0 _ x). rewrite basis_deriv; [|nodup|nodup|cbn; lia].
  cbn [stencil_sum sval sc_stencil legendre_ShenDirichlet]. cbn [Nat.add]. unfold deriv_at. cbn [dn]. cbn -[IZR]. field.
Qed.
Lemma ex_bfun i x : peval (bfun legL ex_b i) x = match i with O => (1 - x) / 2 | _ => (1 + x) / 2 end.
Proof. unfold bfun, ex_b, class_base. cbn [cO cB]. destruct i; cbn -[IZR]; field. Qed.
Example C52_nonvacuity : wf_base ex_b /\ correct legL ex_b ex_Q (fun _ => 1) ex_A /\ In legendre_ShenDirichlet legendre_classes /\
  dual legL legendre_ShenDirichlet 2 ex_B /\ (2 * 6 / 3 <= cdim (class_base legendre_ShenDirichlet 6 2 ex_B))%nat /\
  forall bcs u k, (k < 3)%nat -> forward ex_b legL ex_Q ex_A true bcs (fun _ => 1) u k =
    match k with O => 2 / 3 * (u O - (bcs O + bcs 1%nat) / 2) | S j => bcs j end.
Proof.
  split; [exact ex_wf|].
  assert (correct legL ex_b ex_Q (fun _ => 1) ex_A) as C.
  { unfold correct, product, at_points, ex_Q, ex_A. cbn [qn qx qw a_solve a_bcmass].
    change (cdim ex_b) with 1%nat. change (cnb ex_b) with 2%nat. cbn [gsum]. split; [|split].
    - intros r i Hi. replace i with 0%nat by lia. rewrite ex_phi. field.
    - intros v H k Hk. specialize (H 0%nat ltac:(lia)). rewrite ex_phi in H. replace k with 0%nat by lia. lra.
    - intros i j Hi Hj. replace i with 0%nat by lia. rewrite ex_phi, ex_bfun. destruct j; field. }
  split; [exact C|]. split; [left; reflexivity|]. split; [|split].
  - intros i j Hi Hj. cbn [sc_bcs legendre_ShenDirichlet length] in *.
    destruct j as [|[|j]]; [| |lia]; cbn [nth bc_order bc_side end_point]; rewrite deriv_at_0;
      change (pcomb 2 (ex_B i) legL) with (bfun legL ex_b i); rewrite ex_bfun; destruct i as [|[|i]]; try lia; cbn [Nat.eqb]; lra.
  - apply Nat.leb_le. reflexivity.
  - intros bcs u k Hk. destruct k as [|j].
    + unfold forward, forward_measured. change (cdim ex_b) with 1%nat. cbn [Nat.ltb Nat.leb ex_A a_solve]. unfold add_mass_rhs.
      change (cN ex_b) with 3%nat. change (cnb ex_b) with 2%nat. change (cdim ex_b) with 1%nat. cbn [gsum Nat.ltb Nat.leb].
      unfold set_boundary_dofs. cbn [Nat.sub Nat.leb Nat.ltb andb Nat.add a_bcmass].
      rewrite (spm_ok legL ex_b ex_wf) by (change (cdim ex_b) with 1%nat; lia). unfold at_points, ex_Q. cbn [qn qw qx gsum]. rewrite ex_phi. cbn [a_bcmass ex_A]. field.
    + change (S j) with (cdim ex_b + j)%nat. apply (forward_bcs legL ex_b ex_wf ex_Q ex_A (fun _ => 1) true bcs u). change (cnb ex_b) with 2%nat. lia.
Qed.
Print Assumptions C52_nonvacuity.
