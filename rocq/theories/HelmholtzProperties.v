(** HelmholtzProperties.v -- C39: the Chebyshev Poisson and Helmholtz solvers solve the systems
    of the matrices they are given.

    [scaled c A] is the matrix as assembled on a domain with factor c (times a constant measure),
    [smul A s] the same matrix with scale s; [cheb_norm_sq quadrature q N] are the norms that the
    mass matrices hold, for both quadratures and for exact assembly.  By C36 these matrices are
    the weighted inner products of the basis functions. *)
From Coq Require Import Reals ZArith List Arith Bool Lia Lra.
From Verif Require Import Base Fld SparseModel SparseSpec SparseProofs RPoly StencilModel StencilModel2 LegMatrixModel LegMatrixProofs5 LegMatrixProofs6
  ChebMatrixModel ChebMatrixProofs2 HelmholtzModel HelmholtzSpec HelmholtzProofs HelmholtzProofs2 HelmholtzProofs3 HelmholtzProofs4 HelmholtzProofs5 HelmholtzProofs6 HelmholtzProofs7.
Import ListNotations.
Local Open Scope R_scope.

(** the combination alpha A + beta B *)
Definition combination (al be : R) (A B : smat RFld) (k j : nat) : R := al * mat_entry RFld A k j + be * mat_entry RFld B k j.

(** Poisson, Dirichlet (ADDSolver): Python, numba and cython versions, b overwritten or not.
    optimized = true is numba and cython, which skip the division by a scale within 1e-8 of 1 *)
Theorem C39_poisson_dirichlet (optimized alias : bool) N c s b :
  (5 <= N)%nat -> c <> 0 -> s <> 0 -> (optimized = true -> s = 1 \/ Rabs (s - 1) >= 1 / 10 ^ 8) ->
  exists u, add_solver optimized alias N (smul RFld (scaled c (c_ASDSD N)) s) b = Some u
            /\ solves (N - 2) (mat_entry RFld (smul RFld (scaled c (c_ASDSD N)) s)) b u.
Proof. apply poisson_ok. Qed.
(** fewer than five quadrature points: KeyError on A[2] *)
Theorem C39_poisson_dirichlet_small (optimized alias : bool) N c s b :
  (N <= 4)%nat -> add_solver optimized alias N (smul RFld (scaled c (c_ASDSD N)) s) b = None.
Proof. apply poisson_small. Qed.

(** Poisson, Neumann (ANNSolver) with the constraint u[0] = 0 *)
Theorem C39_poisson_neumann (alias : bool) N c s b u0 :
  (5 <= N)%nat -> c <> 0 -> s <> 0 -> (alias = true -> forall k, u0 k = b k) ->
  exists u, ann_solver alias N (smul RFld (scaled c (c_ASNSN N)) s) [(0%nat, 0)] b u0 = Some u
            /\ solves_singular (N - 2) (mat_entry RFld (smul RFld (scaled c (c_ASNSN N)) s)) b u.
Proof. apply ann_ok. Qed.

(** Helmholtz, Dirichlet: alpha u'' + beta u with alpha beta <= 0 (not both zero) *)
Theorem C39_helmholtz_dirichlet im quadrature q N ca cb al be f u0 :
  (7 <= N)%nat -> ca > 0 -> cb > 0 -> al * be <= 0 -> al <> 0 \/ be <> 0 ->
  let A := scaled ca (c_ASDSD N) in let B := scaled cb (c_BSDSD (cheb_norm_sq quadrature q N) N) in
  exists u, helmholtz4 im false A B al be f u0 = Some u /\ solves (N - 2) (combination al be A B) f u.
Proof. intros HN. intros. apply helmholtz_dirichlet_ok; try assumption. apply norms_cheb. lia. Qed.

(** Helmholtz, Neumann: beta at least 1e-8 in size, beta*cb*pi not within 1e-8 of 1 *)
Theorem C39_helmholtz_neumann im quadrature q N ca cb al be f u0 :
  (7 <= N)%nat -> ca > 0 -> cb > 0 -> al * be <= 0 ->
  Rabs be >= 1 / 10 ^ 8 -> (be * (PI * cb) - 1) * (be * (PI * cb) - 1) >= 1 / 10 ^ 16 ->
  let A := scaled ca (c_ASNSN N) in let B := scaled cb (c_BSNSN (cheb_norm_sq quadrature q N) N) in
  exists u, helmholtz4 im true A B al be f u0 = Some u /\ solves (N - 2) (combination al be A B) f u.
Proof. intros HN. intros. apply helmholtz_neumann_ok; try assumption. apply norms_cheb. lia. Qed.
(** beta = 0: the singular system *)
Theorem C39_helmholtz_neumann_zero im quadrature q N ca cb al f u0 :
  (7 <= N)%nat -> ca > 0 -> cb > 0 -> al <> 0 ->
  let A := scaled ca (c_ASNSN N) in let B := scaled cb (c_BSNSN (cheb_norm_sq quadrature q N) N) in
  exists u, helmholtz4 im true A B al 0 f u0 = Some u /\ solves_singular (N - 2) (combination al 0 A B) f u.
Proof.
  intros HN. intros. apply helmholtz_neumann_zero; try assumption; try reflexivity; [apply norms_cheb; lia|rewrite Rmult_0_r; lra].
Qed.

(** Helmholtz(A, B): the scales of the matrices are alpha and beta, so the system is A + B *)
Theorem C39_helmholtz_two_arguments im (neumann : bool) A B al be f u0 :
  sm_scale RFld A = 1 -> sm_scale RFld B = 1 ->
  helmholtz2 im neumann (smul RFld A al) (smul RFld B be) f u0 = helmholtz4 im neumann A B al be f u0
  /\ (forall k j, mat_entry RFld (smul RFld A al) k j + mat_entry RFld (smul RFld B be) k j = combination al be A B k j).
Proof.
  intros HA HB. split.
  - unfold helmholtz2, helmholtz4, helmholtz_keys. rewrite !smul_key. unfold smul. cbn [sm_scale sm_rows]. rewrite HA, HB.
    change (car RFld) with R in *. rn. rewrite !Rmult_1_l. reflexivity.
  - intros k j. rewrite !smul_entry. reflexivity.
Qed.

(** fewer than seven quadrature points: KeyError on A[4] *)
Theorem C39_helmholtz_small im quadrature q N ca cb al be f u0 : (N <= 6)%nat ->
  helmholtz4 im false (scaled ca (c_ASDSD N)) (scaled cb (c_BSDSD (cheb_norm_sq quadrature q N) N)) al be f u0 = None /\
  helmholtz4 im true (scaled ca (c_ASNSN N)) (scaled cb (c_BSNSN (cheb_norm_sq quadrature q N) N)) al be f u0 = None.
Proof. intros HN. split; [apply helmholtz_dirichlet_small|apply helmholtz_neumann_small]; exact HN. Qed.

(** several lines (alpha and beta arrays): every line is solved as if it were alone -- always with
    cython or Dirichlet conditions; with numba and Neumann conditions only up to and including the
    first line with abs(beta) < 1e-8 *)
Theorem C39_helmholtz_lines im (neumann : bool) A B l f u us : helmholtz_lines im neumann A B l f u = Some us ->
  List.length f = List.length l -> List.length u = List.length l ->
  forall i, (i < List.length l)%nat ->
  (im = Numba -> neumann = true -> forall j, (j < i)%nat -> small8 (snd (nth j l (0, 0))) = false) ->
  helmholtz4 im neumann A B (fst (nth i l (0, 0))) (snd (nth i l (0, 0))) (nth i f (fun _ => 0)) (nth i u (fun _ => 0))
  = Some (nth i us (fun _ => 0)).
Proof. apply lines_alone. Qed.

(** with numba the zero of the first line leaks into the next ones: the second line below is not
    solved although it would be alone *)
Theorem C39_numba_lines_refuted N : (7 <= N)%nat ->
  let A := scaled 1 (c_ASNSN N) in let B := scaled 1 (c_BSNSN (cheb_norm_sq false LG N) N) in
  exists us, helmholtz_lines Numba true A B [(1, 0); (1, -1)] [e0; e0] [fun _ => 0; fun _ => 0] = Some us
    /\ ~ solves (N - 2) (combination 1 (-1) A B) e0 (nth 1 us (fun _ => 0)).
Proof.
  intros HN A B. unfold helmholtz_lines, A, B. rewrite n_keys by exact HN. eexists. split; [reflexivity|].
  change (sm_rows RFld (scaled 1 (c_ASNSN N))) with (N - 2)%nat.
  cbn [lu_lines numba_lines combine map fst snd nth].
  set (h := cheb_norm_sq false LG N). assert (Hh : norms h) by (apply norms_cheb; lia).
  pose proof PI_RGT_0 as HP.
  assert (P8 : 1 / 10 ^ 8 <= 1) by (apply (Rmult_le_reg_l (10 ^ 8)); [apply pow_lt; lra|]; field_simplify; lra).
  assert (HB1 : Rabs (-1) >= 1 / 10 ^ 8) by (rewrite Rabs_left by lra; lra).
  set (D0 := numba_A0 true 1 0 (pre_numba true (nD h 1 1))).
  set (D := numba_A0 true 1 (-1) D0).
  assert (ED : D = D0) by (unfold D, numba_A0; rewrite small8_false by exact HB1; reflexivity).
  assert (E0 : D0 = line_D h 1 1 Numba 1 0) by reflexivity.
  rewrite ED. clear D ED.
  assert (Hz : 1 * dA0 D0 0%nat + (-1) * dB0 D0 0%nat = 1 - PI).
  { unfold D0, numba_A0. rewrite small8_0. cbn [andb dA0 dB0]. rewrite upd_same. unfold pre_numba, nD. cbn [dB0].
    destruct Hh as (H0 & _ & _). rewrite H0, nal0. unfold ann_j2. cbn [Nat.eqb]. field. }
  assert (Hpi : PI > 1) by (pose proof PI2_1; unfold PI2 in *; lra).
  assert (Hpv : forall i, (i < N - 2)%nat -> l_d0 (lu_factor (N - 2) D0 1 (-1)) i <> 0).
  { apply (n_pivots (N - 2) D0 1 (-1) (1 - PI) h 1 1); try lia; try lra; try assumption; try rewrite E0.
    all: first [apply D_A0|apply D_A2|apply D_A4|apply D_Bm0|apply D_Bm|apply D_B0|apply D_B2|rewrite <- E0; exact Hz]. }
  assert (Hm0 : dBm D0 0%nat = 0) by (rewrite E0; apply D_Bm0).
  destruct (lu_e0 (N - 2) D0 1 (-1) (fun _ => 0) ltac:(lia) Hm0 Hpv) as (X0 & Xz).
  destruct (neumann_final (N - 2) (lu_factor (N - 2) D0 1 (-1)) e0 (fun _ => 0) ltac:(lia)) as (U & U0).
  set (s := lu_factor (N - 2) D0 1 (-1)) in *.
  destruct (lu_factor_ok (N - 2) D0 1 (-1) ltac:(lia)) as ((P0 & _) & _). fold s in P0. unfold h0 in P0. rewrite Hz in P0, X0.
  rewrite P0, small16_false in U0.
  2:{ replace (1 - PI - 1) with (- PI) by ring. assert (1 / 10 ^ 16 <= 1) by (apply (Rmult_le_reg_l (10 ^ 16)); [apply pow_lt; lra|]; field_simplify; lra). nra. }
  intros Hs. specialize (Hs 0%nat ltac:(lia)). unfold row_solved in Hs. change (e0 0) with 1 in Hs.
  match type of Hs with context [combination _ _ ?A ?B] => set (A0 := A) in Hs; set (B0 := B) in Hs end.
  set (u := solve_helmholtz_1D true (N - 2) s e0 (fun _ => 0)) in *.
  rewrite (rsum_ext _ _ (fun j => if Nat.eqb j 0 then combination 1 (-1) A0 B0 0 0 * u 0%nat else 0)) in Hs.
  2:{ intros j Hj. destruct (Nat.eqb_spec j 0) as [->|Hj0]; [reflexivity|]. rewrite U by lia. rewrite Xz by lia. unfold Rdiv. ring. }
  rewrite rsum_one in Hs. replace (Nat.ltb 0 (N - 2)) with true in Hs by (symmetry; apply Nat.ltb_lt; lia).
  rewrite U0, X0 in Hs. unfold combination, A0, B0 in Hs.
  rewrite (n_row N h 1 1 Numba 1 (-1)) in Hs by (try lia; right; try lra; exact HB1).
  unfold hrow, brow, cf in Hs. cbn [Nat.eqb] in Hs. unfold h0 in Hs. rewrite D_z0 in Hs by (right; exact HB1).
  unfold z0 in Hs. destruct (Req_EM_T (-1) 0); [lra|]. destruct Hh as (H0 & _ & _). rewrite H0 in Hs.
  assert (E : -1 * (PI * 1) * 1 * (1 / (1 - PI)) = PI / (PI - 1)) by (field; split; lra). rewrite E in Hs.
  apply (f_equal (Rmult (PI - 1))) in Hs. field_simplify in Hs; lra.
Qed.

(** beta*pi = 1: the solver takes the first pivot for the mark of the singular system *)
Theorem C39_neumann_unit_pivot_refuted im N : (7 <= N)%nat ->
  let A := scaled 1 (c_ASNSN N) in let B := scaled 1 (c_BSNSN (cheb_norm_sq false LG N) N) in
  exists u, helmholtz4 im true A B (-1) (1 / PI) e0 (fun _ => 0) = Some u
    /\ ~ solves (N - 2) (combination (-1) (1 / PI) A B) e0 u.
Proof.
  intros HN A B. unfold helmholtz4, A, B. rewrite n_keys by exact HN. eexists. split; [reflexivity|].
  change (sm_rows RFld (scaled 1 (c_ASNSN N))) with (N - 2)%nat. rewrite line_lu.
  set (h := cheb_norm_sq false LG N). assert (Hh : norms h) by (apply norms_cheb; lia).
  pose proof PI_RGT_0 as HP. pose proof PI_4 as HP4.
  set (be := 1 / PI).
  assert (Hb4 : be >= 1 / 4).
  { unfold be. apply Rle_ge. apply (Rmult_le_reg_l PI); [exact HP|]. replace (PI * (1 / PI)) with 1 by (field; lra). lra. }
  assert (P8 : 1 / 10 ^ 8 <= 1 / 4) by (apply (Rmult_le_reg_l (10 ^ 8)); [apply pow_lt; lra|]; field_simplify; lra).
  assert (HB1 : Rabs be >= 1 / 10 ^ 8) by (rewrite Rabs_right by lra; lra).
  assert (Hz : -1 * dA0 (line_D h 1 1 im (-1) be) 0%nat + be * dB0 (line_D h 1 1 im (-1) be) 0%nat = 1).
  { rewrite D_z0 by (right; exact HB1). unfold z0. destruct (Req_EM_T be 0); [lra|]. destruct Hh as (H0 & _ & _). rewrite H0.
    unfold be. field. lra. }
  assert (Hpv : forall i, (i < N - 2)%nat -> l_d0 (lu_factor (N - 2) (line_D h 1 1 im (-1) be) (-1) be) i <> 0).
  { apply (n_pivots (N - 2) (line_D h 1 1 im (-1) be) (-1) be 1 h 1 1); try lia; try lra; try assumption.
    all: first [apply D_A0|apply D_A2|apply D_A4|apply D_Bm0|apply D_Bm|apply D_B0|apply D_B2]. }
  destruct (lu_e0 (N - 2) (line_D h 1 1 im (-1) be) (-1) be (fun _ => 0) ltac:(lia) ltac:(apply D_Bm0) Hpv) as (X0 & Xz).
  destruct (neumann_final (N - 2) (lu_factor (N - 2) (line_D h 1 1 im (-1) be) (-1) be) e0 (fun _ => 0) ltac:(lia)) as (U & U0).
  set (s := lu_factor (N - 2) (line_D h 1 1 im (-1) be) (-1) be) in *.
  destruct (lu_factor_ok (N - 2) (line_D h 1 1 im (-1) be) (-1) be ltac:(lia)) as ((P0 & _) & _). fold s in P0. unfold h0 in P0. rewrite Hz in P0.
  rewrite P0 in U0. replace (1 - 1) with 0 in U0 by ring. rewrite small16_0 in U0.
  intros Hs. specialize (Hs 0%nat ltac:(lia)). unfold row_solved in Hs. change (e0 0) with 1 in Hs.
  rewrite rsum_zero in Hs; [lra|]. intros j Hj. destruct (Nat.eq_dec j 0) as [->|Hj0].
  - unfold h, be in *. rewrite U0. ring.
  - unfold h, be in *. rewrite U by lia. rewrite Xz by lia. unfold Rdiv. ring.
Qed.

(** alpha*beta > 0: the elimination does not pivot, so it can divide by zero although the system
    has a unique solution *)
Theorem C39_no_pivoting_refuted im :
  let A := scaled 1 (c_ASDSD 7) in let B := scaled 1 (c_BSDSD (cheb_norm_sq false LG 7) 7) in
  (exists D, helmholtz_keys A B = Some D /\ l_d0 (lu_line im false 5 D 3 8) 0%nat = 0) /\
  (forall u, solves 5 (combination 3 8 A B) (fun _ => 0) u -> forall k, (k < 5)%nat -> u k = 0).
Proof.
  intros A B. set (h := cheb_norm_sq false LG 7). pose proof PI_RGT_0 as HP.
  assert (Hh0 : h 0%nat = PI) by (unfold h, cheb_norm_sq, cheb_L2_norm_sq; cbn [Nat.eqb]; field).
  assert (Hh : forall k, (1 <= k)%nat -> h k = PI / 2) by (intros k Hk; unfold h, cheb_norm_sq, cheb_L2_norm_sq; destruct (Nat.eqb_spec k 0); [lia|field]).
  split.
  - exists (dD h 1 1). split; [apply (d_keys 7 h 1 1); lia|].
    assert (E : lu_line im false 5 (dD h 1 1) 3 8 = lu_factor 5 (dD h 1 1) 3 8) by (destruct im; reflexivity). rewrite E.
    destruct (lu_factor_ok 5 (dD h 1 1) 3 8 ltac:(lia)) as ((P0 & _) & _). rewrite P0. unfold h0, dD. cbn [dA0 dB0].
    rewrite Hh0, Hh by lia. cbn [INR]. field.
  - intros u Hs.
    assert (R : forall k, (k < 5)%nat -> rsum 5 (fun j => hrow (dD h 1 1) 3 8 k j * u j) = 0).
    { intros k Hk. transitivity (rsum 5 (fun j => combination 3 8 A B k j * u j)); [|exact (Hs k Hk)]. apply rsum_ext. intros j Hj. unfold combination, A, B. rewrite d_row by (cbn; lia). reflexivity. }
    pose proof (R 0%nat ltac:(lia)) as R0. pose proof (R 1%nat ltac:(lia)) as R1. pose proof (R 2%nat ltac:(lia)) as R2.
    pose proof (R 3%nat ltac:(lia)) as R3. pose proof (R 4%nat ltac:(lia)) as R4.
    unfold hrow, brow, h0, h2, h4, hm, dD in R0, R1, R2, R3, R4.
    cbn [gsum Nat.eqb Nat.leb Nat.add Nat.sub Nat.even andb dA0 dA2 dA4 dBm dB0 dB2] in R0, R1, R2, R3, R4.
    assert (V1 := Hh 1%nat ltac:(lia)). assert (V2 := Hh 2%nat ltac:(lia)). assert (V3 := Hh 3%nat ltac:(lia)).
    assert (V4 := Hh 4%nat ltac:(lia)). assert (V5 := Hh 5%nat ltac:(lia)). assert (V6 := Hh 6%nat ltac:(lia)).
    rewrite ?Hh0, ?V1, ?V2, ?V3, ?V4, ?V5, ?V6 in R0. rewrite ?Hh0, ?V1, ?V2, ?V3, ?V4, ?V5, ?V6 in R1.
    rewrite ?Hh0, ?V1, ?V2, ?V3, ?V4, ?V5, ?V6 in R2. rewrite ?Hh0, ?V1, ?V2, ?V3, ?V4, ?V5, ?V6 in R3.
    rewrite ?Hh0, ?V1, ?V2, ?V3, ?V4, ?V5, ?V6 in R4.
    cbn [INR] in R0, R1, R2, R3, R4.
    assert (D : forall x, PI * x = 0 -> x = 0) by (intros x Hx; apply Rmult_integral in Hx; destruct Hx; lra).
    assert (S0 : -16 * u 2%nat - 12 * u 4%nat = 0) by (apply D; lra).
    assert (S1 : -28 * u 1%nat - 28 * u 3%nat = 0) by (apply D; lra).
    assert (S2 : -4 * u 0%nat - 64 * u 2%nat - 40 * u 4%nat = 0) by (apply D; lra).
    assert (S3 : -4 * u 1%nat - 112 * u 3%nat = 0) by (apply D; lra).
    assert (S4 : -4 * u 2%nat - 172 * u 4%nat = 0) by (apply D; lra).
    intros k Hk. assert (Hc : (k = 0 \/ k = 1 \/ k = 2 \/ k = 3 \/ k = 4)%nat) by lia.
    destruct Hc as [->|[->|[->|[->| ->]]]]; lra.
Qed.

(** the four-argument form takes alpha and beta only from the arguments: a scale in the matrices is
    ignored *)
Theorem C39_four_arguments_scale_refuted im : exists f u,
  let A := smul RFld (scaled 1 (c_ASDSD 7)) 2 in let B := scaled 1 (c_BSDSD (cheb_norm_sq false LG 7) 7) in
  helmholtz4 im false A B 1 0 f (fun _ => 0) = Some u /\ ~ solves 5 (combination 1 0 A B) f u.
Proof.
  set (A1 := scaled 1 (c_ASDSD 7)). set (B := scaled 1 (c_BSDSD (cheb_norm_sq false LG 7) 7)).
  destruct (C39_helmholtz_dirichlet im false LG 7 1 1 1 0 (fun _ => 1) (fun _ => 0) ltac:(lia) ltac:(lra) ltac:(lra) ltac:(lra) ltac:(left; lra)) as (u & E & Hu).
  exists (fun _ => 1), u. split; [exact E|]. intros H2.
  pose proof (Hu 0%nat ltac:(lia)) as R1. pose proof (H2 0%nat ltac:(lia)) as R2. unfold row_solved in R1, R2.
  assert (R3 : rsum 5 (fun j => 2 * (combination 1 0 A1 B 0 j * u j)) = 1).
  { etransitivity; [|exact R2]. apply rsum_ext. intros j Hj. unfold combination. rewrite smul_entry. fold A1. fold B. rn. ring. }
  rewrite rsum_scal in R3. change (7 - 2)%nat with 5%nat in R1. fold A1 in R1. fold B in R1. lra.
Qed.

(** ** instances *)
Example C39_dirichlet_instance : exists u,
  helmholtz4 Cython false (scaled 1 (c_ASDSD 10)) (scaled 1 (c_BSDSD (cheb_norm_sq true GL 10) 10)) 1 (-4) (fun k => INR k) (fun _ => 0) = Some u
  /\ solves 8 (combination 1 (-4) (scaled 1 (c_ASDSD 10)) (scaled 1 (c_BSDSD (cheb_norm_sq true GL 10) 10))) (fun k => INR k) u.
Proof. apply (C39_helmholtz_dirichlet Cython true GL 10); try lia; lra. Qed.
Example C39_poisson_instance : exists u,
  add_solver true true 8 (smul RFld (scaled 2 (c_ASDSD 8)) 3) (fun k => INR k) = Some u
  /\ solves 6 (mat_entry RFld (smul RFld (scaled 2 (c_ASDSD 8)) 3)) (fun k => INR k) u.
Proof.
  apply (C39_poisson_dirichlet true true 8); try lia; try lra. intros _. right. rewrite Rabs_right by lra.
  assert (1 / 10 ^ 8 <= 1) by (apply (Rmult_le_reg_l (10 ^ 8)); [apply pow_lt; lra|]; field_simplify; lra). lra.
Qed.
Example C39_neumann_instance : exists u,
  helmholtz4 Numba true (scaled 1 (c_ASNSN 9)) (scaled 1 (c_BSNSN (cheb_norm_sq false LG 9) 9)) 1 (-1) (fun k => INR k) (fun _ => 0) = Some u
  /\ solves 7 (combination 1 (-1) (scaled 1 (c_ASNSN 9)) (scaled 1 (c_BSNSN (cheb_norm_sq false LG 9) 9))) (fun k => INR k) u.
Proof.
  pose proof PI_RGT_0.
  assert (1 / 10 ^ 8 <= 1) by (apply (Rmult_le_reg_l (10 ^ 8)); [apply pow_lt; lra|]; field_simplify; lra).
  assert (1 / 10 ^ 16 <= 1) by (apply (Rmult_le_reg_l (10 ^ 16)); [apply pow_lt; lra|]; field_simplify; lra).
  apply (C39_helmholtz_neumann Numba false LG 9); try lia; try lra; [rewrite Rabs_left by lra; lra|nra].
Qed.
Example C39_neumann_zero_instance : exists u,
  helmholtz4 Numba true (scaled 1 (c_ASNSN 9)) (scaled 1 (c_BSNSN (cheb_norm_sq false LG 9) 9)) 1 0 (fun k => INR k) (fun _ => 0) = Some u
  /\ u 0%nat = 0.
Proof.
  destruct (C39_helmholtz_neumann_zero Numba false LG 9 1 1 1 (fun k => INR k) (fun _ => 0) ltac:(lia) ltac:(lra) ltac:(lra) ltac:(lra)) as (u & E & H0 & _).
  exists u. split; [exact E|exact H0].
Qed.

Print Assumptions C39_poisson_dirichlet.
Print Assumptions C39_poisson_dirichlet_small.
Print Assumptions C39_poisson_neumann.
Print Assumptions C39_helmholtz_dirichlet.
Print Assumptions C39_helmholtz_neumann.
Print Assumptions C39_helmholtz_neumann_zero.
Print Assumptions C39_helmholtz_two_arguments.
Print Assumptions C39_helmholtz_small.
Print Assumptions C39_helmholtz_lines.
Print Assumptions C39_numba_lines_refuted.
Print Assumptions C39_neumann_unit_pivot_refuted.
Print Assumptions C39_no_pivoting_refuted.
Print Assumptions C39_four_arguments_scale_refuted.
