(** IntegratorsProperties2.v -- C33: BackwardEuler, ETD and ETDRK4. *)
From Coq Require Import Reals Lra Lia List Arith Bool FunctionalExtensionality.
From Verif Require Import Base IntegratorsModel IntegratorsProofs IntegratorsProofs2 IntegratorsProofs3 IntegratorsProofs4 IntegratorsProofs5 IntegratorsProofs6 IntegratorsProperties.
Import ListNotations.
Local Open Scope R_scope.

(** ** BackwardEuler: first order once dU1 holds the nonlinear term of the previous time step, whose
    solution differs from the present one by O(dt) *)
Theorem C33_be_order_partial : forall I M Minv A n u0 F1 F2 F3 solve prev t y, weak_ok M Minv A n u0 F1 F2 F3 -> solves I 1 M A solve ->
  order 0 prev (fun _ => u0) -> solution I (weak_rhs Minv A n) u0 y ->
  order 1 (fun h => fst (be_step I h M (fun _ => n) (solve h) t (u0, n (prev h)))) y.
Proof.
  intros I M Minv A n u0 F1 F2 F3 solve prev t y (H1 & H2 & H3 & H4 & H5) So Hp Y.
  set (f0 := vadd I (Minv (n u0)) (Minv (A u0))).
  eapply (order_of 1 _ _ (exact_coeffs I f0 u0 (fun v => vadd I (F1 v) (Minv (A v))) F2 F3)).
  2:{ apply (solution_coeffs I (weak_rhs Minv A n) u0 y (fun v => vadd I (F1 v) (Minv (A v))) F2 F3); [|exact Y|lia]. apply (smooth_plus_linear I (fun u => Minv (n u)) u0 F1 F2 F3 (fun u => Minv (A u))); [exact H5|]. apply (Lreg I Minv A); auto. }
  assert (expands I 0 prev (cconst I u0)) as Ep.
  { intros i. destruct (Hp i) as (C & d & Hd & HC). exists C, d. split; [exact Hd|]. intros h Hh. specialize (HC h Hh).
    unfold taylor. cbn [gsum cconst]. replace (0 + u0 i * h ^ 0) with (u0 i) by (cbn; ring). cbn [Nat.add] in HC. exact HC. }
  assert (expands I 0 (fun h => Minv (n (prev h))) (cconst I (Minv (n u0)))) as En.
  { destruct H5 as (_ & _ & _ & Sm). eapply expands_coeffs; [apply (Sm 0%nat prev (cconst I u0)); [lia|reflexivity|exact Ep]|]. intros k i Hk. replace k with 0%nat by lia. reflexivity. }
  assert (forall u v, Minv (vadd I u v) = vadd I (Minv u) (Minv v)) as ma by apply H3. assert (forall a u, Minv (vscal I a u) = vscal I a (Minv u)) as ms by apply H3.
  pose (w := fun k => vadd I (cconst I u0 k) (cshift I (cconst I (Minv (n u0))) k)).
  assert (expands I 1 (fun h => Minv (vadd I (vsub I (vscal I (2 * h) (n u0)) (vscal I h (n (prev h)))) (M u0))) w) as Ew.
  { pose (g := fun h => vadd I u0 (vscal I h (vadd I (vscal I 2 (Minv (n u0))) (vscal I (-1) (Minv (n (prev h))))))).
    apply (expands_fun I 1 g).
    - intros h. unfold g. assert (vsub I (vscal I (2 * h) (n u0)) (vscal I h (n (prev h))) = vscal I h (vadd I (vscal I 2 (n u0)) (vscal I (-1) (n (prev h))))) as -> by (apply functional_extensionality; intros i; unfold vadd, vsub, vscal; ring).
      rewrite ma, ms, ma, !ms. destruct H1 as [H1 _]. rewrite H1. apply functional_extensionality. intros i. unfold vadd. ring.
    - unfold g. apply expands_add; [apply expands_const|]. apply expands_hmul.
      eapply expands_coeffs; [apply expands_add; [apply expands_const|apply expands_scal, En]|]. intros k i Hk. replace k with 0%nat by lia. cbn. unfold vadd, vscal. ring. }
  eapply expands_coeffs; [apply (implicit_stage I 1 M Minv A solve _ w 1 H1 H2 H3 H4 So Ew)|].
  intros k i Hk. destruct k as [|[|k]]; [| |lia]; cbn [imp_coeffs]; unfold w; cbn [cconst cshift exact_coeffs]; unfold f0.
  - unfold vadd, vzero. ring.
  - assert (vadd I u0 (vzero I) = u0) as -> by (apply functional_extensionality; intros; unfold vadd, vzero; ring). unfold vadd, vscal, vzero. ring.
Qed.
Print Assumptions C33_be_order_partial.
(** in particular when the previous time step was exact *)
Example C33_be_nonvacuity : forall I M Minv A n u0 F1 F2 F3 solve t y, weak_ok M Minv A n u0 F1 F2 F3 -> solves I 1 M A solve ->
  solution I (weak_rhs Minv A n) u0 y -> order 1 (fun h => fst (be_step I h M (fun _ => n) (solve h) t (u0, n (y (- h))))) y.
Proof.
  intros I M Minv A n u0 F1 F2 F3 solve t y W So Y. apply (C33_be_order_partial I M Minv A n u0 F1 F2 F3 solve (fun h => y (- h)) t y W So); [|exact Y].
  destruct Y as [Y0 Y1]. pose proof (expands_derivable I y _ Y1) as E. intros i. destruct (E i) as (C & d & Hd & HC). exists C, d. split; [exact Hd|].
  intros h Hh. specialize (HC (- h) ltac:(rewrite Rabs_Ropp; exact Hh)). unfold taylor in HC. cbn [gsum cconst] in HC. rewrite Rabs_Ropp in HC.
  replace (0 + y 0 i * (- h) ^ 0) with (u0 i) in HC by (rewrite Y0; cbn; ring). exact HC.
Qed.
(** such forms and solvers exist *)
Example C33_be_nonvacuity2 : exists solve, solves unit 1 (fun u : vec unit => u) (fun u i => 1 * u i) solve /\
  weak_ok (fun u : vec unit => u) (fun u => u) (fun u i => 1 * u i) (fun u => pfield unit (fun _ => PC unit 0) u) (fun _ => 1)
   (fun v i => pd1 unit (PC unit 0) (fun _ => 1) v) (fun v w i => pd2 unit (PC unit 0) (fun _ => 1) v w) (fun v w x i => pd3 unit (PC unit 0) (fun _ => 1) v w x).
Proof. eexists. split; [|exact scalar_ok]. apply (diagonal_solves unit 1 (fun _ => 1) 1). intros i. rewrite Rabs_R1. lra. Qed.

(** refuted: dU1 is zero in the first step, which then counts the nonlinear term twice.  For
    u' = c, the numerical solution after m >= 1 steps is u0 + (m+1) dt c *)
Definition be_run {I} (dt : R) (c : vec I) (m : nat) (u0 : vec I) : vec I * vec I :=
  for_up m 0 (fun j => be_step I dt (fun u => u) (fun _ _ => c) (fun r => r) (INR j * dt)) (u0, vzero I).
Theorem C33_be_start_refuted : forall I dt (c u0 : vec I) m, (0 < m)%nat -> forall i, fst (be_run dt c m u0) i = u0 i + (INR m + 1) * dt * c i.
Proof.
  intros I dt c u0 m Hm. assert (forall m, be_run dt c (S m) u0 = (fun i => u0 i + (INR (S m) + 1) * dt * c i, c)) as H.
  { clear m Hm. induction m as [|m IH].
    - unfold be_run. cbn [for_up]. unfold be_step. f_equal. apply functional_extensionality. intros i. unfold vadd, vsub, vscal, vzero. cbn. ring.
    - unfold be_run. rewrite for_up_snoc. fold (be_run dt c (S m) u0). rewrite IH. unfold be_step. f_equal. apply functional_extensionality. intros i.
      unfold vadd, vsub, vscal. rewrite !S_INR. ring. }
  destruct m as [|m]; [lia|]. intros i. rewrite H. reflexivity.
Qed.
Print Assumptions C33_be_start_refuted.

(** ** ETD and ETDRK4.  [phi1 z] = (e^z - 1)/z: the value psi approximates (as the mean of 50 values on a
    circle around z; the error of that mean is not modelled) *)
Definition phi1 (z : R) : R := if Req_EM_T z 0 then 1 else (exp z - 1) / z.
Definition etd_exact {I} (L c u0 : vec I) (h : R) : vec I := fun i => exp (h * L i) * u0 i + h * phi1 (h * L i) * c i.
Lemma exp_lin_deriv l h : derivable_pt_lim (fun h => exp (h * l)) h (l * exp (h * l)).
Proof.
  rewrite (Rmult_comm l (exp _)). apply (derivable_pt_lim_comp (fun h => h * l) exp h l (exp (h * l))); [|apply derivable_pt_lim_exp].
  pose proof (derivable_pt_lim_scal id l h 1 (derivable_pt_lim_id h)) as D0. rewrite Rmult_1_r in D0.
  intros e He. destruct (D0 e He) as [d Hd]. exists d. intros k K1 K2. specialize (Hd k K1 K2). unfold mult_real_fct, id in Hd. rewrite (Rmult_comm (h + k)), (Rmult_comm h). exact Hd.
Qed.
(** etd_exact solves u' = L u + c *)
Lemma etd_exact_solution {I} (L c u0 : vec I) : solution I (fun u => vadd I (vmul I L u) c) u0 (etd_exact L c u0).
Proof.
  split; [apply functional_extensionality; intros i; unfold etd_exact; rewrite !Rmult_0_l, exp_0; ring|].
  intros i. apply near0_true. intros h. unfold vadd, vmul, etd_exact. destruct (Req_EM_T (L i) 0) as [Z|Z].
  - rewrite Z. replace (0 * _ + c i) with (0 + c i) by ring.
    assert (forall h, exp (h * 0) * u0 i + h * phi1 (h * 0) * c i = u0 i + h * c i) as E by (intros k; rewrite Rmult_0_r, exp_0; unfold phi1; destruct (Req_EM_T 0 0); [ring|lra]).
    assert ((fun h => exp (h * 0) * u0 i + h * phi1 (h * 0) * c i) = (fun h => u0 i + h * c i)) as -> by (apply functional_extensionality; exact E).
    apply (derivable_pt_lim_plus (fun _ => u0 i) (fun h => h * c i)); [apply derivable_pt_lim_const|].
    intros e He. exists (mkposreal 1 Rlt_0_1). intros k K1 _. replace (((h + k) * c i - h * c i) / k - c i) with 0 by (field; exact K1). rewrite Rabs_R0. exact He.
  - assert (forall h, h * phi1 (h * L i) = (exp (h * L i) - 1) / L i) as E.
    { intros k. unfold phi1. destruct (Req_EM_T (k * L i) 0) as [K|K].
      - apply Rmult_integral in K. destruct K as [K|K]; [|contradiction]. rewrite K, !Rmult_0_l, exp_0. field. exact Z.
      - field. split; [exact Z|]. intros K'. apply K. rewrite K'. ring. }
    assert ((fun h => exp (h * L i) * u0 i + h * phi1 (h * L i) * c i) = (fun h => (u0 i + c i / L i) * exp (h * L i) + (- (c i / L i)))) as -> by (apply functional_extensionality; intros k; rewrite E; field; exact Z).
    rewrite E. replace (L i * (exp (h * L i) * u0 i + (exp (h * L i) - 1) / L i * c i) + c i) with ((u0 i + c i / L i) * (L i * exp (h * L i)) + 0) by (field; exact Z).
    apply (derivable_pt_lim_plus (fun h => (u0 i + c i / L i) * exp (h * L i)) (fun _ => - (c i / L i))); [|apply derivable_pt_lim_const].
    apply (derivable_pt_lim_scal (fun h => exp (h * L i))), exp_lin_deriv.
Qed.
(** both are exact for constant N, whatever is left in the work arrays *)
Theorem C33_etd_constant : forall I (L c u0 : vec I), exists y, solution I (fun u => vadd I (vmul I L u) c) u0 y /\
  (forall dt, etd_step I dt (fun i => exp (L i * dt)) (fun i => phi1 (L i * dt)) (fun _ => c) u0 = y dt) /\
  (forall dt psi dU0 V2, psi 0%nat = (fun i => phi1 (L i * dt)) ->
     etdrk4_step I dt (fun i => exp (L i * dt)) (fun i => exp (L i * dt / 2)) psi (fun _ => c) u0 dU0 V2 = y dt).
Proof.
  intros I L c u0. exists (etd_exact L c u0). split; [apply etd_exact_solution|]. split.
  - intros dt. apply functional_extensionality. intros i. unfold etd_step, etd_exact, vadd, vmul, vscal. rewrite (Rmult_comm (L i) dt). reflexivity.
  - intros dt psi dU0 V2 Hp. apply functional_extensionality. intros i. unfold etdrk4_step. cbn [for_up e_U1 Nat.ltb Nat.leb Nat.eqb e_u e_V2 e_dU0 etdrk4_a].
    unfold etd_exact, vadd, vsub, vmul, vscal. rewrite Hp, (Rmult_comm (L i) dt). ring.
Qed.
Print Assumptions C33_etd_constant.
(** without linear part (e^0 = 1, psi = 1, 1/2, 1/6, 1: the values at 0 of phi1, phi2, phi3, phi1)
    ETDRK4 is the classical RK4 *)
Theorem C33_etdrk4_L0 : forall I dt (N : vec I -> vec I) u dU0 V2,
  etdrk4_step I dt (fun _ => 1) (fun _ => 1) (fun r => nth r [fun _ => 1; fun _ => 1/2; fun _ => 1/6; fun _ => 1] (vzero I)) N u dU0 V2 = rk4_step I dt N None u.
Proof.
  intros I dt N u dU0 V2. unfold etdrk4_step, rk4_step. cbn [for_up e_U1 Nat.ltb Nat.leb Nat.eqb e_u e_V2 e_dU0 etdrk4_a nth fst snd].
  set (k1 := N u).
  assert (forall x, vadd I (vmul I u (fun _ => 1)) (vmul I (vscal I (etdrk4_b 0 * dt) (fun _ => 1)) x) = vadd I u (vscal I (rk4_b 0 * dt) x)) as E1 by (intros x; apply functional_extensionality; intros i; unfold vadd, vmul, vscal; cbn; ring).
  rewrite E1. set (k2 := N (vadd I u (vscal I (rk4_b 0 * dt) k1))).
  assert (forall x, vadd I (vmul I u (fun _ => 1)) (vmul I (vscal I (etdrk4_b 1 * dt) (fun _ => 1)) x) = vadd I u (vscal I (rk4_b 1 * dt) x)) as E2 by (intros x; apply functional_extensionality; intros i; unfold vadd, vmul, vscal; cbn; ring).
  rewrite E2. set (k3 := N (vadd I u (vscal I (rk4_b 1 * dt) k2))).
  assert (vadd I (vmul I (fun _ => 1) (vadd I u (vscal I (rk4_b 0 * dt) k1))) (vmul I (vscal I (etdrk4_b 2 * dt) (fun _ => 1)) (vsub I (vscal I 2 k3) k1)) = vadd I u (vscal I (rk4_b 2 * dt) k3)) as E3
    by (apply functional_extensionality; intros i; unfold vadd, vsub, vmul, vscal; cbn; field).
  rewrite E3. set (k4 := N (vadd I u (vscal I (rk4_b 2 * dt) k3))).
  apply functional_extensionality. intros i. unfold vadd, vsub, vmul, vscal, rk4_a. cbn [nth]. field.
Qed.
Print Assumptions C33_etdrk4_L0.

(** refuted for complex linear parts: psi is real.  For u' = i w u + c the imaginary part of one step from
    u = 0 is zero for both, whatever the values of psi; neither is of second order *)
Definition as_cx (v : vec bool) : cx := (v false, v true).
Definition of_cx (z : cx) : vec bool := fun b => if b then snd z else fst z.
Theorem C33_etd_complex_refuted : forall (w c : R), w <> 0 -> c <> 0 -> exists y,
  solution bool (fun u => of_cx (c_add (c_mul (0, w) (as_cx u)) (c, 0))) (fun _ => 0) y /\
  forall psi : R -> nat -> R,
  ~ order 2 (fun h => of_cx (etd_step_complex h (cos (w * h)) (sin (w * h)) (psi h 0%nat) (c, 0) (0, 0))) y /\
  ~ order 2 (fun h => of_cx (etdrk4_step_complex h (cos (w * h), sin (w * h)) (cos (w * h / 2), sin (w * h / 2)) (psi h) (fun _ => (c, 0)) (0, 0) (0, 0) (0, 0))) y.
Proof.
  intros w c Hw Hc. exists (fun h => of_cx (c / w * sin (w * h), c / w * (1 - cos (w * h)))).
  assert (forall h, derivable_pt_lim (fun h => w * h) h w) as D0 by (intros h; pose proof (derivable_pt_lim_scal id w h 1 (derivable_pt_lim_id h)) as D0; rewrite Rmult_1_r in D0; exact D0).
  assert (forall h, derivable_pt_lim (fun h => sin (w * h)) h (cos (w * h) * w)) as Ds by (intros h; apply (derivable_pt_lim_comp (fun h => w * h) sin h w); [apply D0|apply derivable_pt_lim_sin]).
  assert (forall h, derivable_pt_lim (fun h => cos (w * h)) h (- sin (w * h) * w)) as Dc by (intros h; apply (derivable_pt_lim_comp (fun h => w * h) cos h w); [apply D0|apply derivable_pt_lim_cos]).
  split.
  - split.
    + apply functional_extensionality. intros []; unfold of_cx; cbn; rewrite Rmult_0_r, ?sin_0, ?cos_0; ring.
    + intros b. apply near0_true. intros h. destruct b; unfold of_cx, as_cx, c_add, c_mul; cbn [fst snd].
      * replace (0 * (c / w * (1 - cos (w * h))) + w * (c / w * sin (w * h)) + 0) with (c / w * (0 - - sin (w * h) * w)) by (field; exact Hw).
        apply (derivable_pt_lim_scal (fun h => 1 - cos (w * h))). apply (derivable_pt_lim_minus (fun _ => 1) (fun h => cos (w * h))); [apply derivable_pt_lim_const|apply Dc].
      * replace (0 * (c / w * sin (w * h)) - w * (c / w * (1 - cos (w * h))) + c) with (c / w * (cos (w * h) * w)) by (field; exact Hw).
        apply (derivable_pt_lim_scal (fun h => sin (w * h))), Ds.
  - intros psi. assert (forall step : R -> vec bool, (forall h, step h true = 0) -> ~ order 2 step (fun h => of_cx (c / w * sin (w * h), c / w * (1 - cos (w * h))))) as G.
    { intros step Hs H. destruct (H true) as (C & d & Hd & HC).
      destruct (Ds 0 (Rabs w / 2)) as [d' Hd']; [apply Rdiv_lt_0_compat; [apply Rabs_pos_lt; exact Hw|lra]|].
      rewrite Rmult_0_r, cos_0, sin_0, Rmult_1_l in Hd'. pose proof (cond_pos d') as Pd.
      assert (0 < Rabs w) as Pw by (apply Rabs_pos_lt; exact Hw). assert (0 < Rabs c) as Pc by (apply Rabs_pos_lt; exact Hc). pose proof (Rabs_pos C) as PC.
      pose (Q := Rabs c * Rabs w / 8). assert (0 < Q) as PQ by (unfold Q; apply Rdiv_lt_0_compat; [apply Rmult_lt_0_compat; assumption|lra]).
      pose (h := Rmin (Rmin (d / 2) (d' / 2)) (Q / (2 * (Rabs C + 1)))).
      assert (0 < h) as Ph by (unfold h; apply Rmin_glb_lt; [apply Rmin_glb_lt; lra|apply Rdiv_lt_0_compat; lra]).
      assert (h < d) by (apply Rle_lt_trans with (d / 2); [eapply Rle_trans; [apply Rmin_l|apply Rmin_l]|lra]).
      assert (h < d') by (apply Rle_lt_trans with (d' / 2); [eapply Rle_trans; [apply Rmin_l|apply Rmin_r]|lra]).
      assert (h <= Q / (2 * (Rabs C + 1))) as Hh by apply Rmin_r.
      assert (Rabs h = h) as Eh by (apply Rabs_right; lra).
      specialize (HC h ltac:(lra)). rewrite Hs, Eh in HC. unfold of_cx in HC. cbn [snd Nat.add] in HC.
      specialize (Hd' (h / 2) ltac:(lra) ltac:(rewrite Rabs_right; lra)). rewrite Rplus_0_l, Rminus_0_r in Hd'.
      set (S := sin (w * (h / 2))) in Hd'.
      assert (1 - cos (w * h) = 2 * S * S) as E1 by (replace (w * h) with (2 * (w * (h / 2))) by field; rewrite cos_2a_sin; unfold S; ring).
      rewrite E1 in HC. assert (Rabs w / 2 * (h / 2) <= Rabs S) as BS.
      { assert (Rabs w <= Rabs (S / (h / 2)) + Rabs w / 2) as B.
        { replace w with (S / (h / 2) + - (S / (h / 2) - w)) at 1 by ring. eapply Rle_trans; [apply Rabs_triang|]. rewrite Rabs_Ropp. lra. }
        assert (Rabs S = Rabs (S / (h / 2)) * (h / 2)) as E2 by (rewrite <- (Rabs_right (h / 2)) at 2 by lra; rewrite <- Rabs_mult; f_equal; field; lra).
        rewrite E2. apply Rmult_le_compat_r; lra. }
      replace (0 - c / w * (2 * S * S)) with (- (c / w * (2 * S * S))) in HC by ring. unfold Rdiv in HC; rewrite Rabs_Ropp, !Rabs_mult, Rabs_inv, (Rabs_right 2) in HC by lra.
      assert (Rabs w / 2 * (h / 2) * (Rabs w / 2 * (h / 2)) <= Rabs S * Rabs S) as BQ by (apply Rmult_le_compat; try exact BS; apply Rmult_le_pos; lra).
      assert (Q * h * h <= Rabs c * / Rabs w * (2 * Rabs S * Rabs S)) as B1.
      { replace (Q * h * h) with (Rabs c * / Rabs w * (2 * (Rabs w / 2 * (h / 2) * (Rabs w / 2 * (h / 2))))) by (unfold Q; field; lra).
        apply Rmult_le_compat_l; [apply Rmult_le_pos; [lra|apply Rlt_le, Rinv_0_lt_compat; exact Pw]|]. lra. }
      assert (C * h ^ 3 <= Rabs C * h * (h * h)) as B2 by (replace (C * h ^ 3) with (C * (h * (h * h))) by ring; rewrite Rmult_assoc; apply Rmult_le_compat_r; [apply Rmult_le_pos; [lra|apply Rmult_le_pos; lra]|apply Rle_abs]).
      assert (Q <= Rabs C * h) as B3. { apply (Rmult_le_reg_r (h * h)); [apply Rmult_lt_0_compat; exact Ph|]. rewrite <- Rmult_assoc. replace (h ^ (2 + 1)) with (h ^ 3) in HC by reflexivity. lra. }
      assert (Rabs C * h <= (Rabs C + 1) * (Q / (2 * (Rabs C + 1)))) as B4 by (apply Rmult_le_compat; lra).
      replace ((Rabs C + 1) * (Q / (2 * (Rabs C + 1)))) with (Q / 2) in B4 by (field; lra). lra. }
    split; apply G; intros h; unfold of_cx, etd_step_complex, etdrk4_step_complex; cbn [for_up Nat.ltb Nat.leb Nat.eqb]; unfold c_add, c_mul, c_scal; cbn [fst snd]; ring.
Qed.
Print Assumptions C33_etd_complex_refuted.
