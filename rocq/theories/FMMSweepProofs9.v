(** FMMSweepProofs9.v -- Leg2Cheb and Cheb2Leg with FMMcheb: distance from the exact conversion. *)
From Coq Require Import Reals List Arith Bool Lia Lra.
From Verif Require Import Base RPoly HelmholtzProofs StencilProofs8 Leg2ChebModel Leg2ChebProofs Leg2ChebProofs2 Leg2ChebProofs3 FMMModel FMMProofs FMMProofs2 FMMProofs3 FMMProofs4
  FMMSweepModel FMMSweepSpec FMMSweepProofs FMMSweepProofs2 FMMSweepProofs5 FMMSweepProofs8.
Import ListNotations.
Local Open Scope R_scope.

Section Whole.
  Variables (N : nat) (D : list nat) (s diags : nat) (Mmin Nk : nat -> nat) (A : nat -> nat -> nat -> R) (eps : R).
  Hypothesis HD : Forall (fun d => (0 < d)%nat) D.
  Hypothesis HL : D <> [].
  Hypothesis Hs : (0 < s)%nat.
  Hypothesis Hok : sizes_ok D Mmin Nk.
  Hypothesis Heps : 0 <= eps.
  Let Nd := get_number_of_blocks (List.length D) D.
  Hypothesis HN : (N <= 2 * (diags + s * Nd))%nat.
  Lemma scale_val (f : nat -> R) i : (i < N)%nat ->
    (let g := for_up N 0 (fun i f => upd f i (f i * (2 / PI))) f in upd g 0 (g 0%nat * / 2)) i = f i * (2 / PI) * (if Nat.eqb i 0 then / 2 else 1).
  Proof.
    intros Hi. cbv zeta. unfold upd at 1. pose proof PI_RGT_0. destruct (Nat.eqb_spec i 0) as [E|E]; [subst i|]; rewrite scale_upto by lia; field; lra.
  Qed.
  Lemma scale_abs (f : nat -> R) i : (i < N)%nat ->
    Rabs ((let g := for_up N 0 (fun i f => upd f i (f i * (2 / PI))) f in upd g 0 (g 0%nat * / 2)) i) <= 2 / PI * Rabs (f i).
  Proof.
    intros Hi. rewrite scale_val by exact Hi. pose proof PI_RGT_0. assert (H0 : 0 < 2 / PI) by (apply Rdiv_lt_0_compat; lra). rewrite !Rabs_mult, (Rabs_pos_eq (2 / PI)) by lra.
    pose proof (Rabs_pos (f i)). assert (0 <= Rabs (f i) * (2 / PI)) by (apply Rmult_le_pos; lra). destruct (Nat.eqb i 0).
    - rewrite (Rabs_pos_eq (/ 2)) by lra. lra.
    - rewrite Rabs_R1. lra.
  Qed.
  Lemma near_diff trans a u v v' i : (i < N)%nat -> direct2 (2 * s) Nd (2 * diags) N trans a u v' i - direct2 (2 * s) Nd (2 * diags) N trans a u v i = v' i - v i.
  Proof. intros Hi. destruct trans; [rewrite !(direct2_T_val N s diags Nd a u _ Hs (diags + s)) by lia|rewrite !(direct2_val N s diags Nd a u _ Hs (diags + s)) by lia]; ring. Qed.
  Lemma band_diff trans a u v v' i : direct1_on diags N trans a u v' i - direct1_on diags N trans a u v i = v' i - v i.
  Proof.
    unfold direct1_on. destruct trans.
    - rewrite !(acc_loops_T diags N (fun h i => a h * a (h + i)%nat * u i)). ring.
    - rewrite !(acc_loops diags 0 N (fun h i => a h * a (h + i)%nat * u (2 * h + i)%nat)). ring.
  Qed.
  Lemma Leg2Cheb_error c i : accurate N (submatrices D s diags) Nk A Mxy eps -> (i < N)%nat ->
    Rabs (Leg2Cheb_sweep N D s diags Mmin Nk A false c i - l2c_val N c i) <= 2 / PI * eps * rsum N (fun k => Rabs (c k)).
  Proof.
    intros Ha Hi. rewrite <- (Leg2Cheb_fmm_val N D s diags HD Hs HN c i Hi). unfold Leg2Cheb_sweep, Leg2Cheb_fmm. fold Nd. cbv zeta.
    pose proof (FMMcheb_error N D s diags Mmin Nk A Mxy eps HD HL Hs Hok Heps Ha c i Hi) as E.
    pose proof (scale_val (direct1_on diags N false Lam c (direct2 (2 * s) Nd (2 * diags) N false Lam c (FMMcheb N D s diags Mmin Nk A false c))) i Hi) as SV; cbv zeta in SV; rewrite SV; clear SV.
    pose proof (scale_val (direct1_on diags N false Lam c (direct2 (2 * s) Nd (2 * diags) N false Lam c (fmm_cheb N D s diags Mxy c))) i Hi) as SV; cbv zeta in SV; rewrite SV; clear SV.
    rewrite <- Rmult_minus_distr_r, <- Rmult_minus_distr_r, band_diff, near_diff by exact Hi. set (e := FMMcheb _ _ _ _ _ _ _ _ _ i - _) in *. clearbody e.
    pose proof PI_RGT_0. assert (H0 : 0 < 2 / PI) by (apply Rdiv_lt_0_compat; lra). rewrite !Rabs_mult, (Rabs_pos_eq (2 / PI)) by lra. pose proof (Rabs_pos e).
    set (t := eps * rsum N _) in E. replace (2 / PI * eps * rsum N (fun k => Rabs (c k))) with (t * (2 / PI)) by (unfold t; ring). clearbody t.
    assert (Rabs e * (2 / PI) <= t * (2 / PI)) by (apply Rmult_le_compat_r; lra). assert (0 <= Rabs e * (2 / PI)) by (apply Rmult_le_pos; lra).
    destruct (Nat.eqb i 0); [rewrite (Rabs_pos_eq (/ 2)) by lra|rewrite Rabs_R1]; lra.
  Qed.
  Lemma Leg2Cheb_T_error c i : accurate N (submatrices D s diags) Nk A Mxy eps -> (i < N)%nat ->
    Rabs (Leg2Cheb_sweep N D s diags Mmin Nk A true c i - l2c_T_val N c i) <= 2 / PI * eps * rsum N (fun k => Rabs (c k)).
  Proof.
    intros Ha Hi. rewrite <- (Leg2Cheb_fmm_T_val N D s diags HD Hs HN c i Hi). unfold Leg2Cheb_sweep, Leg2Cheb_fmm. fold Nd. cbv zeta.
    pose proof (scale_abs c) as SC. cbv zeta in SC. set (cv := upd _ 0%nat _) in *.
    pose proof (FMMcheb_T_error N D s diags Mmin Nk A Mxy eps HD HL Hs Hok Heps Ha cv i Hi) as E.
    rewrite band_diff, near_diff by exact Hi. eapply Rle_trans; [exact E|]. replace (2 / PI * eps * rsum N (fun k => Rabs (c k))) with (eps * rsum N (fun k => 2 / PI * Rabs (c k))) by (rewrite rsum_scal; ring).
    apply Rmult_le_compat_l; [exact Heps|]. apply rsum_le'. exact SC.
  Qed.
  Lemma Cheb2Leg_error v i : (1 <= diags)%nat -> accurate N (submatrices D s diags) Nk A Lxy eps -> (i < N)%nat ->
    Rabs (Cheb2Leg_sweep N D s diags Mmin Nk A v i - c2l_val ((N - 1) / 2) N v i) <= (INR i + / 2) * eps * rsum N (fun k => INR (Nat.max k 1) * Rabs (v k)).
  Proof.
    intros Hd Ha Hi. rewrite <- (Cheb2Leg_fmm_val N D s diags HD Hs HN v i Hd Hi). unfold Cheb2Leg_sweep, Cheb2Leg_fmm. fold Nd. cbv zeta. rewrite !fin_scale by exact Hi.
    assert (W : forall k, (k < N)%nat -> for_up (N - 1) 1 (fun i w => upd w i (w i * INR i)) v k = vnf v k).
    { intros k Hk. rewrite (for_up_pointwise (N - 1) 1 (fun k x => x * INR k)). unfold vnf. destruct (Nat.eqb_spec k 0) as [->|]; [reflexivity|].
      destruct (Nat.leb_spec 1 k); [|lia]. destruct (Nat.ltb_spec k (1 + (N - 1))); [reflexivity|lia]. }
    set (w := for_up (N - 1) 1 _ v) in *. pose proof (FMMcheb_error N D s diags Mmin Nk A Lxy eps HD HL Hs Hok Heps Ha w i Hi) as E.
    unfold direct4. cbv zeta. rewrite !(c2l_sub_val _ _ _ v) by exact W. rewrite !(for_up_pointwise N 0 (fun k x => x + sqrt PI * c2l_a k * w k)). cbn [Nat.leb andb Nat.add]. destruct (Nat.ltb_spec i N); [|lia].
    rewrite !(direct3_val N s diags Nd c2l_a w _ Hs (diags + s)) by lia. set (e1 := FMMcheb _ _ _ _ _ _ _ _ _ i) in *. set (e2 := fmm_cheb _ _ _ _ _ _ i) in *.
    match goal with |- Rabs ?z <= _ => replace z with ((INR i + / 2) * (e1 - e2)) by ring end. pose proof (pos_INR i). rewrite Rabs_mult, (Rabs_pos_eq (INR i + / 2)), Rmult_assoc by lra.
    apply Rmult_le_compat_l; [lra|]. eapply Rle_trans; [exact E|]. apply Rmult_le_compat_l; [exact Heps|]. apply rsum_le'. intros k Hk. rewrite (W k Hk). unfold vnf. destruct (Nat.eqb_spec k 0) as [Ek|Ek].
    - subst k. cbn [Nat.max INR]. lra.
    - rewrite Nat.max_l by lia. rewrite Rabs_mult, (Rabs_pos_eq (INR k)) by apply pos_INR. rewrite Rmult_comm. lra.
  Qed.
End Whole.
