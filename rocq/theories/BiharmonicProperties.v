(** BiharmonicProperties.v -- C39, continued: the Chebyshev biharmonic solver.

    [biharmonic6 S A B a0 al be f u0] is Biharmonic(S, A, B, a0, al, be)(f, u0): [None] stands for an
    error (a missing diagonal, an index out of bounds, a division by a zero pivot). *)
From Coq Require Import Reals ZArith List Arith Bool Lia Lra.
From Verif Require Import Base Fld SparseModel SparseSpec SparseProofs RPoly StencilModel StencilModel2 LegMatrixModel LegMatrixProofs5 LegMatrixProofs6
  ChebMatrixModel ChebMatrixProofs2 HelmholtzModel HelmholtzSpec HelmholtzProofs HelmholtzProofs3 HelmholtzProofs4 BiharmonicModel BiharmonicProofs BiharmonicProofs2 BiharmonicProofs3 BiharmonicProofs4.
Import ListNotations.
Local Open Scope R_scope.

Definition combination3 (a al be : R) (S A B : smat RFld) (k j : nat) : R :=
  a * mat_entry RFld S k j + al * mat_entry RFld A k j + be * mat_entry RFld B k j.

(** every solution that is returned solves the system, for every even N and every a0, alfa, beta *)
Theorem C39_biharmonic quadrature q N da db a al be f u0 u :
  (9 <= N)%nat -> Nat.even N = true ->
  let S := scaled 1 (c_SSBSB N) in let A := scaled da (c_ASBSB N) in let B := scaled db (c_BSBSB (cheb_norm_sq quadrature q N) N) in
  biharmonic6 S A B a al be f u0 = Some u -> solves (N - 4) (combination3 a al be S A B) f u.
Proof. apply biharmonic_ok. Qed.

(** and one is returned for the pure fourth-order problem *)
Theorem C39_biharmonic_fourth_order quadrature q N da db a f u0 :
  (14 <= N)%nat -> Nat.even N = true -> a <> 0 ->
  let S := scaled 1 (c_SSBSB N) in let A := scaled da (c_ASBSB N) in let B := scaled db (c_BSBSB (cheb_norm_sq quadrature q N) N) in
  exists u, biharmonic6 S A B a 0 0 f u0 = Some u /\ solves (N - 4) (fun k j => a * mat_entry RFld S k j) f u.
Proof.
  intros HN He Ha S A B. destruct (biharmonic_exists N (cheb_norm_sq quadrature q N) 1 da db a f u0 HN He ltac:(lra) Ha) as [u Hu].
  exists u. split; [exact Hu|]. intros k Hk. pose proof (biharmonic_ok N (cheb_norm_sq quadrature q N) da db a 0 0 f u0 u ltac:(lia) He Hu k Hk) as H.
  unfold row_solved in *. rewrite <- H. apply rsum_ext. intros j Hj. fold S A B. ring.
Qed.

(** Biharmonic(S, A, B): the scales of the matrices are the constants, so the system is S + A + B *)
Theorem C39_biharmonic_three_arguments S A B a al be f u0 :
  sm_scale RFld S = 1 -> sm_scale RFld A = 1 -> sm_scale RFld B = 1 ->
  biharmonic3 (smul RFld S a) (smul RFld A al) (smul RFld B be) f u0 = biharmonic6 S A B a al be f u0
  /\ (forall k j, mat_entry RFld (smul RFld S a) k j + mat_entry RFld (smul RFld A al) k j + mat_entry RFld (smul RFld B be) k j = combination3 a al be S A B k j).
Proof.
  intros HS HA HB. split.
  - unfold biharmonic3, biharmonic6, bh_keys. rewrite !smul_key. unfold smul. cbn [sm_scale sm_rows]. rewrite HS, HA, HB.
    change (car RFld) with R in *. rn. rewrite !Rmult_1_l. reflexivity.
  - intros k j. rewrite !smul_entry. reflexivity.
Qed.

(** with an odd number of quadrature points the last pivot of the odd half is never computed: every
    call ends in a division by zero, whatever the constants and the right hand side *)
Theorem C39_biharmonic_odd_refuted quadrature q N ds da db a al be f u0 :
  (9 <= N)%nat -> Nat.odd N = true ->
  biharmonic6 (scaled ds (c_SSBSB N)) (scaled da (c_ASBSB N)) (scaled db (c_BSBSB (cheb_norm_sq quadrature q N) N)) a al be f u0 = None.
Proof.
  intros HN Ho. apply Nat.odd_spec in Ho. destruct Ho as [m ->]. unfold biharmonic6. rewrite b_keys by lia. rewrite b_rows.
  replace (2 * m + 1 - 4)%nat with (2 * (m - 2) + 1)%nat by lia. rewrite half_odd_none.
  destruct (bh_half _ 0 _ _ _ _ _ _); reflexivity.
Qed.

(** fewer than 14 quadrature points: the kernels write past the end of their work arrays *)
Theorem C39_biharmonic_small_refuted quadrature q N ds da db a al be f u0 :
  (9 <= N < 14)%nat ->
  biharmonic6 (scaled ds (c_SSBSB N)) (scaled da (c_ASBSB N)) (scaled db (c_BSBSB (cheb_norm_sq quadrature q N) N)) a al be f u0 = None.
Proof.
  intros HN. unfold biharmonic6. rewrite b_keys by lia. rewrite b_rows.
  assert (H : bh_half (N - 4) 1 a al be (bD (cheb_norm_sq quadrature q N) ds da db) f u0 = None).
  { unfold bh_half. replace (Nat.ltb ((N - 4 + 1 - 1) / 2) 5) with true; [reflexivity|]. symmetry. apply Nat.ltb_lt. apply Nat.div_lt_upper_bound; lia. }
  rewrite H. destruct (bh_half _ 0 _ _ _ _ _ _); reflexivity.
Qed.

(** on a domain whose factor ds of the fourth-order matrix is not 1 the far entries of S are taken
    from the formula of the reference domain: the result does not solve the system *)
Theorem C39_biharmonic_domain_refuted quadrature q N ds : (14 <= N)%nat -> Nat.even N = true -> ds <> 0 -> ds <> 1 ->
  let S := scaled ds (c_SSBSB N) in let A := scaled 1 (c_ASBSB N) in let B := scaled 1 (c_BSBSB (cheb_norm_sq quadrature q N) N) in
  exists f u, biharmonic6 S A B 1 0 0 f (fun _ => 0) = Some u /\ ~ solves (N - 4) (combination3 1 0 0 S A B) f u.
Proof.
  intros HN He H0 H1 S A B. destruct (biharmonic_domain N (cheb_norm_sq quadrature q N) ds HN He H0 H1) as (u & Hu & Hn).
  exists (unit_at (N - 6)), u. split; [exact Hu|]. intros H. apply Hn. intros k Hk. specialize (H k Hk). unfold row_solved, combination3 in *.
  rewrite <- H. apply rsum_ext. intros j Hj. fold S. ring.
Qed.

(** an instance: N = 16, all right hand sides *)
Example C39_biharmonic_instance f : exists u,
  biharmonic6 (scaled 1 (c_SSBSB 16)) (scaled 1 (c_ASBSB 16)) (scaled 1 (c_BSBSB (cheb_norm_sq true GL 16) 16)) 2 0 0 f (fun _ => 0) = Some u.
Proof. apply biharmonic_exists; [lia|reflexivity|lra|lra]. Qed.

Print Assumptions C39_biharmonic.
Print Assumptions C39_biharmonic_fourth_order.
Print Assumptions C39_biharmonic_three_arguments.
Print Assumptions C39_biharmonic_odd_refuted.
Print Assumptions C39_biharmonic_small_refuted.
Print Assumptions C39_biharmonic_domain_refuted.
