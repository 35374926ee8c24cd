(** Leg2ChebProperties.v -- C46: conversion between Legendre and Chebyshev coefficients, and the mixed
    mass matrix BTLmat. *)
From Coq Require Import Reals ZArith List Arith Bool Lia Lra.
From Verif Require Import Base Fld SparseModel SparseSpec RPoly StencilModel MatrixSpec MatrixProofs LegMatrixModel LegMatrixSpec LegMatrixProofs6
  ChebMatrixModel ChebMatrixProofs ChebQuadModel HelmholtzProofs Leg2ChebModel Leg2ChebSpec Leg2ChebProofs Leg2ChebProofs2 Leg2ChebProofs3 Leg2ChebProofs4.
Import ListNotations.
Local Open Scope R_scope.

(** ** leg2cheb *)
(** numba, cython, the slices of dlt.py and the class Leg2Cheb below its direct limit: the Chebyshev
    coefficients describe the polynomial with the given Legendre coefficients. *)
Theorem C46_leg2cheb : Forall (fun f : nat -> bool -> (nat -> R) -> nat -> R => forall N c, same_function N (f N false c) chebT c legL)
  [leg2cheb; leg2cheb_py; Leg2Cheb_direct].
Proof.
  repeat constructor; intros N c x; rewrite <- l2c_expansion; apply rsum_ext; intros k Hk; f_equal;
    [apply leg2cheb_val|apply leg2cheb_py_val|apply direct_val]; exact Hk.
Qed.
Print Assumptions C46_leg2cheb.
(** transpose=True applies the transposed matrix. *)
Theorem C46_leg2cheb_transpose : Forall (fun f : nat -> bool -> (nat -> R) -> nat -> R => forall N, adjoint N (f N false) (f N true))
  [leg2cheb; leg2cheb_py; Leg2Cheb_direct].
Proof.
  repeat constructor; intros N c d.
  - transitivity (rsum N (fun k => l2c_val N c k * d k)); [apply rsum_ext; intros k Hk; rewrite leg2cheb_val by exact Hk; reflexivity|].
    rewrite l2c_adjoint. apply rsum_ext. intros k Hk. rewrite leg2cheb_T_val by exact Hk. reflexivity.
  - transitivity (rsum N (fun k => l2c_val N c k * d k)); [apply rsum_ext; intros k Hk; rewrite leg2cheb_py_val by exact Hk; reflexivity|].
    rewrite l2c_adjoint. apply rsum_ext. intros k Hk. rewrite leg2cheb_py_T_val by exact Hk. reflexivity.
  - transitivity (rsum N (fun k => l2c_val N c k * d k)); [apply rsum_ext; intros k Hk; rewrite direct_val by exact Hk; reflexivity|].
    rewrite l2c_adjoint. apply rsum_ext. intros k Hk. rewrite direct_T_val by exact Hk. reflexivity.
Qed.
Print Assumptions C46_leg2cheb_transpose.

(** ** cheb2leg *)
Theorem C46_cheb2leg : Forall (fun f : nat -> (nat -> R) -> nat -> R => forall N v, same_function N (f N v) legL v chebT) [cheb2leg; cheb2leg_py].
Proof.
  repeat constructor; intros N v x; rewrite <- (c2l_expansion ((N - 1) / 2) N v x (half_lt N)); apply rsum_ext; intros k Hk; f_equal;
    [apply cheb2leg_val|apply cheb2leg_py_val]; exact Hk.
Qed.
Print Assumptions C46_cheb2leg.
(** The two conversions are inverse to each other. *)
Lemma leg2cheb_unique N c (b : nat -> R) : same_function N b chebT c legL -> forall k, (k < N)%nat -> b k = leg2cheb N false c k.
Proof.
  intros Hb. apply cheb_coeffs. intros x. rewrite Hb. pose proof C46_leg2cheb as H. inversion H as [|? ? H1 _]. symmetry. apply H1.
Qed.
Lemma cheb2leg_unique N v (b : nat -> R) : same_function N b legL v chebT -> forall k, (k < N)%nat -> b k = cheb2leg N v k.
Proof.
  intros Hb. apply leg_coeffs. intros x. rewrite Hb. pose proof C46_cheb2leg as H. inversion H as [|? ? H1 _]. symmetry. apply H1.
Qed.
Theorem C46_round_trip : Forall (fun f : nat -> bool -> (nat -> R) -> nat -> R => Forall (fun g : nat -> (nat -> R) -> nat -> R =>
    forall N c k, (k < N)%nat -> g N (f N false c) k = c k /\ f N false (g N c) k = c k)
  [cheb2leg; cheb2leg_py]) [leg2cheb; leg2cheb_py; Leg2Cheb_direct].
Proof.
  pose proof C46_leg2cheb as HF. pose proof C46_cheb2leg as HG. rewrite Forall_forall in *. intros f Hf. rewrite Forall_forall in *. intros g Hg N c k Hk.
  specialize (HF f Hf). specialize (HG g Hg). split.
  - revert k Hk. apply leg_coeffs. intros x. rewrite (HG N (f N false c) x). apply HF.
  - revert k Hk. apply cheb_coeffs. intros x. rewrite (HF N (g N c) x). apply HG.
Qed.
Print Assumptions C46_round_trip.
Example C46_round_trip_ex : cheb2leg 3 (leg2cheb 3 false (fun i => INR i + 1)) 2 = 3 /\ (2 < 3)%nat.
Proof.
  split; [|lia]. pose proof C46_round_trip as H. rewrite Forall_forall in H. specialize (H _ (or_introl eq_refl)). rewrite Forall_forall in H. specialize (H _ (or_introl eq_refl)).
  destruct (H 3%nat (fun i => INR i + 1) 2%nat ltac:(lia)) as (E & _). rewrite E. cbn. ring.
Qed.

(** ** the direct branch of the classes for arrays with more than one dimension *)
Lemma odd_half N : Nat.odd N = true -> exists m, N = (2 * m + 1)%nat /\ (N / 2 = m)%nat /\ ((N - 1) / 2 = m)%nat.
Proof.
  intros H. apply Nat.odd_spec in H. destruct H as [m ->]. exists m. repeat split.
  - symmetry. apply (Nat.div_unique _ 2 m 1); lia.
  - replace (2 * m + 1 - 1)%nat with (m * 2)%nat by lia. apply Nat.div_mul. lia.
Qed.
Lemma even_half N : Nat.even N = true -> exists m, N = (2 * m)%nat /\ (N / 2 = m)%nat.
Proof. intros H. apply Nat.even_spec in H. destruct H as [m ->]. exists m. split; [reflexivity|]. rewrite Nat.mul_comm. apply Nat.div_mul. lia. Qed.
(** Cheb2Leg: right for even N *)
Theorem C46_Cheb2Leg_direct_partial : forall N v, Nat.even N = true -> same_function N (Cheb2Leg_direct N v) legL v chebT.
Proof.
  intros N v HN x. destruct (even_half N HN) as (m & EN & Em).
  rewrite <- (c2l_expansion (N / 2 - 1) N v x) by lia. apply rsum_ext. intros k Hk. f_equal. apply Cheb2Leg_direct_val. exact Hk.
Qed.
Print Assumptions C46_Cheb2Leg_direct_partial.
Example C46_Cheb2Leg_direct_ex : Nat.even 6 = true. Proof. reflexivity. Qed.
(** and wrong for odd N >= 3 whenever the last coefficient is not zero: one term is never subtracted. *)
Lemma c2l_last m N v : N = (2 * m + 1)%nat -> (1 <= m)%nat -> v (N - 1)%nat <> 0 -> c2l_val (m - 1) N v 0 <> c2l_val m N v 0.
Proof.
  intros EN Hm Hv E. rewrite !c2l_full in E by lia. replace (S (m - 1)) with m in E by lia. rewrite rsum_last in E.
  assert (Z : guard (Nat.ltb (0 + 2 * m) N) (v (0 + 2 * m)%nat * tl 0 m) = 0) by lra.
  unfold guard in Z. destruct (Nat.ltb_spec (0 + 2 * m) N); [|lia]. replace (0 + 2 * m)%nat with (N - 1)%nat in Z by lia.
  rewrite tl_pos in Z by lia. unfold tau, mu, c2l_a in Z. cbn [Nat.add] in Z. destruct (Nat.eqb_spec m 0); [lia|].
  pose proof (Lam_pos (m - 1)) as P1. pose proof (Lam_pos m) as P2. pose proof (lt_0_INR m ltac:(lia)) as P3. rewrite mult_INR in Z. change (INR 0) with 0 in Z. change (INR 2) with 2 in Z.
  assert (Z2 : v (N - 1)%nat * Lam (m - 1) / (4 * INR m * (INR m + / 2) * Lam m) = 0).
  { transitivity (- (v (N - 1)%nat * ((- (Lam (m - 1) / (2 * INR m)) * (1 / (2 * Lam m * INR m * (INR m + / 2))) * (0 + 2 * INR m)) * (0 + / 2)))); [field; repeat split; lra|]. rewrite Z. ring. }
  apply (f_equal (fun y => y * (4 * INR m * (INR m + / 2) * Lam m))) in Z2. rewrite Rmult_0_l in Z2. unfold Rdiv in Z2. rewrite Rmult_assoc, Rinv_l in Z2.
  - rewrite Rmult_1_r in Z2. apply Rmult_integral in Z2. destruct Z2; [auto|lra].
  - repeat apply Rmult_integral_contrapositive_currified; lra.
Qed.
Theorem C46_Cheb2Leg_direct_odd_refuted : forall N v, Nat.odd N = true -> (3 <= N)%nat -> v (N - 1)%nat <> 0 ->
  ~ same_function N (Cheb2Leg_direct N v) legL v chebT.
Proof.
  intros N v HN H3 Hv S. destruct (odd_half N HN) as (m & EN & E1 & E2).
  pose proof (cheb2leg_unique N v _ S 0 ltac:(lia)) as E. rewrite Cheb2Leg_direct_val, cheb2leg_val in E by lia. rewrite E1, E2 in E.
  revert E. apply c2l_last; [exact EN|lia|exact Hv].
Qed.
Print Assumptions C46_Cheb2Leg_direct_odd_refuted.
Example C46_Cheb2Leg_direct_odd_ex : Nat.odd 5 = true /\ (3 <= 5)%nat /\ (fun _ : nat => 1) (5 - 1)%nat <> 0.
Proof. repeat split; [lia|lra]. Qed.
(** FMMLeg2Cheb has the same fault *)
Theorem C46_FMMLeg2Cheb_direct_partial : forall N c, Nat.even N = true -> same_function N (FMMLeg2Cheb_direct N false c) chebT c legL.
Proof.
  intros N c HN x. rewrite <- l2c_expansion. apply rsum_ext. intros k Hk. f_equal. rewrite FMMLeg2Cheb_val by exact Hk. unfold l2c_val. do 2 f_equal.
  destruct (even_half N HN) as (m & EN & Em). unfold evens. rewrite Em, EN. apply (Nat.div_unique _ 2 m 1); lia.
Qed.
Print Assumptions C46_FMMLeg2Cheb_direct_partial.
Theorem C46_FMMLeg2Cheb_direct_odd_refuted : forall N c, Nat.odd N = true -> c (N - 1)%nat <> 0 ->
  ~ same_function N (FMMLeg2Cheb_direct N false c) chebT c legL.
Proof.
  intros N c HN Hc S. destruct (odd_half N HN) as (m & EN & E1 & _).
  pose proof (leg2cheb_unique N c _ S 0 ltac:(lia)) as E. rewrite FMMLeg2Cheb_val, leg2cheb_val in E by lia. unfold l2c_val in E. rewrite E1 in E.
  assert (EE : evens N = Datatypes.S m) by (unfold evens; rewrite EN; symmetry; apply (Nat.div_unique _ 2 (Datatypes.S m) 0); lia).
  rewrite EE, rsum_last in E. unfold wt in E. cbn [Nat.eqb] in E. pose proof PI_RGT_0 as HP. pose proof (Lam_pos m) as HL. pose proof (Rinv_0_lt_compat PI HP) as HI.
  set (X := rsum m _) in E. unfold guard in E. destruct (Nat.ltb_spec (0 + 2 * m) N); [|lia]. rewrite Nat.add_0_r in E. replace (2 * m + 0)%nat with (N - 1)%nat in E by lia.
  apply Hc. assert (Z : / PI * (Lam m * Lam m * c (N - 1)%nat) = 0) by lra.
  apply Rmult_integral in Z. destruct Z as [Z|Z]; [lra|]. apply Rmult_integral in Z. destruct Z as [Z|Z]; [|exact Z]. apply Rmult_integral in Z. lra.
Qed.
Print Assumptions C46_FMMLeg2Cheb_direct_odd_refuted.
Example C46_FMMLeg2Cheb_ex : Nat.odd 7 = true /\ Nat.even 8 = true /\ (fun _ : nat => 1) (7 - 1)%nat <> 0.
Proof. repeat split. lra. Qed.

(** ** BTLmat *)
(** With Gauss points the entries are the exact products (L_j, T_k)_w *)
Theorem C46_BTL_exact : forall N, holds N N (c_BTL LG N) (fun k j r => cheb_inner (peval (chebT k)) (peval (legL j)) r).
Proof.
  intros N. split; [reflexivity|]. split; [reflexivity|]. intros k j Hk Hj. rewrite BTL_exact by assumption. exact (cheb_inner_cip 0 0 (chebT k) (legL j)).
Qed.
Print Assumptions C46_BTL_exact.
(** and with either rule the entries are the quadrature sums. *)
Theorem C46_BTL_quadrature : forall q N, (2 <= N)%nat ->
  holds N N (c_BTL q N) (fun k j r => quad_sum (cheb_rule q N) (fun x => peval (chebT k) x * peval (legL j) x) = r).
Proof.
  intros q N HN. split; [reflexivity|]. split; [reflexivity|]. intros k j Hk Hj. symmetry. apply BTL_quad; assumption.
Qed.
Print Assumptions C46_BTL_quadrature.
Lemma integral_fun f a b u v : integral f a b u -> integral f a b v -> u = v.
Proof. intros (p1 & <-) (p2 & <-). apply RiemannInt_P5. Qed.
(** Gauss-Lobatto points: the same matrix is assembled when the exact products are asked for, and its last diagonal entry is twice the integral. *)
Theorem C46_BTL_exact_lobatto_refuted : forall N, (1 <= N)%nat ->
  ~ holds N N (c_BTL GL N) (fun k j r => cheb_inner (peval (chebT k)) (peval (legL j)) r).
Proof.
  intros N HN (_ & _ & H). specialize (H (N - 1)%nat (N - 1)%nat ltac:(lia) ltac:(lia)).
  destruct (C46_BTL_exact N) as (_ & _ & H2). specialize (H2 (N - 1)%nat (N - 1)%nat ltac:(lia) ltac:(lia)).
  pose proof (integral_fun _ _ _ _ _ H H2) as E.
  pose proof (BTL_entry_in GL N (N - 1) 0 ltac:(lia)) as E1. pose proof (BTL_entry_in LG N (N - 1) 0 ltac:(lia)) as E2.
  replace (N - 1 + 2 * 0)%nat with (N - 1)%nat in * by lia. rewrite E1, E2 in E. unfold last2 in E. rewrite !Nat.eqb_refl in E. cbn [Nat.eqb andb] in E.
  pose proof (Rmult_lt_0_compat _ _ (Lam_pos 0) (Lam_pos (N - 1 + 0))) as HP. set (X := Lam 0 * Lam (N - 1 + 0)) in *. clearbody X. lra.
Qed.
Print Assumptions C46_BTL_exact_lobatto_refuted.
(** matvec is the product with the matrix for Gauss points and scale 1 *)
Theorem C46_BTL_matvec_partial : forall N v i, (i < N)%nat -> BTL_matvec N v i = gsum 0 Rplus N (fun j => mat_entry RFld (c_BTL LG N) i j * v j).
Proof. exact BTL_matvec_entries. Qed.
Print Assumptions C46_BTL_matvec_partial.
(** it leaves out the scale of the matrix and the doubled last entry *)
Theorem C46_BTL_matvec_refuted : forall q N s, (1 <= N)%nat -> (q = GL /\ s <> / 2 \/ q = LG /\ s <> 1) ->
  exists v i, (i < N)%nat /\ BTL_matvec N v i <> gsum 0 Rplus N (fun j => mat_entry RFld (mkSmat RFld N N s (sm_items RFld (c_BTL q N))) i j * v j).
Proof.
  intros q N s HN Hq. exists (fun j => if Nat.eqb j (N - 1) then 1 else 0), (N - 1)%nat. split; [lia|].
  rewrite BTL_matvec_entries by lia.
  assert (P : forall f, rsum N (fun j => f j * (if Nat.eqb j (N - 1) then 1 else 0)) = f (N - 1)%nat).
  { intros f. rewrite (rsum_at N (N - 1)); [rewrite Nat.eqb_refl; ring|lia|]. intros i Hi Hne. destruct (Nat.eqb_spec i (N - 1)); [contradiction|ring]. }
  rewrite !P.
  assert (Q : mat_entry RFld (mkSmat RFld N N s (sm_items RFld (c_BTL q N))) (N - 1) (N - 1) = mat_entry RFld (c_BTL q N) (N - 1) (N - 1) * s).
  { unfold mat_entry. cbn [sm_items sm_scale c_BTL]. destruct (lookup _ _ _); rn; ring. }
  rewrite Q. pose proof (BTL_entry_in q N (N - 1) 0 ltac:(lia)) as E1. pose proof (BTL_entry_in LG N (N - 1) 0 ltac:(lia)) as E2.
  replace (N - 1 + 2 * 0)%nat with (N - 1)%nat in * by lia. rewrite E1, E2. unfold last2. rewrite !Nat.eqb_refl.
  pose proof (Rmult_lt_0_compat _ _ (Lam_pos 0) (Lam_pos (N - 1 + 0))) as HP. set (X := Lam 0 * Lam (N - 1 + 0)) in *. clearbody X. intros E.
  destruct Hq as [[-> Hs]|[-> Hs]]; cbn [Nat.eqb andb] in E; apply Hs; apply (Rmult_eq_reg_l X); lra.
Qed.
Print Assumptions C46_BTL_matvec_refuted.
Example C46_BTL_ex : (2 <= 4)%nat /\ mat_entry RFld (c_BTL LG 4) 0 2 = Lam 1 * Lam 1. 
Proof. split; [lia|]. pose proof (BTL_entry_in LG 4 0 1 ltac:(lia)) as E. cbn [Nat.add Nat.mul] in E. rewrite E. unfold last2. cbn [andb Nat.add]. apply Rmult_1_r. Qed.
