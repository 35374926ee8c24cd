(** EvalProperties2.v -- C34 in two and three dimensions: T.eval with its three methods.  The
    specification is EvalSpec2.v. *)
From Coq Require Import Arith ZArith Reals List Bool Lia Lra FunctionalExtensionality.
From Verif Require Import Base SparseModel EvalModel2 EvalSpec2 EvalProofs2 EvalProofs3.
Import ListNotations.
Local Open Scope R_scope.

(** *** method 1 (default), one real-to-complex axis, any grid of ranks.  For odd N always right; for
    even N only if the coefficients of the mode N/2 vanish *)
Theorem C34_eval_2D_partial : forall N r2c lens0 lens1 npts u P0 P1 i, (2 <= N)%nat -> (i < npts)%nat ->
  total (if (r2c =? 0)%Z then lens0 else lens1) = (N / 2 + 1)%nat ->
  (forall k l, (2 * (if (r2c =? 0)%Z then k else l) = N)%nat -> u k l = c0) ->
  eval_cython_2D N r2c lens0 lens1 npts u P0 P1 i = real_series2 N r2c (total lens0) (total lens1) u (P0 i) (P1 i).
Proof.
  intros N r2c lens0 lens1 npts u P0 P1 i HN Hi HT Hu. rewrite eval_cython_2D_run by assumption. apply run2_spec.
  - destruct (r2c =? 0)%Z; exact HT.
  - intros k l _ _ H _. apply Hu, H.
Qed.
Print Assumptions C34_eval_2D_partial.
Theorem C34_eval_2D_odd_partial : forall N r2c lens0 lens1 npts u P0 P1 i, (2 <= N)%nat -> Nat.even N = false -> (i < npts)%nat ->
  total (if (r2c =? 0)%Z then lens0 else lens1) = (N / 2 + 1)%nat ->
  eval_cython_2D N r2c lens0 lens1 npts u P0 P1 i = real_series2 N r2c (total lens0) (total lens1) u (P0 i) (P1 i).
Proof.
  intros N r2c lens0 lens1 npts u P0 P1 i HN Ho Hi HT. apply C34_eval_2D_partial; auto. intros k l H. pose proof (half_odd N Ho). lia.
Qed.
Print Assumptions C34_eval_2D_odd_partial.
Theorem C34_eval_3D_partial : forall N r2c lens0 lens1 lens2 npts u P0 P1 P2 i, (2 <= N)%nat -> (i < npts)%nat ->
  total (if (r2c =? 0)%Z then lens0 else if (r2c =? 1)%Z then lens1 else lens2) = (N / 2 + 1)%nat ->
  (forall k l m, (2 * (if (r2c =? 0)%Z then k else if (r2c =? 1)%Z then l else m) = N)%nat -> u k l m = c0) ->
  eval_cython_3D N r2c lens0 lens1 lens2 npts u P0 P1 P2 i
  = real_series3 N r2c (total lens0) (total lens1) (total lens2) u (P0 i) (P1 i) (P2 i).
Proof.
  intros N r2c lens0 lens1 lens2 npts u P0 P1 P2 i HN Hi HT Hu. rewrite eval_cython_3D_run by assumption. apply run3_spec.
  - destruct (r2c =? 0)%Z; [exact HT|destruct (r2c =? 1)%Z; exact HT].
  - intros k l m _ _ _ H _. apply Hu, H.
Qed.
Print Assumptions C34_eval_3D_partial.
(** the mode N/2 is counted twice, for every even N *)
Theorem C34_eval_2D_nyquist_refuted : forall N, (2 <= N)%nat -> Nat.even N = true -> exists u,
  eval_cython_2D N 0 [(N / 2 + 1)%nat] [1%nat] 1 u (fun _ _ => cofR 1) (fun _ _ => cofR 1) 0
  <> real_series2 N 0 (N / 2 + 1) 1 u (fun _ => cofR 1) (fun _ => cofR 1).
Proof.
  intros N HN He. exists (fun k _ => if Nat.eqb k (N / 2) then cofR 1 else c0).
  rewrite eval_cython_2D_run by lia. cbn [total fold_right]. rewrite !Nat.add_0_r. unfold run2, real_series2. change (0 =? 0)%Z with true. cbv iota.
  set (h := (N / 2)%nat). pose proof (half_even N He) as E. fold h in E. replace (h + 1)%nat with (S h) by lia. rewrite !sumR_S.
  rewrite (sumR_zero h) by (intros k Hk; unfold sumR; cbn [gsum]; destruct (Nat.eqb_spec k h); [lia|]; unfold dbl; cbn; ring).
  rewrite (sumR_zero h) by (intros k Hk; unfold sumR; cbn [gsum]; destruct (Nat.eqb_spec k h); [lia|]; rewrite stored_dbl; unfold dbl; cbn; ring).
  unfold sumR. cbn [gsum]. rewrite stored_dbl, Nat.eqb_refl. unfold has_partner. destruct (Nat.ltb_spec 0 h); [|lia]. destruct (Nat.ltb_spec (2 * h) N); [lia|].
  unfold dbl, cmul, cofR. cbn [cre cim andb]. lra.
Qed.
Print Assumptions C34_eval_2D_nyquist_refuted.
Example C34_eval_2D_example : exists u : nat -> nat -> Cx, u 1%nat 0%nat = cofR 3 /\ (forall k l, (2 * k = 4)%nat -> u k l = c0) /\ total [2; 1]%nat = (4 / 2 + 1)%nat.
Proof. exists (fun k l => if Nat.eqb k 1 then cofR 3 else c0). repeat split. intros k l H. assert (k = 2%nat) as -> by lia. reflexivity. Qed.

(** *** the typed variants of the kernels compute the same *)
Theorem C34_eval_3D_variants : forall npts n0 n1 n2 b u M start j,
  (forall P0 P1 P2 r2c, r2c = 1%Z \/ r2c = 2%Z ->
     eval3_rcc1 npts n0 n1 n2 b u P0 P1 P2 r2c M start j = eval3_ccc1 npts n0 n1 n2 b u (fun i k => cofR (P0 i k)) P1 P2 r2c M start j) /\
  (forall P0 P1 P2 r2c, r2c = 0%Z \/ r2c = 2%Z ->
     eval3_crc1 npts n0 n1 n2 b u P0 P1 P2 r2c M start j = eval3_ccc1 npts n0 n1 n2 b u P0 (fun i k => cofR (P1 i k)) P2 r2c M start j) /\
  (forall P0 P1 P2 r2c, r2c = 0%Z \/ r2c = 1%Z ->
     eval3_ccr1 npts n0 n1 n2 b u P0 P1 P2 r2c M start j = eval3_ccc1 npts n0 n1 n2 b u P0 P1 (fun i k => cofR (P2 i k)) r2c M start j) /\
  (forall P0 P1 P2 r2c, eval3_two_real npts n0 n1 n2 b u P0 P1 P2 r2c M start j = eval3_ccc1 npts n0 n1 n2 b u P0 P1 P2 r2c M start j).
Proof.
  intros. split; [|split; [|split]]; intros.
  - apply eval3_rcc1_same; assumption.
  - apply eval3_crc1_same; assumption.
  - apply eval3_ccr1_same; assumption.
  - apply eval3_two_real_same.
Qed.
Print Assumptions C34_eval_3D_variants.

(** *** method 0 (low memory) gives what method 1 gives with the basis matrices
    exp(1j*w_k*x_i) and evaluate_basis(x_i, k), on one rank *)
Theorem C34_lm_2D : forall npts n0 n1 b u x0 x1 r2c M start j,
  (forall w0 w1, lm2_cc1 npts n0 n1 b u x0 x1 w0 w1 r2c M start j
     = eval2_r npts n0 n1 b u (fun i k => cis (w0 k * x0 i)) (fun i l => cis (w1 l * x1 i)) r2c M start j) /\
  (forall phi w1, lm2_rc1 npts n0 n1 b u phi x0 x1 w1 r2c M start j
     = eval2_r npts n0 n1 b u (fun i k => cofR (phi k (x0 i))) (fun i l => cis (w1 l * x1 i)) r2c M start j) /\
  (forall phi w0, lm2_cr1 npts n0 n1 b u phi x0 x1 w0 r2c M start j
     = eval2_r npts n0 n1 b u (fun i k => cis (w0 k * x0 i)) (fun i l => cofR (phi l (x1 i))) r2c M start j).
Proof. intros. split; [|split]; intros; [apply lm2_cc1_same|apply lm2_rc1_same|apply lm2_cr1_same]. Qed.
Print Assumptions C34_lm_2D.
Theorem C34_lm_3D_partial : forall npts n0 n1 n2 b u x0 x1 x2 r2c M start j,
  (forall w0 w1 w2, lm3_ccc1 npts n0 n1 n2 b u x0 x1 x2 w0 w1 w2 r2c M start j
     = eval3_ccc1 npts n0 n1 n2 b u (fun i k => cis (w0 k * x0 i)) (fun i l => cis (w1 l * x1 i)) (fun i m => cis (w2 m * x2 i)) r2c M start j) /\
  (forall phi w1 w2, lm3_rcc1 npts n0 n1 n2 b u phi x0 x1 x2 w1 w2 r2c M start j
     = eval3_rcc1 npts n0 n1 n2 b u (fun i k => phi k (x0 i)) (fun i l => cis (w1 l * x1 i)) (fun i m => cis (w2 m * x2 i)) r2c M start j) /\
  (forall phi w0 w1, lm3_ccr1 npts n0 n1 n2 b u phi x0 x1 x2 w0 w1 r2c M start j
     = eval3_ccr1 npts n0 n1 n2 b u (fun i k => cis (w0 k * x0 i)) (fun i l => cis (w1 l * x1 i)) (fun i m => phi m (x2 i)) r2c M start j) /\
  (* the middle axis not Fourier: only if the wavenumbers of axis 1 and axis 2 agree *)
  (forall phi w0 w1 w2, (forall m, w1 m = w2 m) -> lm3_crc1 npts n0 n1 n2 b u phi x0 x1 x2 w0 w1 w2 r2c M start j
     = eval3_crc1 npts n0 n1 n2 b u (fun i k => cis (w0 k * x0 i)) (fun i l => phi l (x1 i)) (fun i m => cis (w2 m * x2 i)) r2c M start j).
Proof.
  intros. split; [|split; [|split]]; intros; [apply lm3_ccc1_same|apply lm3_rcc1_same|apply lm3_ccr1_same|].
  rewrite lm3_crc1_run. unfold eval3_crc1. apply (f_equal (fun f => f b j)).
  apply (f_equal (fun P2 => fun b => for_up n0 0 (fun k b => for_up n1 0 (fun l b => for_up n2 0 (fun m b => for_up npts 0 (fun i b =>
    let p0 := cmul (cis (w0 k * x0 i)) (P2 i m) in let p := phi l (x1 i) * (cre (u k l m) * cre p0 - cim (u k l m) * cim p0) in
    let ii := if (r2c =? 0)%Z then (Z.of_nat k + start)%Z else (Z.of_nat m + start)%Z in add_twice (conj_test ii M) i p b) b) b) b) b)).
  apply FunctionalExtensionality.functional_extensionality. intros i. apply FunctionalExtensionality.functional_extensionality. intros m. rewrite H. reflexivity.
Qed.
Print Assumptions C34_lm_3D_partial.
(** bases (R2C on 2 points, not Fourier, C2C on 2 points with wavenumbers 0, -1): method 0 uses
    the wavenumbers 0, 1 of the middle axis and returns -1 where the value is 1 *)
Theorem C34_lm_3D_crc_refuted : exists u phi x0 x1 x2 w0,
  let w1 := fun l => INR l in                                (* wavenumbers of an axis that is not Fourier *)
  let w2 := fun m => if Nat.eqb m 1 then -1 else 0 in        (* fftfreq(2)*2 *)
  lm3_crc1 1 2 2 2 (fun _ => 0) u phi x0 x1 x2 w0 w1 w2 0 (last_conj_index 2) 0 0
  <> real_series3 2 0 2 2 2 u (fun k => cis (w0 k * x0 0%nat)) (fun l => cofR (phi l (x1 0%nat))) (fun m => cis (w2 m * x2 0%nat)).
Proof.
  exists (fun k l m => if (Nat.eqb k 0 && Nat.eqb l 0 && Nat.eqb m 1)%bool then mkCx 0 1 else c0), (fun _ _ => 1), (fun _ => 0), (fun _ => 0), (fun _ => PI / 2), (fun k => INR k).
  cbv zeta. rewrite lm3_crc1_run, eval3_crc1_same by auto. rewrite (eval3_ccc1_acc 1 2 2 2 _ _ _ _ _ _ _ (fun _ => 0) 0%nat). cbn [Nat.ltb Nat.leb]. unfold real_series3, sumR. cbn [gsum].
  change (0 =? 0)%Z with true. cbv iota. rewrite !stored_dbl. cbn [Nat.eqb andb]. unfold dbl, cofR, c0, cmul, cis, has_partner. cbn [cre cim Nat.ltb Nat.leb andb INR].
  replace (-1 * (PI / 2)) with (- (PI / 2)) by ring. rewrite Rmult_1_l, !Rmult_0_l, !Rmult_0_r, !cos_neg, !sin_neg, !cos_PI2, !sin_PI2, ?cos_0, ?sin_0.
  match goal with |- context [conj_test (pick3 0 0 0 1 0) ?M] => replace (conj_test (pick3 0 0 0 1 0) M) with false by reflexivity end.
  rewrite ?(Rmult_1_l (PI / 2)), ?cos_PI2, ?sin_PI2.
  repeat match goal with |- context [if ?c then 2 else 1] => generalize (if c then 2 else 1); intros ? end. intros HH. ring_simplify in HH. lra.
Qed.
Print Assumptions C34_lm_3D_crc_refuted.
(** method 0 with the non-periodic axis distributed: the second rank starts again at basis function 0 *)
Theorem C34_lm_ranks_partial : forall N lens0 n1 npts u phi x0 x1 w0 i, (2 <= N)%nat -> (i < npts)%nat -> total lens0 = (N / 2 + 1)%nat ->
  (forall k l, (2 * k = N)%nat -> u k l = c0) ->
  eval_lm_cr_2D N lens0 [n1] npts u phi x0 x1 w0 i
  = real_series2 N 0 (total lens0) n1 u (fun k => cis (w0 k * x0 i)) (fun l => cofR (phi l (x1 i))).
Proof.
  intros N lens0 n1 npts u phi x0 x1 w0 i HN Hi HT Hu.
  replace n1 with (total [n1]) at 2 by (cbn; lia).
  rewrite <- (C34_eval_2D_partial N 0 lens0 [n1] npts u (fun i k => cis (w0 k * x0 i)) (fun i l => cofR (phi l (x1 i))) i HN Hi HT) by exact Hu.
  unfold eval_lm_cr_2D, eval_cython_2D. apply allreduce_ext. intros r0 _. cbn [ranks]. unfold allreduce. cbn [fold_right fst snd]. f_equal.
  change (0 =? 0)%Z with true. cbv iota. rewrite lm2_cr1_same. reflexivity.
Qed.
Print Assumptions C34_lm_ranks_partial.
Theorem C34_lm_ranks_refuted : exists u phi x0 x1 w0,
  eval_lm_cr_2D 3 [2%nat] [1; 1]%nat 1 u phi x0 x1 w0 0 <> eval_lm_cr_2D 3 [2%nat] [2%nat] 1 u phi x0 x1 w0 0.
Proof.
  exists (fun k l => if (Nat.eqb k 0 && Nat.eqb l 1)%bool then cofR 1 else c0), (fun l _ => INR l), (fun _ => 0), (fun _ => 0), (fun k => INR k).
  unfold eval_lm_cr_2D, allreduce. cbn [ranks fold_right fst snd]. unfold lm2_cr1, add_twice, upd, loc. cbn [for_up Nat.eqb Nat.add andb].
  change (conj_test (if (0 =? 0)%Z then (Z.of_nat 0 + Z.of_nat 0)%Z else (Z.of_nat 0 + Z.of_nat 0)%Z) (last_conj_index 3)) with false.
  change (conj_test (if (0 =? 0)%Z then (Z.of_nat 1 + Z.of_nat 0)%Z else (Z.of_nat 0 + Z.of_nat 0)%Z) (last_conj_index 3)) with true.
  change (conj_test (if (0 =? 0)%Z then (Z.of_nat 0 + Z.of_nat 0)%Z else (Z.of_nat 1 + Z.of_nat 0)%Z) (last_conj_index 3)) with false.
  change (conj_test (if (0 =? 0)%Z then (Z.of_nat 1 + Z.of_nat 0)%Z else (Z.of_nat 1 + Z.of_nat 0)%Z) (last_conj_index 3)) with true.
  cbv iota. cbn [Nat.eqb]. unfold cofR, c0. cbn [cre cim INR]. rewrite !Rmult_0_r, !cos_0, !sin_0. lra.
Qed.
Print Assumptions C34_lm_ranks_refuted.

(** *** method 2 (Python): right for every N and every decomposition *)
Theorem C34_eval_python_2D : forall N lens0 lens1 npts u P0 P1 i, total lens1 = (N / 2 + 1)%nat ->
  eval_python_2D N lens0 lens1 npts u P0 P1 i = real_series2 N 1 (total lens0) (total lens1) u (P0 i) (P1 i).
Proof. intros. apply eval_python_2D_run. assumption. Qed.
Print Assumptions C34_eval_python_2D.
Theorem C34_eval_python_3D : forall N lens0 lens1 lens2 npts u P0 P1 P2 i, total lens2 = (N / 2 + 1)%nat ->
  eval_python_3D N lens0 lens1 lens2 npts u P0 P1 P2 i = real_series3 N 2 (total lens0) (total lens1) (total lens2) u (P0 i) (P1 i) (P2 i).
Proof. intros. apply eval_python_3D_run. assumption. Qed.
Print Assumptions C34_eval_python_3D.
(** R2C axis first, the other axis real (one rank) *)
Theorem C34_eval_python_2D_first : forall N npts n1 u P0 P1 i,
  eval_python_2D_first_rank N npts (N / 2 + 1) n1 0 u P0 P1 i = real_series2 N 0 (N / 2 + 1) n1 u (P0 i) (fun l => cofR (P1 i l)).
Proof. intros. apply eval_python_2D_first_run. reflexivity. Qed.
Print Assumptions C34_eval_python_2D_first.
(** a one-dimensional real Fourier space *)
Theorem C34_eval_1D_r2c : forall N u P i, (1 <= N)%nat -> eval_r2c_1D N u P i = real_series1 N u (P i).
Proof. intros. apply eval_r2c_1D_run. assumption. Qed.
Print Assumptions C34_eval_1D_r2c.
(** 8 points, two ranks holding 3 and 2 of the 5 modes; the modes 1, 2, 3 have a partner *)
Example C34_python_example : total [3; 2]%nat = (8 / 2 + 1)%nat /\ map (has_partner 8) (seq 0 5) = [false; true; true; true; false].
Proof. split; reflexivity. Qed.

(** *** spaces without a real-to-complex axis *)
Theorem C34_eval_complex : forall npts n0 n1 n2 j, (j < npts)%nat ->
  (forall b u P0 P1, eval2_c npts n0 n1 b u P0 P1 j = cadd (b j) (series2 n0 n1 u (P0 j) (P1 j))) /\
  (forall b u P0 P1 P2, eval3_c npts n0 n1 n2 b u P0 P1 P2 j = cadd (b j) (series3 n0 n1 n2 u (P0 j) (P1 j) (P2 j))) /\
  (forall b u P0 P1 P2, eval3_staged npts n0 n1 n2 b u P0 P1 P2 j = cadd (b j) (series3 n0 n1 n2 u (P0 j) (P1 j) (P2 j))) /\
  (forall b u P0 P1, eval2_rr npts n0 n1 b u P0 P1 j = b j + sumR n0 (fun k => sumR n1 (fun l => u k l * P0 j k * P1 j l))) /\
  (forall b u P0 P1 P2, eval3_rrr npts n0 n1 n2 b u P0 P1 P2 j = b j + sumR n0 (fun k => sumR n1 (fun l => sumR n2 (fun m => u k l m * P0 j k * P1 j l * P2 j m)))).
Proof.
  intros npts n0 n1 n2 j Hj. pose proof (proj2 (Nat.ltb_lt j npts) Hj) as E. split; [|split; [|split; [|split]]]; intros.
  - rewrite (eval2_c_acc npts n0 n1 u P0 P1 b j), E. reflexivity.
  - rewrite (eval3_c_acc npts n0 n1 n2 u P0 P1 P2 b j), E. reflexivity.
  - apply eval3_staged_run. exact Hj.
  - apply eval2_rr_run. exact Hj.
  - apply eval3_rrr_run. exact Hj.
Qed.
Print Assumptions C34_eval_complex.
Theorem C34_lm_complex : forall npts n0 n1 n2 j x0 x1 x2 phi w0 w1 w2, (j < npts)%nat ->
  let e0 := fun k => cis (w0 k * x0 j) in let e1 := fun k => cis (w1 k * x1 j) in let e2 := fun k => cis (w2 k * x2 j) in
  (forall b u, lm2_cc0 npts n0 n1 b u x0 x1 w0 w1 j = cadd (b j) (series2 n0 n1 u e0 e1)) /\
  (forall b u, lm2_rc0 npts n0 n1 b u phi x0 x1 w1 j = cadd (b j) (series2 n0 n1 u (fun k => cofR (phi k (x0 j))) e1)) /\
  (forall b u, lm2_cr0 npts n0 n1 b u phi x0 x1 w0 j = cadd (b j) (series2 n0 n1 u e0 (fun l => cofR (phi l (x1 j))))) /\
  (forall b u, lm3_ccc0 npts n0 n1 n2 b u x0 x1 x2 w0 w1 w2 j = series3 n0 n1 n2 u e0 e1 e2) /\
  (forall b u, lm3_rcc0 npts n0 n1 n2 b u phi x0 x1 x2 w1 w2 j = cadd (b j) (series3 n0 n1 n2 u (fun k => cofR (phi k (x0 j))) e1 e2)) /\
  (forall b u, lm3_crc0 npts n0 n1 n2 b u phi x0 x1 x2 w0 w2 j = cadd (b j) (series3 n0 n1 n2 u e0 (fun l => cofR (phi l (x1 j))) e2)) /\
  (forall b u, lm3_ccr0 npts n0 n1 n2 b u phi x0 x1 x2 w0 w1 j = cadd (b j) (series3 n0 n1 n2 u e0 e1 (fun m => cofR (phi m (x2 j))))).
Proof.
  intros npts n0 n1 n2 j x0 x1 x2 phi w0 w1 w2 Hj e0 e1 e2. pose proof (proj2 (Nat.ltb_lt j npts) Hj) as E. repeat split; intros b u.
  - rewrite (lm2_cc0_acc npts n0 n1 u x0 x1 w0 w1 b j), E. reflexivity.
  - rewrite (lm2_rc0_acc npts n0 n1 u phi x0 x1 w1 b j), E. reflexivity.
  - rewrite (lm2_cr0_acc npts n0 n1 u phi x0 x1 w0 b j), E. reflexivity.
  - apply lm3_ccc0_run. exact Hj.
  - rewrite (lm3_rcc0_acc npts n0 n1 n2 u phi x0 x1 x2 w1 w2 b j), E. reflexivity.
  - rewrite (lm3_crc0_acc npts n0 n1 n2 u phi x0 x1 x2 w0 w2 b j), E. reflexivity.
  - rewrite (lm3_ccr0_acc npts n0 n1 n2 u phi x0 x1 x2 w0 w1 b j), E. reflexivity.
Qed.
Print Assumptions C34_lm_complex.

(** *** Expr.eval: with two ranks each returns its own part of the sum *)
Theorem C34_expr_eval_serial_partial : forall N n0 npts u P0 P1 sc i, (2 <= N)%nat -> (i < npts)%nat -> (forall k l, (2 * l = N)%nat -> u k l = c0) ->
  expr_eval_2D_rank N (0%nat, n0) (0%nat, (N / 2 + 1)%nat) npts u P0 P1 sc i = sc * real_series2 N 1 n0 (N / 2 + 1) u (P0 i) (P1 i).
Proof.
  intros N n0 npts u P0 P1 sc i HN Hi Hu. unfold expr_eval_2D_rank. rewrite Rplus_0_l. f_equal.
  pose proof (C34_eval_2D_partial N 1 [n0] [(N / 2 + 1)%nat] npts u P0 P1 i HN Hi) as H. cbn [total fold_right] in H. rewrite !Nat.add_0_r in H.
  rewrite <- H; [|change (1 =? 0)%Z with false; cbn; lia|exact Hu]. unfold eval_cython_2D, allreduce. cbn [ranks fold_right]. rewrite !Rplus_0_r. reflexivity.
Qed.
Print Assumptions C34_expr_eval_serial_partial.
Theorem C34_expr_eval_ranks_refuted : exists u P0 P1, forall r1, In r1 (ranks 0 [1; 1]%nat) ->
  expr_eval_2D_rank 3 (0%nat, 1%nat) r1 1 u P0 P1 1 0 <> real_series2 3 1 1 2 u (P0 0%nat) (P1 0%nat).
Proof.
  exists (fun _ _ => cofR 1), (fun _ _ => cofR 1), (fun _ _ => cofR 1). cbn [ranks In]. intros r1 [<-|[<-|[]]]; unfold expr_eval_2D_rank; cbn [fst snd].
  - rewrite (eval2_r_acc 1 1 1 _ _ _ 1 _ _ (fun _ => 0) 0%nat). cbn [Nat.ltb Nat.leb]. unfold real_series2, sumR. cbn [gsum]. rewrite !stored_dbl.
    change (1 =? 0)%Z with false. cbv iota. match goal with |- context [conj_test ?a ?b] => change (conj_test a b) with false end. unfold dbl, loc. cbn. lra.
  - rewrite (eval2_r_acc 1 1 1 _ _ _ 1 _ _ (fun _ => 0) 0%nat). cbn [Nat.ltb Nat.leb]. unfold real_series2, sumR. cbn [gsum]. rewrite !stored_dbl.
    change (1 =? 0)%Z with false. cbv iota. match goal with |- context [conj_test ?a ?b] => change (conj_test a b) with true end. unfold dbl, loc. cbn. lra.
Qed.
Print Assumptions C34_expr_eval_ranks_refuted.
