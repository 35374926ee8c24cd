(** Leg2ChebProofs4.v -- the entries of BTLmat. *)
From Coq Require Import Reals ZArith List Arith Bool Lia Lra.
From Verif Require Import Base Fld SparseModel SparseSpec RPoly StencilModel StencilProofs8 MatrixSpec MatrixProofs LegMatrixModel LegMatrixSpec LegMatrixProofs5 LegMatrixProofs6
  ChebMatrixModel ChebMatrixSpec ChebMatrixProofs ChebMatrixProperties ChebQuadModel ChebQuadProofs HelmholtzProofs Leg2ChebModel Leg2ChebProofs Leg2ChebProofs2 Leg2ChebProofs3.
Import ListNotations.
Local Open Scope R_scope.

Definition last2 (q : quad) (N h i : nat) : R := if (match q with GL => true | LG => false end && Nat.eqb h 0 && Nat.eqb i (N - 1))%bool then 2 else 1.
Lemma BTL_items q N : sm_items RFld (c_BTL q N) = map (fun h => (Z.of_nat (2 * h), Arr RFld (N - 2 * h) (fun i => Lam h * Lam (i + h) * last2 q N h i))) (seq 0 (evens N)).
Proof. reflexivity. Qed.
Lemma BTL_entry_in q N k h : (k + 2 * h < N)%nat -> mat_entry RFld (c_BTL q N) k (k + 2 * h) = Lam h * Lam (k + h) * last2 q N h k.
Proof.
  intros Hk. unfold mat_entry. rewrite BTL_items. change (sm_scale RFld (c_BTL q N)) with 1.
  replace (Z.of_nat (k + 2 * h) - Z.of_nat k)%Z with (Z.of_nat (2 * h)) by lia.
  rewrite (lookup_map_in (fun h => Z.of_nat (2 * h)) (fun h => Arr RFld (N - 2 * h) (fun i => Lam h * Lam (i + h) * last2 q N h i)) (seq 0 (evens N)) h).
  - cbn [dget]. replace (Nat.min k (k + 2 * h)) with k by lia. rn. ring.
  - intros x y E. lia.
  - apply in_seq. pose proof (evens_pos N). lia.
Qed.
Lemma BTL_entry_out q N k j : (forall h, j <> (k + 2 * h)%nat) -> mat_entry RFld (c_BTL q N) k j = 0.
Proof.
  intros Hj. unfold mat_entry. rewrite BTL_items.
  rewrite (lookup_map_out (fun h => Z.of_nat (2 * h)) (fun h => Arr RFld (N - 2 * h) (fun i => Lam h * Lam (i + h) * last2 q N h i))); [reflexivity|].
  intros h Hh E. apply (Hj h). lia.
Qed.
Lemma even_dec k j : (exists h, j = (k + 2 * h)%nat) \/ (forall h, j <> (k + 2 * h)%nat).
Proof.
  destruct (le_dec k j).
  - destruct (Nat.even (j - k)) eqn:E.
    + apply Nat.even_spec in E. destruct E as [h E]. left. exists h. lia.
    + right. intros h Hh. assert (F : Nat.even (j - k) = true) by (apply Nat.even_spec; exists h; lia). congruence.
  - right. intros h. lia.
Qed.
(** a bilinear form with (T_k, T_n) = 0 for k <> n *)
Lemma btl_value (B : nat -> nat -> R) (hk : nat -> R) q N k j (X : R) : (k < N)%nat -> (j < N)%nat ->
  (forall n, (n < N)%nat -> B k n = if Nat.eqb k n then hk k else 0) ->
  PI * X = rsum (evens N) (fun h => guard (Nat.leb (2 * h) j) (wt (j - 2 * h) * (Lam h * Lam (j - h)) * B k (j - 2 * h)%nat)) ->
  (forall h, j = (k + 2 * h)%nat -> wt k * hk k = PI * last2 q N h k) ->
  mat_entry RFld (c_BTL q N) k j = X.
Proof.
  intros Hk Hj HB E HH. pose proof PI_RGT_0 as HP. apply (Rmult_eq_reg_l PI); [|lra]. rewrite E.
  destruct (even_dec k j) as [[h0 ->]|Hn].
  - rewrite BTL_entry_in by lia. pose proof (evens_pos N). rewrite (rsum_at (evens N) h0).
    + unfold guard. destruct (Nat.leb_spec (2 * h0) (k + 2 * h0)); [|lia]. replace (k + 2 * h0 - 2 * h0)%nat with k by lia. rewrite HB by lia. rewrite Nat.eqb_refl.
      replace (k + 2 * h0 - h0)%nat with (k + h0)%nat by lia. transitivity (Lam h0 * Lam (k + h0) * (PI * last2 q N h0 k)); [ring|]. rewrite <- (HH h0 eq_refl). ring.
    + lia.
    + intros h Hh Hne. unfold guard. destruct (Nat.leb_spec (2 * h) (k + 2 * h0)); [|reflexivity]. rewrite HB by lia.
      destruct (Nat.eqb_spec k (k + 2 * h0 - 2 * h)); [lia|ring].
  - rewrite BTL_entry_out by exact Hn. rewrite Rmult_0_r. symmetry. apply rsum_zero. intros h Hh. unfold guard. destruct (Nat.leb_spec (2 * h) j); [|reflexivity].
    rewrite HB by lia. destruct (Nat.eqb_spec k (j - 2 * h)); [|ring]. exfalso. apply (Hn h). lia.
Qed.
Lemma BTL_exact N k j : (k < N)%nat -> (j < N)%nat -> mat_entry RFld (c_BTL LG N) k j = cip (chebT k) (legL j).
Proof.
  intros Hk Hj. apply (btl_value (fun k n => cip (chebT k) (chebT n)) (fun k => c00 k k) LG N k j); try assumption.
  - intros n Hn. rewrite cc00. unfold c00. rewrite Nat.eqb_refl. destruct (Nat.eqb k n); reflexivity.
  - pose proof (evens_pos N). rewrite <- cip_pscale_r.
    rewrite (cip_ext (chebT k) (chebT k) _ (pcomb (evens N) (fun h => guard (Nat.leb (2 * h) j) (wt (j - 2 * h) * (Lam h * Lam (j - h)))) (fun h => chebT (j - 2 * h)))).
    + rewrite cip_pcomb. apply rsum_ext. intros h Hh. unfold guard. destruct (Nat.leb (2 * h) j); ring.
    + reflexivity.
    + intros t. rewrite peval_pscale, peval_pcomb, (leg_cheb j (evens N)) by lia. apply rsum_ext. intros h Hh. unfold guard. destruct (Nat.leb (2 * h) j); ring.
  - intros h ->. unfold c00, wt, last2. rewrite Nat.eqb_refl. cbn [andb]. destruct (Nat.eqb k 0); field.
Qed.
Lemma quad_sum_rsum rule n (f : nat -> R -> R) : quad_sum rule (fun x => rsum n (fun i => f i x)) = rsum n (fun i => quad_sum rule (f i)).
Proof.
  induction n as [|n IH]; cbn [gsum].
  - unfold quad_sum. induction rule as [|a rule IH]; cbn [fold_right]; [reflexivity|]. rewrite IH. ring.
  - rewrite <- IH. unfold quad_sum. clear. induction rule as [|a rule IH]; cbn [fold_right]; [ring|]. rewrite IH. ring.
Qed.
Lemma quad_sum_scal rule c f : quad_sum rule (fun x => c * f x) = c * quad_sum rule f.
Proof. unfold quad_sum. induction rule as [|a rule IH]; cbn [fold_right]; [ring|]. rewrite IH. ring. Qed.
Lemma BTL_quad q N k j : (2 <= N)%nat -> (k < N)%nat -> (j < N)%nat ->
  mat_entry RFld (c_BTL q N) k j = quad_sum (cheb_rule q N) (fun x => peval (chebT k) x * peval (legL j) x).
Proof.
  intros HN Hk Hj.
  assert (RO : crule_orthogonal (cheb_rule q N) (cheb_norm_sq true q N) N) by (destruct q; [apply GC_orthogonal|apply GL_orthogonal; exact HN]).
  apply (btl_value (fun k n => quad_sum (cheb_rule q N) (fun x => peval (chebT k) x * peval (chebT n) x)) (cheb_norm_sq true q N) q N k j); try assumption.
  - intros n Hn. apply RO; assumption.
  - pose proof (evens_pos N). rewrite <- quad_sum_scal.
    rewrite (quad_ext _ _ (fun x => rsum (evens N) (fun h => guard (Nat.leb (2 * h) j) (wt (j - 2 * h) * (Lam h * Lam (j - h))) * (peval (chebT k) x * peval (chebT (j - 2 * h)) x)))).
    + rewrite quad_sum_rsum. apply rsum_ext. intros h Hh. rewrite quad_sum_scal. unfold guard. destruct (Nat.leb (2 * h) j); ring.
    + intros x. transitivity (peval (chebT k) x * (PI * peval (legL j) x)); [ring|]. rewrite (leg_cheb j (evens N)) by lia. rewrite <- rsum_scal.
      apply rsum_ext. intros h Hh. unfold guard. destruct (Nat.leb (2 * h) j); ring.
  - intros h ->. unfold cheb_norm_sq, cheb_l2_norm_sq, wt, last2. destruct q; cbn [andb].
    + unfold cheb_L2_norm_sq. destruct (Nat.eqb k 0); field.
    + destruct (Nat.eqb_spec k (N - 1)) as [->|Hne].
      * assert (h = 0%nat) by lia. subst h. cbn [Nat.eqb andb]. destruct (Nat.eqb_spec (N - 1) 0); [lia|]. field.
      * rewrite andb_false_r. unfold cheb_L2_norm_sq. destruct (Nat.eqb k 0); field.
Qed.
(** the matvec method *)
Lemma BTL_matvec_val N v i : (i < N)%nat -> BTL_matvec N v i = rsum (evens N) (fun h => guard (Nat.ltb (i + 2 * h) N) (Lam h * Lam (h + i) * v (2 * h + i)%nat)).
Proof.
  intros Hi. unfold BTL_matvec. rewrite (acc_slices (evens N) 0 (fun h i => Nat.ltb i (N - 2 * h)) (fun h i => Lam h * Lam (h + i) * v (2 * h + i)%nat)).
  unfold zero_array. rewrite Rplus_0_l. cbn [Nat.add]. apply rsum_ext. intros h Hh. unfold guard.
  destruct (Nat.ltb_spec i (N - 2 * h)); destruct (Nat.ltb_spec (i + 2 * h) N); try lia; reflexivity.
Qed.
Lemma BTL_matvec_entries N v i : (i < N)%nat -> BTL_matvec N v i = rsum N (fun j => mat_entry RFld (c_BTL LG N) i j * v j).
Proof.
  intros Hi. rewrite BTL_matvec_val by exact Hi. pose proof (evens_pos N) as HE.
  (* sum over j by j = i + 2 h *)
  transitivity (rsum N (fun j => rsum (evens N) (fun h => if Nat.eqb j (i + 2 * h) then Lam h * Lam (h + i) * v j else 0))).
  - rewrite gsum_swap. apply rsum_ext. intros h Hh. rewrite (rsum_one N (i + 2 * h) (fun j => Lam h * Lam (h + i) * v j)). unfold guard.
    replace (2 * h + i)%nat with (i + 2 * h)%nat by lia. reflexivity.
  - apply rsum_ext. intros j Hj. destruct (even_dec i j) as [[h0 ->]|Hn].
    + rewrite (rsum_at (evens N) h0).
      * rewrite Nat.eqb_refl, BTL_entry_in by lia. unfold last2. cbn [andb]. rewrite (Nat.add_comm h0 i). ring.
      * lia.
      * intros h Hh Hne. destruct (Nat.eqb_spec (i + 2 * h0) (i + 2 * h)); [lia|reflexivity].
    + rewrite BTL_entry_out by exact Hn. rewrite Rmult_0_l. apply rsum_zero. intros h Hh. destruct (Nat.eqb_spec j (i + 2 * h)); [exfalso; apply (Hn h); assumption|reflexivity].
Qed.
