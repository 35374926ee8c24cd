(** GenProofs2.v -- boundary functions, and the test functions Phi_k. *)
From Coq Require Import Reals ZArith List Bool Arith Lia Lra.
From Verif Require Import Base Fld SparseModel SparseSpec RPoly StencilProofs StencilProofs8 JacobiModel JacobiProofs2 JacobiProofs3 JacobiProofs4 GenModel GenSpec GenProofs.
Import ListNotations.
Local Open Scope R_scope.
Notation rsum := (gsum 0 Rplus).

(** a sum with one non-zero term *)
Lemma sum_one n k (f : nat -> R) : (k < n)%nat -> (forall i, (i < n)%nat -> i <> k -> f i = 0) -> rsum n f = f k.
Proof.
  intros Hk H. rewrite (sum_ext n f (fun i => if Nat.eqb i k then f k else 0)).
  - apply gsum_one, Hk.
  - intros i Hi. destruct (Nat.eqb_spec i k) as [->|E]; [reflexivity|apply H; auto].
Qed.
Lemma sum_shift k n (f : nat -> R) : (forall i, (i < k)%nat -> f i = 0) -> rsum (k + n) f = rsum n (fun i => f (k + i)%nat).
Proof.
  intros H. induction n as [|n IH]; [rewrite Nat.add_0_r; apply sum_0; auto|]. rewrite Nat.add_succ_r. cbn [gsum]. rewrite IH. reflexivity.
Qed.

Section Phi.
Variables (f : poly -> poly -> R) (P phi : nat -> poly) (k dim : nat) (am bm : nat -> mat).
Hypothesis F : is_form f.
Hypothesis HA : dpowers P k am.
Hypothesis HB : integrates P bm.
Hypothesis HD : dual f P phi k dim.

Lemma xdn q s j x : peval (xpow q (dn s (P j))) x = x ^ q * deriv_at s (P j) x.
Proof. rewrite peval_xpow. reflexivity. Qed.
Lemma G_low q j m : (j < k)%nat -> f (xpow q (dn k (P j))) (phi m) = 0.
Proof.
  intros Hj. rewrite (f_val_l f F _ 0 (fun _ => 0) P); [reflexivity|]. intros x. rewrite xdn. destruct HA as (Z & _). rewrite (Z j x Hj). cbn [gsum]. ring.
Qed.
Lemma G_high q j m : (k <= j)%nat -> (m < dim)%nat -> f (xpow q (dn k (P j))) (phi m) = am q (m + k)%nat j.
Proof.
  intros Hj Hm. destruct HA as (_ & X & Bd). rewrite (f_val_l f F _ (j - k + q + 1) (fun i => am q (k + i)%nat j) (fun i => dn k (P (k + i)%nat))).
  - destruct (Nat.lt_ge_cases m (j - k + q + 1)) as [H|H].
    + rewrite (sum_one _ m); [|exact H|].
      * rewrite HD by auto. rewrite (Nat.add_comm k m), Nat.eqb_refl. ring.
      * intros i Hi Hn. rewrite HD by auto. destruct (Nat.eqb_spec (k + i) (m + k)); [lia|ring].
    + rewrite sum_0.
      * symmetry. apply Bd; lia.
      * intros i Hi. rewrite HD by auto. destruct (Nat.eqb_spec (k + i) (m + k)); [lia|ring].
  - intros x. rewrite xdn. apply X, Hj.
Qed.
(** (x^q Q_j^(s), phi_m) in terms of (x^q Q_i^(k), phi_m) *)
Lemma G_int q s j m : (s <= k)%nat -> f (xpow q (dn s (P j))) (phi m) =
  rsum (j + (k - s) + 1) (fun i => bm (k - s)%nat i j * f (xpow q (dn k (P i))) (phi m)).
Proof.
  intros Hs. destruct HB as [X _].
  rewrite (f_val_l f F (xpow q (dn s (P j))) (j + (k - s) + 1) (fun i => bm (k - s)%nat i j) (fun i => xpow q (dn k (P i)))); [reflexivity|].
  intros x. rewrite xdn. rewrite (sum_ext _ _ (fun i => x ^ q * (bm (k - s)%nat i j * deriv_at k (P i) x))).
  - rewrite sum_scal. f_equal.
    assert (forall y, peval (P j) y = peval (pcomb (j + (k - s) + 1) (fun i => bm (k - s)%nat i j) (fun i => dn (k - s) (P i))) y) as E.
    { intros y. rewrite peval_comb. apply (X (k - s)%nat j y). }
    rewrite (peq_dn s _ _ E x : deriv_at s (P j) x = deriv_at s _ x), deriv_at_pcomb. apply sum_ext. intros i _. f_equal. unfold deriv_at. rewrite <- dn_add. f_equal. f_equal. lia.
  - intros i _. rewrite xdn. ring.
Qed.
Theorem Lmat_ok q s M N m j : (s <= k)%nat -> (m < dim)%nat -> (j < N)%nat ->
  Lmat k q (k - s) M N am bm m j = f (xpow q (dn s (P j))) (phi m).
Proof.
  intros Hs Hm Hj. unfold Lmat. destruct (Nat.eqb_spec (k - s) 0) as [E0|E0]; cbn [andb].
  - assert (s = k) as -> by lia. destruct (Nat.eqb_spec q 0) as [->|Eq].
    + cbn [xpow]. rewrite HD by exact Hm. reflexivity.
    + unfold mmul. destruct (Nat.lt_ge_cases j k) as [H|H].
      * rewrite G_low by exact H. apply sum_0. intros i _. destruct (Nat.eqb_spec j (i + k)); [lia|ring].
      * rewrite G_high by auto. rewrite (sum_one _ (j - k)%nat).
        -- replace (j - k + k)%nat with j by lia. rewrite Nat.eqb_refl. ring.
        -- lia.
        -- intros i _ Hi. destruct (Nat.eqb_spec j (i + k)); [lia|ring].
  - rewrite G_int by exact Hs. destruct HB as [_ Bd]. destruct (Nat.eqb_spec q 0) as [->|Eq].
    + cbn [xpow]. destruct (Nat.lt_ge_cases (m + k) (j + (k - s) + 1)) as [H|H].
      * rewrite (sum_one _ (m + k)%nat); [|exact H|]; [rewrite HD, Nat.eqb_refl by exact Hm; ring|].
        intros i _ Hi. rewrite HD by exact Hm. destruct (Nat.eqb_spec i (m + k)); [lia|ring].
      * rewrite Bd by lia. symmetry. apply sum_0. intros i Hi. rewrite HD by exact Hm. destruct (Nat.eqb_spec i (m + k)); [lia|ring].
    + unfold mmul. rewrite (sum_range (j + (k - s) + 1) (k + N)).
      * rewrite sum_shift by (intros i Hi; rewrite G_low by exact Hi; ring).
        apply sum_ext. intros i Hi. rewrite G_high by (auto; lia). rewrite (Nat.add_comm k i). ring.
      * intros i H1 H2. destruct (Nat.lt_ge_cases i k); [rewrite G_low by auto; ring|]. rewrite Bd by lia. ring.
Qed.
(** the band of Lmat *)
Lemma Lmat_band q l M N m j : (l <= k)%nat -> Lmat k q l M N am bm m j <> 0 -> (m + k <= j + q + l /\ j <= m + k + q + l)%nat.
Proof.
  intros Hl. destruct HA as (_ & _ & Ba). destruct HB as [_ Bb]. unfold Lmat.
  destruct (Nat.eqb_spec l 0) as [E0|E0]; cbn [andb].
  - destruct (Nat.eqb_spec q 0) as [Eq|Eq].
    + destruct (Nat.eqb_spec j (m + k)); [lia|intros H; contradiction H; reflexivity].
    + unfold mmul. intros H. apply nonzero_sum in H as (i & Hi & H). destruct (Nat.eqb_spec j (i + k)) as [->|]; [|exfalso; apply H; ring].
      rewrite Rmult_1_r in H.
      destruct (Nat.le_gt_cases (m + k) (i + k + q)); [|exfalso; apply H, Ba; lia]. destruct (Nat.le_gt_cases (i + k) (m + k + q)); [|exfalso; apply H, Ba; lia]. lia.
  - destruct (Nat.eqb_spec q 0) as [Eq|Eq].
    + intros H. destruct (Nat.le_gt_cases (m + k) (j + l)); [|exfalso; apply H, Bb; lia]. destruct (Nat.le_gt_cases j (m + k + l)); [|exfalso; apply H, Bb; lia]. lia.
    + unfold mmul. intros H. apply nonzero_sum in H as (i & Hi & H).
      assert (am q (m + k)%nat (i + k)%nat <> 0) as H1 by (intros E; rewrite E in H; apply H; ring).
      assert (bm l (i + k)%nat j <> 0) as H2 by (intros E; rewrite E in H; apply H; ring).
      destruct (Nat.le_gt_cases (m + k) (i + k + q)); [|exfalso; apply H1, Ba; lia]. destruct (Nat.le_gt_cases (i + k) (m + k + q)); [|exfalso; apply H1, Ba; lia].
      destruct (Nat.le_gt_cases (i + k) (j + l)); [|exfalso; apply H2, Bb; lia]. destruct (Nat.le_gt_cases j (i + k + l)); [|exfalso; apply H2, Bb; lia]. lia.
Qed.
Lemma fold_band (g : nat -> R) (B : nat -> Prop) (ms : measure) : (forall tm, In tm ms -> g (snd tm) <> 0 -> B (degree ms)) ->
  fold_right (fun t s => fst t * g (snd t) + s) 0 ms <> 0 -> B (degree ms).
Proof.
  intros H. assert (forall l, (forall tm, In tm l -> In tm ms) -> fold_right (fun t s => fst t * g (snd t) + s) 0 l <> 0 -> B (degree ms)) as G.
  { induction l as [|tm l IH]; cbn [fold_right]; intros Hi Hn; [lra|]. destruct (Req_EM_T (g (snd tm)) 0) as [E|E].
    - apply IH; [intros; apply Hi; right; auto|]. rewrite E in Hn. intros E'. apply Hn. rewrite E'. ring.
    - apply (H tm); [apply Hi; left; reflexivity|exact E]. }
  apply G. auto.
Qed.
Lemma Lsum_band l M N ms m j : (l <= k)%nat -> Lsum k l M N am bm ms m j <> 0 -> (m + k <= j + degree ms + l /\ j <= m + k + degree ms + l)%nat.
Proof.
  intros Hl. unfold Lsum. apply (fold_band (fun q => Lmat k q l M N am bm m j) (fun d => (m + k <= j + d + l /\ j <= m + k + d + l)%nat)).
  intros tm Hi Hn. apply Lmat_band in Hn; [|exact Hl]. apply deg_max in Hi. lia.
Qed.
Lemma Lsum_ok s M N ms m j : (s <= k)%nat -> (m < dim)%nat -> (j < N)%nat ->
  Lsum k (k - s) M N am bm ms m j = f (times (Some ms) (dn s (P j))) (phi m).
Proof.
  intros Hs Hm Hj. unfold Lsum, times. induction ms as [|tm ms IH]; cbn [fold_right]; [symmetry; apply (f_nil_l f F)|].
  rewrite (f_padd_l f F), (f_pscale_l f F), IH. rewrite (Lmat_ok (snd tm) s) by auto. reflexivity.
Qed.
(** linear in the trial function *)
Lemma times_sum ms s n c x : peval (times (Some ms) (dn s (pcomb n c P))) x = rsum n (fun i => c i * peval (times (Some ms) (dn s (P i))) x).
Proof.
  rewrite <- (times_comb (fun i => dn s (P i)) (Some ms) n c x).
  assert (forall p p', (forall y, peval p y = peval p' y) -> peval (times (Some ms) p) x = peval (times (Some ms) p') x) as E.
  { intros p p' H. unfold times. induction ms as [|tm ms IH]; cbn [fold_right]; [reflexivity|]. rewrite !peval_padd, !peval_pscale, !peval_xpow, IH, H. reflexivity. }
  apply E. intros y. rewrite peval_comb. exact (deriv_at_pcomb s n c P y).
Qed.
Lemma Lsum_comb s M N ms m c : (s <= k)%nat -> (m < dim)%nat ->
  rsum N (fun n => Lsum k (k - s) M N am bm ms m n * c n) = f (times (Some ms) (dn s (pcomb N c P))) (phi m).
Proof.
  intros Hs Hm. rewrite (f_val_l f F _ N c (fun i => times (Some ms) (dn s (P i)))) by (intros x; apply times_sum).
  apply sum_ext. intros n Hn. rewrite Lsum_ok by auto. ring.
Qed.
End Phi.

(** ** Jacobi polynomials *)
Definition jac_Ax (g : nat -> R) (a b : R) (q : nat) : mat := scaled g (matpow (coef_a_s a b) q).
Definition jac_am (g : nat -> R) (a b : R) (k q : nat) : mat := fun i j => g j / g i * coef_a_ k q a b i j.
Definition jac_bm (g : nat -> R) (a b : R) (l : nat) : mat := fun i j => g j / g i * pmat_b a b l i j.
Section Jac.
Variables (g : nat -> R) (a b : R).
Hypotheses (Ha : -1 < a) (Hb : -1 < b) (Hg : forall n, g n <> 0).
Lemma deriv_jacQ s n x : deriv_at s (jacQ g a b n) x = g n * deriv_at s (jacP a b n) x.
Proof. unfold jacQ. apply deriv_at_pscale. Qed.
Lemma jac_powers : powers (jacQ g a b) (jac_Ax g a b).
Proof.
  split.
  - intros q j x. change (peval (jacQ g a b j) x) with (deriv_at 0 (jacQ g a b j) x). rewrite deriv_jacQ. unfold deriv_at, dn.
    replace (x ^ q * (g j * peval (jacP a b j) x)) with (g j * (x ^ q * peval (jacP a b j) x)) by ring.
    rewrite (pow_rec (coef_a_s a b) (coef_a_s_band a b) (coef_a_s_m1 a b) x (fun i => peval (jacP a b i) x)) by (intros l; apply xP_sum_s; auto).
    rewrite <- sum_scal. apply sum_ext. intros i _. unfold jac_Ax, scaled, jacQ. rewrite peval_pscale. field. apply Hg.
  - intros q i j H. unfold jac_Ax, scaled. rewrite (matpow_band (coef_a_s a b) (coef_a_s_band a b)) by lia. ring.
Qed.
Lemma jac_dpowers k : (k = O -> a + b <> 0 /\ a + b + 1 <> 0) -> dpowers (jacQ g a b) k (jac_am g a b k).
Proof.
  intros Hk. split; [|split].
  - intros j x H. rewrite deriv_jacQ, jac_deriv_high by auto. ring.
  - intros q j x H. rewrite deriv_jacQ. replace (x ^ q * (g j * deriv_at k (jacP a b j) x)) with (g j * (x ^ q * deriv_at k (jacP a b j) x)) by ring.
    replace j with (j - k + k)%nat at 1 2 by lia. rewrite (a_deriv a b x k q (j - k)) by auto. replace (j - k + k)%nat with j by lia.
    rewrite <- sum_scal. apply sum_ext. intros i _. rewrite deriv_jacQ. unfold jac_am. rewrite (Nat.add_comm i k). field. apply Hg.
  - intros q i j Hi Hj H. unfold jac_am, coef_a_. rewrite (matpow_band _ (coef_a_band _ _)) by lia. ring.
Qed.
Lemma jac_integrates : integrates (jacQ g a b) (jac_bm g a b).
Proof.
  split.
  - intros l j x. change (peval (jacQ g a b j) x) with (deriv_at 0 (jacQ g a b j) x). rewrite deriv_jacQ. rewrite deriv_at_0.
    rewrite (b_pow a b x l) by auto. rewrite <- sum_scal. apply sum_ext. intros i _. rewrite deriv_jacQ. unfold jac_bm. field. apply Hg.
  - intros l i j H. unfold jac_bm, pmat_b. destruct (Nat.ltb_spec i l); [ring|]. rewrite (matpow_band _ (coef_b_s_band a b)) by lia. ring.
Qed.
End Jac.
