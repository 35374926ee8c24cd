(** GenProofs.v -- stencil products. *)
From Coq Require Import Reals ZArith List Bool Arith Lia Lra.
From Verif Require Import Base Fld SparseModel SparseSpec RPoly StencilProofs StencilProofs8 JacobiModel JacobiProofs2 JacobiProofs3 GenModel GenSpec.
Import ListNotations.
Local Open Scope R_scope.
Notation rsum := (gsum 0 Rplus).

Lemma sum_ext n (f g : nat -> R) : (forall i, (i < n)%nat -> f i = g i) -> rsum n f = rsum n g. Proof. apply gsum_ext_R. Qed.
Lemma sum_add n (f g : nat -> R) : rsum n (fun i => f i + g i) = rsum n f + rsum n g. Proof. apply gsum_add. Qed.
Lemma sum_scal n c (f : nat -> R) : rsum n (fun i => c * f i) = c * rsum n f. Proof. apply gsum_scal. Qed.
Lemma sum_swap n m (f : nat -> nat -> R) : rsum n (fun i => rsum m (fun j => f i j)) = rsum m (fun j => rsum n (fun i => f i j)). Proof. apply gsum_swap. Qed.
Lemma sum_0 n (f : nat -> R) : (forall i, (i < n)%nat -> f i = 0) -> rsum n f = 0. Proof. apply gsum_zero. Qed.
(** two sums over different ranges of the same function, zero outside the common part *)
Lemma sum_range n m (f : nat -> R) : (forall i, (Nat.min n m <= i)%nat -> (i < Nat.max n m)%nat -> f i = 0) -> rsum n f = rsum m f.
Proof.
  intros H. destruct (Nat.le_ge_cases n m); [symmetry|]; apply rsum_extend; auto; intros i Hi; apply H; lia.
Qed.
Lemma nonzero_sum n (f : nat -> R) : rsum n f <> 0 -> exists i, (i < n)%nat /\ f i <> 0.
Proof.
  induction n as [|n IH]; cbn [gsum]; intros H; [lra|]. destruct (Req_EM_T (f n) 0) as [E|E]; [|exists n; split; [lia|exact E]].
  destruct IH as (i & Hi & Hf); [lra|]. exists i. split; [lia|exact Hf].
Qed.
Lemma dn_add a b p : forall x, peval (dn (a + b) p) x = peval (dn a (dn b p)) x.
Proof. induction a as [|a IH]; intros x; [reflexivity|]. cbn [Nat.add dn]. apply peq_deriv. exact IH. Qed.

Lemma deg_max (ms : measure) tm : In tm ms -> (snd tm <= degree ms)%nat.
Proof. unfold degree. induction ms as [|a ms IH]; intros H; [destruct H|]. cbn [fold_right]. destruct H as [->|H]; [lia|]. specialize (IH H). lia. Qed.

Section Form.
Variable f : poly -> poly -> R.
Hypothesis F : is_form f.
Lemma f_ext p p' q q' : (forall x, peval p x = peval p' x) -> (forall x, peval q x = peval q' x) -> f p q = f p' q'. Proof. apply F. Qed.
Lemma f_padd_l p q r : f (padd p q) r = f p r + f q r. Proof. apply F. Qed.
Lemma f_pscale_l c p q : f (pscale c p) q = c * f p q. Proof. apply F. Qed.
Lemma f_padd_r p q r : f p (padd q r) = f p q + f p r. Proof. apply F. Qed.
Lemma f_pscale_r c p q : f p (pscale c q) = c * f p q. Proof. apply F. Qed.
Lemma f_pX p q : f (pX p) q = f p (pX q). Proof. apply F. Qed.
Lemma f_nil_l q : f [] q = 0. Proof. change [] with (pscale 0 []). rewrite f_pscale_l. ring. Qed.
Lemma f_nil_r p : f p [] = 0. Proof. change [] with (pscale 0 []). rewrite f_pscale_r. ring. Qed.
Lemma f_pcomb_l n c P q : f (pcomb n c P) q = rsum n (fun i => c i * f (P i) q).
Proof. induction n as [|n IH]; cbn [pcomb gsum]; [apply f_nil_l|]. rewrite f_padd_l, f_pscale_l, IH. reflexivity. Qed.
Lemma f_pcomb_r n c P q : f q (pcomb n c P) = rsum n (fun i => c i * f q (P i)).
Proof. induction n as [|n IH]; cbn [pcomb gsum]; [apply f_nil_r|]. rewrite f_padd_r, f_pscale_r, IH. reflexivity. Qed.
Lemma peval_comb n c P x : peval (pcomb n c P) x = rsum n (fun i => c i * peval (P i) x).
Proof. exact (deriv_at_pcomb 0 n c P x). Qed.
(** a polynomial given by its values *)
Lemma f_val_l p n c P q : (forall x, peval p x = rsum n (fun i => c i * peval (P i) x)) -> f p q = rsum n (fun i => c i * f (P i) q).
Proof. intros H. rewrite <- f_pcomb_l. apply f_ext; [|reflexivity]. intros x. rewrite peval_comb. apply H. Qed.
Lemma f_val_r p n c P q : (forall x, peval p x = rsum n (fun i => c i * peval (P i) x)) -> f q p = rsum n (fun i => c i * f q (P i)).
Proof. intros H. rewrite <- f_pcomb_r. apply f_ext; [reflexivity|]. intros x. rewrite peval_comb. apply H. Qed.
Lemma f_dn_r s n c P q : f q (dn s (pcomb n c P)) = rsum n (fun i => c i * f q (dn s (P i))).
Proof. apply f_val_r. intros x. exact (deriv_at_pcomb s n c P x). Qed.
Lemma f_dn_l s n c P q : f (dn s (pcomb n c P)) q = rsum n (fun i => c i * f (dn s (P i)) q).
Proof. apply f_val_l. intros x. exact (deriv_at_pcomb s n c P x). Qed.
Lemma f_dnval_l t p n c P q : (forall x, peval p x = rsum n (fun i => c i * peval (P i) x)) -> f (dn t p) q = rsum n (fun i => c i * f (dn t (P i)) q).
Proof.
  intros H. rewrite <- f_dn_l. apply f_ext; [|reflexivity]. intros x. apply (peq_dn t). intros y. rewrite peval_comb. apply H.
Qed.
Lemma peval_xpow q p x : peval (xpow q p) x = x ^ q * peval p x.
Proof. induction q as [|q IH]; cbn [xpow pow]; [ring|]. rewrite peval_pX, IH. ring. Qed.
Lemma f_xpow q : forall p r, f (xpow q p) r = f p (xpow q r).
Proof.
  assert (forall q p x, peval (xpow q (pX p)) x = peval (pX (xpow q p)) x) as C.
  { intros q0 p x. rewrite peval_xpow, !peval_pX, peval_xpow. ring. }
  induction q as [|q IH]; intros p r; cbn [xpow]; [reflexivity|]. rewrite f_pX, IH. apply f_ext; [reflexivity|]. apply C.
Qed.

(** the measure on the test side *)
Variables (P : nat -> poly) (Ax : nat -> mat).
Hypothesis HA : powers P Ax.
Lemma f_measure t m k r : f (dn t (times (Some m) (P k))) r = fold_right (fun tm s => fst tm * rsum (k + snd tm + 1) (fun l => Ax (snd tm) l k * f (dn t (P l)) r) + s) 0 m.
Proof.
  unfold times. induction m as [|tm m IH]; cbn [fold_right].
  - rewrite (f_ext (dn t []) [] r r); [apply f_nil_l| |reflexivity]. intros x. exact (deriv_at_pcomb t 0 (fun _ => 0) P x).
  - rewrite (f_ext _ (padd (pscale (fst tm) (dn t (xpow (snd tm) (P k)))) (dn t (fold_right (fun t0 r0 => padd (pscale (fst t0) (xpow (snd t0) (P k))) r0) [] m))) r r); [| |reflexivity].
    + rewrite f_padd_l, f_pscale_l, IH. f_equal. f_equal. apply f_dnval_l. intros x. rewrite peval_xpow. apply HA.
    + intros x. rewrite peval_padd, peval_pscale. pose proof (deriv_at_padd t (pscale (fst tm) (xpow (snd tm) (P k))) (fold_right (fun t0 r0 => padd (pscale (fst t0) (xpow (snd t0) (P k))) r0) [] m) x) as E.
      rewrite deriv_at_pscale in E. exact E.
Qed.
Lemma times_comb m n c x : peval (times m (pcomb n c P)) x = rsum n (fun i => c i * peval (times m (P i)) x).
Proof.
  destruct m as [m|]; [|apply peval_comb]. unfold times. induction m as [|t m IH]; cbn [fold_right].
  - cbn [peval]. symmetry. apply sum_0. intros; ring.
  - rewrite peval_padd, peval_pscale, peval_xpow, peval_comb, IH.
    rewrite (sum_ext _ (fun i => c i * peval (padd _ _) x) (fun i => fst t * (x ^ snd t * (c i * peval (P i) x)) + c i * peval (fold_right (fun t0 r => padd (pscale (fst t0) (xpow (snd t0) (P i))) r) [] m) x)).
    + rewrite sum_add, !sum_scal. ring.
    + intros i _. rewrite peval_padd, peval_pscale, peval_xpow. ring.
Qed.
End Form.

(** ** the product K A^T B S^T *)
Section Stencil.
Variables (f : poly -> poly -> R) (P P' : nat -> poly) (Ax : nat -> mat) (test trial : gspace) (B : mat) (t s : nat) (m : option measure).
Hypothesis F : is_form f.
Hypothesis HA : powers P Ax.
Hypothesis HB : forall l n, (l < g_N test)%nat -> (n < g_N trial)%nat -> B l n = f (dn t (P l)) (dn s (P' n)).
Let N := g_N test. Let N' := g_N trial.
Lemma right_ok l j : (l < N)%nat -> mmul N' B (tr (stencil trial)) l j = f (dn t (P l)) (dn s (fn P' trial j)).
Proof.
  intros Hl. unfold mmul, tr, fn. rewrite (f_dn_r f F). apply sum_ext. intros n Hn. rewrite HB by auto. ring.
Qed.
Lemma product_none i j : product test trial Ax None B i j = f (dn t (fn P test i)) (dn s (fn P' trial j)).
Proof.
  unfold product. fold N N'. unfold mmul at 1. unfold fn at 1. rewrite (f_dn_l f F). apply sum_ext. intros k Hk. f_equal. apply right_ok, Hk.
Qed.
(** what the code computes: the t'th derivative of measure times test function; the terms of degree N and more are dropped *)
Lemma product_some ms i j : (forall k l, (k < N)%nat -> stencil test i k <> 0 -> (N <= l)%nat -> (l <= k + degree ms)%nat -> f (dn t (P l)) (dn s (fn P' trial j)) = 0) ->
  product test trial Ax (Some ms) B i j = f (dn t (times (Some ms) (fn P test i))) (dn s (fn P' trial j)).
Proof.
  intros HZ. unfold product. fold N N'. set (u := dn s (fn P' trial j)) in *.
  rewrite (f_dnval_l f F t _ N (stencil test i) (fun k => times (Some ms) (P k)) u) by (intros x; apply (times_comb P (Some ms))).
  unfold mmul at 1. apply sum_ext. intros k Hk. destruct (Req_EM_T (stencil test i k) 0) as [E|E]; [rewrite E; ring|]. f_equal.
  rewrite (f_measure f F P Ax HA). unfold mmul at 1.
  rewrite (sum_ext N _ (fun l => fold_right (fun tm s0 => fst tm * (Ax (snd tm) l k * f (dn t (P l)) u) + s0) 0 ms)).
  - assert (forall tm, In tm ms -> (snd tm <= degree ms)%nat) as HD by (intros tm; apply deg_max). set (D := degree ms) in *. clearbody D.
    induction ms as [|tm ms IH]; cbn [fold_right]; [apply sum_0; reflexivity|]. rewrite sum_add, sum_scal, IH by (intros; apply HD; right; auto). f_equal. f_equal.
    specialize (HD tm (or_introl eq_refl)).
    apply sum_range. intros l H1 H2. destruct HA as [_ HAb].
    destruct (Nat.le_gt_cases (k + snd tm + 1) l) as [H|H]; [rewrite HAb by lia; ring|]. rewrite (HZ k l Hk E) by lia. ring.
  - intros l Hl. fold N'. rewrite (right_ok l j Hl). fold u. unfold tr, measure_matrix. clear HZ. induction ms as [|tm ms IH]; cbn [fold_right]; [ring|]. rewrite Rmult_plus_distr_r, IH. ring.
Qed.
End Stencil.

(** ** bands *)
Lemma lookup_key (l : list (Z * dval RFld)) o v : lookup RFld l o = Some v -> In o (map fst l).
Proof. induction l as [|[k w] l IH]; cbn [lookup map fst]; [discriminate|]. destruct (Z.eq_dec k o) as [->|]; [left; reflexivity|right; auto]. Qed.
Lemma stencil_key g i k : stencil g i k <> 0 -> In (Z.of_nat k - Z.of_nat i)%Z (keys g).
Proof. unfold stencil, mat_entry, keys. destruct (lookup RFld _ _) eqn:E; [intros _; eapply lookup_key; eauto|intros H; contradiction H; reflexivity]. Qed.
Lemma fold_min l : forall d o, In o l -> (fold_right Z.min d l <= o)%Z.
Proof. induction l as [|a l IH]; intros d o H; [destruct H|]. cbn [fold_right]. destruct H as [->|H]; [lia|]. specialize (IH d o H). lia. Qed.
Lemma fold_max l : forall d o, In o l -> (o <= fold_right Z.max d l)%Z.
Proof. induction l as [|a l IH]; intros d o H; [destruct H|]. cbn [fold_right]. destruct H as [->|H]; [lia|]. specialize (IH d o H). lia. Qed.
Lemma key_range g i k : stencil g i k <> 0 -> (first_key g <= Z.of_nat k - Z.of_nat i <= last_key g)%Z.
Proof. intros H. apply stencil_key in H. split; [apply fold_min|apply fold_max]; exact H. Qed.
Lemma banded_ok lb ub (A : mat) i j : (A i j <> 0 -> (- lb <= Z.of_nat j - Z.of_nat i <= ub)%Z) -> banded lb ub A i j = A i j.
Proof.
  intros H. unfold banded. destruct (Req_EM_T (A i j) 0) as [E|E]; [rewrite E; destruct (_ && _); reflexivity|].
  specialize (H E). destruct (Z.leb_spec (- lb) (Z.of_nat j - Z.of_nat i))%Z; [|lia]. destruct (Z.leb_spec (Z.of_nat j - Z.of_nat i) ub)%Z; [reflexivity|lia].
Qed.
Lemma measure_band (Ax : nat -> mat) ms i j : (forall q i j, (j + q < i \/ i + q < j)%nat -> Ax q i j = 0) ->
  measure_matrix Ax ms i j <> 0 -> (i <= j + degree ms /\ j <= i + degree ms)%nat.
Proof.
  intros HA H. destruct (Nat.le_gt_cases i (j + degree ms)) as [H1|H1]; [destruct (Nat.le_gt_cases j (i + degree ms)) as [H2|H2]; [auto|]|]; exfalso; apply H; unfold measure_matrix.
  - assert (forall l, (forall tm, In tm l -> (snd tm <= degree ms)%nat) -> fold_right (fun t s => fst t * Ax (snd t) i j + s) 0 l = 0) as E.
    { induction l as [|tm l IH]; intros Hl; cbn [fold_right]; [reflexivity|]. rewrite IH by (intros; apply Hl; right; auto).
      rewrite HA; [ring|]. specialize (Hl tm (or_introl eq_refl)). lia. }
    apply E. intros; apply deg_max; auto.
  - assert (forall l, (forall tm, In tm l -> (snd tm <= degree ms)%nat) -> fold_right (fun t s => fst t * Ax (snd t) i j + s) 0 l = 0) as E.
    { induction l as [|tm l IH]; intros Hl; cbn [fold_right]; [reflexivity|]. rewrite IH by (intros; apply Hl; right; auto).
      rewrite HA; [ring|]. specialize (Hl tm (or_introl eq_refl)). lia. }
    apply E. intros; apply deg_max; auto.
Qed.
(** B diagonal: the bands from the keys cover the product *)
Lemma mass_band test trial Ax m B i j : (forall q i j, (j + q < i \/ i + q < j)%nat -> Ax q i j = 0) ->
  (forall l n, (l < g_N test)%nat -> (n < g_N trial)%nat -> l <> n -> B l n = 0) ->
  product test trial Ax m B i j <> 0 ->
  (- (- first_key test + last_key trial + degree_of m) <= Z.of_nat j - Z.of_nat i <= last_key test - first_key trial + degree_of m)%Z.
Proof.
  intros HA HB H.
  assert (exists k l n, stencil test i k <> 0 /\ (Z.abs (Z.of_nat l - Z.of_nat k) <= degree_of m)%Z /\ B l n <> 0 /\ stencil trial j n <> 0 /\ (l < g_N test)%nat /\ (n < g_N trial)%nat) as (k & l & n & H1 & H2 & H3 & H4 & H5 & H6).
  { unfold product in H. destruct m as [ms|]; cbn [degree_of].
    - unfold mmul at 1 in H. apply nonzero_sum in H as (k & Hk & H). unfold mmul at 1 in H.
      assert (rsum (g_N test) (fun l => tr (measure_matrix Ax ms) k l * mmul (g_N trial) B (tr (stencil trial)) l j) <> 0) as H' by (intros E; rewrite E in H; apply H; ring).
      assert (stencil test i k <> 0) as Hs by (intros E; rewrite E in H; apply H; ring).
      apply nonzero_sum in H' as (l & Hl & H'). unfold mmul, tr in H'.
      assert (rsum (g_N trial) (fun n => B l n * stencil trial j n) <> 0) as H'' by (intros E; rewrite E in H'; apply H'; ring).
      assert (measure_matrix Ax ms l k <> 0) as Hm by (intros E; rewrite E in H'; apply H'; ring).
      apply nonzero_sum in H'' as (n & Hn & H''). exists k, l, n. apply measure_band in Hm; [|exact HA].
      repeat split; auto; try lia; intros E; rewrite E in H''; apply H''; ring.
    - unfold mmul at 1 in H. apply nonzero_sum in H as (k & Hk & H). unfold mmul, tr in H.
      assert (rsum (g_N trial) (fun n => B k n * stencil trial j n) <> 0) as H'' by (intros E; rewrite E in H; apply H; ring).
      assert (stencil test i k <> 0) as Hs by (intros E; rewrite E in H; apply H; ring).
      apply nonzero_sum in H'' as (n & Hn & H''). exists k, k, n.
      repeat split; auto; try lia; intros E; rewrite E in H''; apply H''; ring. }
  apply key_range in H1, H4. assert (l = n) by (destruct (Nat.eq_dec l n); [assumption|exfalso; apply H3, HB; auto]). lia.
Qed.
(** pattern *)
Lemma last_some n (f : nat -> R) : forall i, (i < n)%nat -> f i <> 0 -> exists u, last_nonzero n f = Some u /\ (i <= u < n)%nat.
Proof.
  induction n as [|n IH]; intros i Hi H; [lia|]. cbn [last_nonzero]. destruct (Req_EM_T (f n) 0) as [E|E].
  - destruct (Nat.eq_dec i n) as [->|]; [contradiction|]. destruct (IH i) as (u & -> & Hu); [lia|exact H|]. exists u. split; [reflexivity|lia].
  - exists n. split; [reflexivity|lia].
Qed.
Lemma pattern_covers dim n l0 l1 d : (d < n)%nat -> l0 d <> 0 \/ ((S d < n)%nat /\ l1 (S d) <> 0) -> (n <= dim)%nat -> (Z.of_nat d <= pattern_band dim n l0 l1)%Z.
Proof.
  intros Hd H Hn. unfold pattern_band. destruct H as [H|[Hs H]].
  - destruct (last_some n l0 d Hd H) as (u & -> & Hu). destruct (last_nonzero n l1); lia.
  - destruct (last_some n l1 (S d) Hs H) as (u & -> & Hu). destruct (last_nonzero n l0); lia.
Qed.
