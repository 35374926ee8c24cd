(** CoordProofs.v -- the chain rule, sums and small determinants. *)
From Coq Require Import Reals ZArith List Bool Arith Lia Lra.
From Verif Require Import FormsModel FormsSpec FormsProofs FormsProofs2 FormsProofs3 CoordModel CoordSpec.
Import ListNotations.
Local Open Scope R_scope.

(** *** sums *)
Lemma rsum_swap n k (f : nat -> nat -> R) : rsum n (fun i => rsum k (f i)) = rsum k (fun j => rsum n (fun i => f i j)).
Proof.
  induction n as [|n IH]; cbn [rsum].
  - symmetry. apply rsum_0.
  - rewrite IH, <- rsum_plus. reflexivity.
Qed.
Lemma rsum_scal_r n a (u : nat -> R) : rsum n (fun i => u i * a) = rsum n u * a.
Proof. rewrite Rmult_comm, <- rsum_scal. apply rsum_ext. intros. ring. Qed.
Lemma rsum_minus n (u v : nat -> R) : rsum n (fun i => u i - v i) = rsum n u - rsum n v.
Proof. induction n as [|n IH]; cbn; [ring|]. rewrite IH. ring. Qed.
Definition delta (i j : nat) : R := if Nat.eqb i j then 1 else 0.
Lemma delta_sym i j : delta i j = delta j i. Proof. unfold delta. rewrite Nat.eqb_sym. reflexivity. Qed.
Lemma rsum_delta n i (u : nat -> R) : (i < n)%nat -> rsum n (fun j => delta i j * u j) = u i.
Proof.
  induction n as [|n IH]; intros H; [lia|]. cbn [rsum]. unfold delta at 2. destruct (Nat.eqb_spec i n) as [->|E].
  - rewrite (rsum_ext n _ (fun _ => 0)); [rewrite rsum_0; ring|]. intros j Hj. unfold delta. destruct (Nat.eqb_spec n j); [lia|ring].
  - rewrite IH by lia. ring.
Qed.
Lemma rsum_delta_r n i (u : nat -> R) : (i < n)%nat -> rsum n (fun j => u j * delta j i) = u i.
Proof. intros H. rewrite <- (rsum_delta n i u H). apply rsum_ext. intros j _. rewrite delta_sym. ring. Qed.
Lemma rsum_le n (u v : nat -> R) : (forall i, (i < n)%nat -> u i <= v i) -> rsum n u <= rsum n v.
Proof. induction n as [|n IH]; intros H; cbn; [lra|]. apply Rplus_le_compat; [apply IH; intros; apply H; lia|apply H; lia]. Qed.
Lemma rsum_nonneg n (u : nat -> R) : (forall i, (i < n)%nat -> 0 <= u i) -> 0 <= rsum n u.
Proof. intros H. rewrite <- (rsum_0 n). apply rsum_le, H. Qed.
Lemma rsum_abs n (u : nat -> R) : Rabs (rsum n u) <= rsum n (fun i => Rabs (u i)).
Proof.
  induction n as [|n IH]; cbn; [rewrite Rabs_R0; lra|]. eapply Rle_trans; [apply Rabs_triang|]. lra.
Qed.
Lemma rsum_term n (u : nat -> R) i : (forall j, (j < n)%nat -> 0 <= u j) -> (i < n)%nat -> u i <= rsum n u.
Proof.
  induction n as [|n IH]; intros H Hi; [lia|]. cbn. destruct (Nat.eq_dec i n) as [->|E].
  - assert (0 <= rsum n u) by (apply rsum_nonneg; intros; apply H; lia). lra.
  - assert (u i <= rsum n u) by (apply IH; [intros; apply H; lia|lia]). assert (0 <= u n) by (apply H; lia). lra.
Qed.
Lemma rsum_partial i n (f : nat -> pt -> R) x (d : nat -> R) : (forall k, (k < n)%nat -> partial i (f k) x (d k)) ->
  partial i (fun y => rsum n (fun k => f k y)) x (rsum n d).
Proof.
  induction n as [|n IH]; intros H; cbn [rsum]; [apply partial_const|]. apply (partial_plus i (fun y => rsum n (fun k => f k y))); auto.
Qed.

(** *** the chain rule *)
Lemma uniform m (P : nat -> R -> Prop) :
  (forall a, (a < m)%nat -> exists d, 0 < d /\ forall h, h <> 0 -> Rabs h < d -> P a h) ->
  exists d, 0 < d /\ forall h, h <> 0 -> Rabs h < d -> forall a, (a < m)%nat -> P a h.
Proof.
  induction m as [|m IH]; intros H; [exists 1; split; [lra|intros; lia]|].
  destruct IH as (d & Hd & A); [intros a Ha; apply H; lia|]. destruct (H m) as (d' & Hd' & B); [lia|].
  exists (Rmin d d'). split; [apply Rmin_pos; assumption|]. intros h Hz Hh a Ha.
  pose proof (Rmin_l d d'). pose proof (Rmin_r d d').
  destruct (Nat.eq_dec a m) as [->|E]; [apply B; lra|apply A; [assumption|lra|lia]].
Qed.
Lemma chain_rule m F (c : R -> nat -> R) G (v : nat -> R) :
  frechet m F (c 0) G -> (forall a, (a < m)%nat -> derivable_pt_lim (fun h => c h a) 0 (v a)) ->
  derivable_pt_lim (fun h => F (c h)) 0 (dot m G v).
Proof.
  intros HF Hc eps Heps.
  set (SG := rsum m (fun a => Rabs (G a))). set (K := rsum m (fun a => Rabs (v a) + 1)).
  assert (P1 : 0 <= SG) by (apply rsum_nonneg; intros; apply Rabs_pos).
  assert (P2 : 0 <= K) by (apply rsum_nonneg; intros a _; pose proof (Rabs_pos (v a)); lra).
  set (e1 := Rmin 1 (eps / (4 * (SG + 1)))). set (e2 := eps / (2 * (K + 1))).
  assert (Q : 0 < eps / (4 * (SG + 1))) by (apply Rdiv_lt_0_compat; lra).
  assert (E1 : 0 < e1) by (apply Rmin_pos; lra).
  assert (E2 : 0 < e2) by (apply Rdiv_lt_0_compat; lra).
  destruct (HF e2 E2) as (d & Hd & HFd).
  destruct (uniform m (fun a h => Rabs ((c h a - c 0 a) / h - v a) < e1)) as (d1 & Hd1 & U).
  { intros a Ha. destruct (Hc a Ha e1 E1) as (del & Hdel). exists del. split; [apply cond_pos|]. intros h Hz Hh.
    specialize (Hdel h Hz Hh). rewrite Rplus_0_l in Hdel. exact Hdel. }
  assert (Hp : 0 < Rmin d1 (d / (K + 1))) by (apply Rmin_pos; [assumption|apply Rdiv_lt_0_compat; lra]).
  exists (mkposreal _ Hp). intros h Hz Hh. cbn in Hh. rewrite Rplus_0_l.
  pose proof (Rmin_l d1 (d / (K + 1))) as M1. pose proof (Rmin_r d1 (d / (K + 1))) as M2.
  specialize (U h Hz ltac:(lra)).
  assert (Hpos : 0 < Rabs h) by (apply Rabs_pos_lt, Hz).
  (* the increments *)
  assert (B : forall a, (a < m)%nat -> Rabs (c h a - c 0 a) <= Rabs h * (Rabs (v a) + 1)).
  { intros a Ha. specialize (U a Ha). replace (c h a - c 0 a) with (h * ((c h a - c 0 a) / h)) by (field; exact Hz).
    rewrite Rabs_mult. apply Rmult_le_compat_l; [lra|].
    replace ((c h a - c 0 a) / h) with (((c h a - c 0 a) / h - v a) + v a) by ring.
    eapply Rle_trans; [apply Rabs_triang|]. pose proof (Rmin_l 1 (eps / (4 * (SG + 1)))). fold e1 in H. lra. }
  assert (Bs : rsum m (fun a => Rabs (c h a - c 0 a)) <= Rabs h * K).
  { unfold K. rewrite <- rsum_scal. apply rsum_le. exact B. }
  assert (Bd : forall a, (a < m)%nat -> Rabs (c h a - c 0 a) < d).
  { intros a Ha. eapply Rle_lt_trans; [apply B, Ha|].
    assert (Rabs (v a) + 1 <= K).
    { apply (rsum_term m (fun a => Rabs (v a) + 1) a); [intros j _; pose proof (Rabs_pos (v j)); lra|exact Ha]. }
    assert (T : Rabs h * (K + 1) < d).
    { apply Rlt_le_trans with (d / (K + 1) * (K + 1)); [apply Rmult_lt_compat_r; lra|]. right. field. lra. }
    eapply Rle_lt_trans; [|exact T]. apply Rmult_le_compat_l; lra. }
  specialize (HFd (c h) Bd).
  (* the remainder *)
  set (r := F (c h) - F (c 0) - rsum m (fun a => G a * (c h a - c 0 a))) in *.
  assert (E : (F (c h) - F (c 0)) / h - dot m G v = rsum m (fun a => G a * ((c h a - c 0 a) / h - v a)) + r / h).
  { assert (X : rsum m (fun a => G a * ((c h a - c 0 a) / h - v a)) = rsum m (fun a => G a * (c h a - c 0 a)) / h - dot m G v).
    { unfold Rdiv. rewrite Rmult_comm, <- rsum_scal. unfold dot. rewrite <- rsum_minus. apply rsum_ext. intros. ring. }
    rewrite X. unfold r. field. exact Hz. }
  rewrite E. eapply Rle_lt_trans; [apply Rabs_triang|].
  assert (R1 : Rabs (rsum m (fun a => G a * ((c h a - c 0 a) / h - v a))) <= SG * e1).
  { eapply Rle_trans; [apply rsum_abs|]. unfold SG. rewrite <- rsum_scal_r. apply rsum_le. intros a Ha. rewrite Rabs_mult.
    apply Rmult_le_compat_l; [apply Rabs_pos|]. specialize (U a Ha). lra. }
  assert (R2 : Rabs (r / h) <= e2 * K).
  { unfold Rdiv. rewrite Rabs_mult, Rabs_inv. apply Rmult_le_reg_r with (Rabs h); [exact Hpos|].
    rewrite Rmult_assoc, Rinv_l, Rmult_1_r by lra. eapply Rle_trans; [exact HFd|].
    replace (e2 * K * Rabs h) with (e2 * (Rabs h * K)) by ring. apply Rmult_le_compat_l; lra. }
  assert (R3 : SG * e1 <= eps / 4).
  { apply Rle_trans with ((SG + 1) * (eps / (4 * (SG + 1)))).
    - apply Rmult_le_compat; [lra|lra|lra|]. apply Rmin_r.
    - right. field. lra. }
  assert (R4 : e2 * K <= eps / 2).
  { apply Rle_trans with (e2 * (K + 1)); [apply Rmult_le_compat_l; lra|]. right. unfold e2. field. lra. }
  lra.
Qed.
Lemma frechet_partial m F (X : pt -> nat -> R) G y i (v : nat -> R) :
  frechet m F (X y) G -> (forall a, (a < m)%nat -> partial i (fun z => X z a) y (v a)) ->
  partial i (fun z => F (X z)) y (dot m G v).
Proof.
  intros HF HX. apply (chain_rule m F (fun h => X (shift y i h)) G v); [rewrite shift_0; exact HF|exact HX].
Qed.

(** *** dot *)
Lemma dot_sym m u v : dot m u v = dot m v u.
Proof. apply rsum_ext. intros. ring. Qed.
Lemma dot_ext m u v u' v' : (forall a, (a < m)%nat -> u a = u' a) -> (forall a, (a < m)%nat -> v a = v' a) -> dot m u v = dot m u' v'.
Proof. intros H G. apply rsum_ext. intros a Ha. rewrite H, G by exact Ha. reflexivity. Qed.
Lemma dot_sum_l m n (f : nat -> nat -> R) v : dot m (fun a => rsum n (fun i => f i a)) v = rsum n (fun i => dot m (f i) v).
Proof.
  unfold dot. rewrite (rsum_ext m _ (fun a => rsum n (fun i => f i a * v a))); [apply rsum_swap|].
  intros a _. symmetry. apply rsum_scal_r.
Qed.
Lemma dot_scal_l m k u v : dot m (fun a => k * u a) v = k * dot m u v.
Proof. unfold dot. rewrite <- rsum_scal. apply rsum_ext. intros. ring. Qed.
Lemma dot_plus_l m u u' v : dot m (fun a => u a + u' a) v = dot m u v + dot m u' v.
Proof. unfold dot. rewrite <- rsum_plus. apply rsum_ext. intros. ring. Qed.

(** *** determinants of size at most 3 *)
Lemma rdet_ext k : forall M M', (forall i j, (i < k)%nat -> (j < k)%nat -> M i j = M' i j) -> rdet k M = rdet k M'.
Proof.
  induction k as [|k IH]; intros M M' H; [reflexivity|]. cbn [rdet]. apply rsum_ext. intros j Hj.
  rewrite H by lia. f_equal. apply IH. intros p q Hp Hq. apply H; [lia|]. unfold skipi. destruct (_ <? _)%nat; lia.
Qed.
Definition radj (k : nat) (M : nat -> nat -> R) (i j : nat) : R :=
  rsign (i + j) * rdet (k - 1) (fun p q => M (skipi j p) (skipi i q)).
Ltac small n := destruct n as [|[|[|[|n]]]]; [lia| | | |lia].
Ltac idx i H := first [destruct i as [|[|[|i]]]; [ | | |exfalso; lia] | destruct i as [|[|i]]; [ | |exfalso; lia] | destruct i as [|i]; [ |exfalso; lia]].
Ltac dets := cbv [radj rdet rsum rsign skipi Nat.even Nat.sub Nat.add Nat.ltb Nat.leb].
Lemma adj_left n M i k : (1 <= n <= 3)%nat -> (i < n)%nat -> (k < n)%nat ->
  rsum n (fun j => radj n M i j * M j k) = rdet n M * delta i k.
Proof.
  intros Hn Hi Hk. small n; destruct i as [|[|[|i]]]; try lia; destruct k as [|[|[|k]]]; try lia; dets; unfold delta; cbn [Nat.eqb]; ring.
Qed.
Lemma adj_right n M i k : (1 <= n <= 3)%nat -> (i < n)%nat -> (k < n)%nat ->
  rsum n (fun j => M i j * radj n M j k) = rdet n M * delta i k.
Proof.
  intros Hn Hi Hk. small n; destruct i as [|[|[|i]]]; try lia; destruct k as [|[|[|k]]]; try lia; dets; unfold delta; cbn [Nat.eqb]; ring.
Qed.
Lemma adj_sym n M i k : (1 <= n <= 3)%nat -> (i < n)%nat -> (k < n)%nat ->
  (forall p q, M p q = M q p) -> radj n M i k = radj n M k i.
Proof.
  intros Hn Hi Hk HS. small n; destruct i as [|[|[|i]]]; try lia; destruct k as [|[|[|k]]]; try lia; dets; try reflexivity;
    rewrite ?(HS 1%nat 0%nat), ?(HS 2%nat 0%nat), ?(HS 2%nat 1%nat); ring.
Qed.
(** a zero row *)
Lemma det_zero_row n M i : (1 <= n <= 3)%nat -> (i < n)%nat -> (forall k, (k < n)%nat -> M i k = 0) -> rdet n M = 0.
Proof.
  intros Hn Hi H. small n; destruct i as [|[|[|i]]]; try lia; dets;
  repeat match goal with H : forall k, (k < ?n)%nat -> M ?i k = 0 |- _ =>
    try rewrite (H 0%nat) by lia; try rewrite (H 1%nat) by lia; try rewrite (H 2%nat) by lia; clear H end; ring.
Qed.
(** the determinant of the Gram matrix of n vectors of R^n *)
Lemma det_gram n (B : nat -> nat -> R) : (1 <= n <= 3)%nat -> rdet n (fun i j => dot n (B i) (B j)) = rdet n B * rdet n B.
Proof. intros Hn. small n; unfold dot; dets; ring. Qed.
Ltac pder H := lazymatch goal with
  | |- partial _ (fun z => @?f z + @?g z) _ _ => eapply (partial_plus _ f g); pder H
  | |- partial _ (fun z => @?f z * @?g z) _ _ => eapply (partial_mult _ f g); pder H
  | |- partial _ (fun _ => ?c) _ _ => apply partial_const
  | _ => apply H; lia
  end.
(** Jacobi's formula *)
Lemma det_deriv n i (M : nat -> nat -> pt -> R) x (d : nat -> nat -> R) : (1 <= n <= 3)%nat ->
  (forall p q, (p < n)%nat -> (q < n)%nat -> partial i (M p q) x (d p q)) ->
  partial i (fun z => rdet n (fun p q => M p q z)) x (rsum n (fun p => rsum n (fun q => radj n (fun p q => M p q x) q p * d p q))).
Proof.
  intros Hn H.
  assert (X : forall a b, partial i (fun z => rdet n (fun p q => M p q z)) x a -> a = b -> partial i (fun z => rdet n (fun p q => M p q z)) x b)
    by (intros; subst; assumption).
  small n; (eapply X; [clear X; dets; pder H|dets; cbv beta; ring]).
Qed.
