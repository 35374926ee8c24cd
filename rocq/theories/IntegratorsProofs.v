(** IntegratorsProofs.v -- the time loop, and asymptotic expansions in the step size. *)
From Coq Require Import Reals Lra Lia List Arith Bool FunctionalExtensionality.
From Verif Require Import Base IntegratorsModel StencilProofs StencilProofs8 JacobiProofs3.
Import ListNotations.
Local Open Scope R_scope.

(** ** the loop *)
Lemma time_loop_run {St} dt e (step update : R -> nat -> St -> St) (n : nat) : forall t k s fuel,
  (forall j, (j < n)%nat -> t + INR j * dt < e - 1 / 10 ^ 8) -> e - 1 / 10 ^ 8 <= t + INR n * dt -> (n <= fuel)%nat ->
  time_loop (K := RNum) fuel dt e step update t k s =
  Some (t + INR n * dt, (k + n)%nat, for_up n 0 (fun j s => update (t + INR (S j) * dt) (k + S j)%nat (step (t + INR j * dt) (k + j)%nat s)) s).
Proof.
  induction n as [|n IH]; intros t k s fuel H1 H2 Hf.
  - cbn [INR] in *. replace (t + 0 * dt) with t in * by ring.
    assert (nlt RNum t (nsub RNum e (neps RNum)) = false) as E by (cbn; destruct (Rlt_dec _ _); [lra|reflexivity]).
    destruct fuel; cbn [time_loop]; rewrite E; cbn [for_up]; rewrite Nat.add_0_r; reflexivity.
  - assert (nlt RNum t (nsub RNum e (neps RNum)) = true) as E.
    { cbn. specialize (H1 0%nat ltac:(lia)). cbn in H1. destruct (Rlt_dec _ _); [reflexivity|lra]. }
    destruct fuel as [|fuel]; [lia|]. cbn [time_loop]. rewrite E. cbn [nadd RNum].
    rewrite (IH (t + dt)).
    + assert (forall j, t + dt + INR j * dt = t + INR (S j) * dt) as Et by (intros j; rewrite S_INR; ring).
      rewrite Et. f_equal. f_equal; [f_equal; lia|]. cbn [for_up]. change (INR 0) with 0. change (INR 1) with 1. replace (t + 0 * dt) with t by ring. replace (t + 1 * dt) with (t + dt) by ring.
      rewrite Nat.add_0_r. replace (k + 1)%nat with (S k) by lia. set (s1 := update (t + dt) (S k) (step t k s)).
      assert (forall m st st' (f g : nat -> St -> St) x, (forall i y, (i < m)%nat -> f (st + i)%nat y = g (st' + i)%nat y) -> for_up m st f x = for_up m st' g x) as EQ.
      { clear. induction m as [|m IH]; intros st st' f g x H; cbn [for_up]; [reflexivity|]. rewrite <- (Nat.add_0_r st) at 2. rewrite <- (Nat.add_0_r st') at 2. rewrite (H 0%nat x) by lia.
        apply IH. intros i y Hi. replace (S st + i)%nat with (st + S i)%nat by lia. replace (S st' + i)%nat with (st' + S i)%nat by lia. apply H. lia. }
      apply EQ. intros i y Hi. rewrite Nat.add_0_l. change (1 + i)%nat with (S i). rewrite !Et. f_equal; [lia|f_equal; lia].
    + intros j Hj. specialize (H1 (S j) ltac:(lia)). rewrite S_INR in H1. lra.
    + rewrite S_INR in H2. lra.
    + lia.
Qed.
Lemma least_step t dt b : 0 < dt -> exists n, (forall j, (j < n)%nat -> t + INR j * dt < b) /\ b <= t + INR n * dt.
Proof.
  intros Hd. assert (exists n, b <= t + INR n * dt) as [m Hm].
  { destruct (Rle_dec b t) as [H|H]; [exists 0%nat; cbn; lra|].
    destruct (archimed ((b - t) / dt)) as [A _]. exists (Z.to_nat (up ((b - t) / dt))).
    assert (0 <= up ((b - t) / dt))%Z as Hz. { apply le_IZR. left. eapply Rle_lt_trans; [|exact A]. apply Rlt_le, Rdiv_lt_0_compat; lra. }
    rewrite INR_IZR_INZ, Z2Nat.id by exact Hz. apply Rgt_lt in A. apply (Rmult_lt_compat_r dt) in A; [|lra]. unfold Rdiv in A. rewrite Rmult_assoc, Rinv_l in A by lra. lra. }
  induction m as [|m IH].
  - exists 0%nat. split; [intros; lia|exact Hm].
  - destruct (Rle_dec b (t + INR m * dt)) as [H|H]; [auto|]. exists (S m). split; [|exact Hm].
    intros j Hj. assert (INR j <= INR m) by (apply le_INR; lia). apply Rnot_le_lt in H. apply Rle_lt_trans with (t + INR m * dt); [|exact H].
    apply Rplus_le_compat_l, Rmult_le_compat_r; lra.
Qed.

(** ** expansions: g h = c 0 + c 1 h + ... + c n h^n + O(h^(n+1)), in every component *)
Section Expansions.
  Variable I : Type.
  Notation vec := (vec I).
  Definition near0 (P : R -> Prop) : Prop := exists d, 0 < d /\ forall h, Rabs h < d -> P h.
  Definition taylor (n : nat) (c : nat -> vec) (h : R) (i : I) : R := gsum 0 Rplus (S n) (fun k => c k i * h ^ k).
  Definition expands (n : nat) (g : R -> vec) (c : nat -> vec) : Prop :=
    forall i, exists C, near0 (fun h => Rabs (g h i - taylor n c h i) <= C * Rabs h ^ S n).
  Definition bounded (g : R -> vec) : Prop := forall i, exists C, near0 (fun h => Rabs (g h i) <= C).

  Lemma near0_and P Q : near0 P -> near0 Q -> near0 (fun h => P h /\ Q h).
  Proof.
    intros (d & Hd & HP) (e & He & HQ). exists (Rmin d e). split; [apply Rmin_glb_lt; auto|]. intros h Hh.
    split; [apply HP; eapply Rlt_le_trans; [exact Hh|apply Rmin_l]|apply HQ; eapply Rlt_le_trans; [exact Hh|apply Rmin_r]].
  Qed.
  Lemma near0_impl (P Q : R -> Prop) : (forall h, P h -> Q h) -> near0 P -> near0 Q.
  Proof. intros H (d & Hd & HP). exists d. auto. Qed.
  Lemma near0_small d : 0 < d -> near0 (fun h => Rabs h < d).
  Proof. intros. exists d. auto. Qed.
  Lemma near0_true (P : R -> Prop) : (forall h, P h) -> near0 P.
  Proof. intros. exists 1. split; [lra|auto]. Qed.
  Lemma taylor_S n c h i : taylor (S n) c h i = taylor n c h i + c (S n) i * h ^ S n.
  Proof. reflexivity. Qed.
  Lemma taylor_ext n c c' h i : (forall k, (k <= n)%nat -> c k i = c' k i) -> taylor n c h i = taylor n c' h i.
  Proof. intros H. apply gsum_ext_R. intros k Hk. rewrite H by lia. reflexivity. Qed.

  Lemma expands_ext n g g' c c' : expands n g c -> (forall i, near0 (fun h => g h i = g' h i)) ->
    (forall k i, (k <= n)%nat -> c k i = c' k i) -> expands n g' c'.
  Proof.
    intros H Hg Hc i. destruct (H i) as [C HC]. exists C. specialize (Hg i). generalize (near0_and _ _ HC Hg).
    apply near0_impl. intros h [A B]. rewrite <- B. rewrite <- (taylor_ext n c c') by (intros; apply Hc; auto). exact A.
  Qed.
  Lemma expands_coeffs n g c c' : expands n g c -> (forall k i, (k <= n)%nat -> c k i = c' k i) -> expands n g c'.
  Proof. intros H Hc. apply (expands_ext n g g c c' H); [|exact Hc]. intros i. apply near0_true. auto. Qed.
  Lemma expands_lower n g c : expands (S n) g c -> expands n g c.
  Proof.
    intros H i. destruct (H i) as [C HC]. exists (Rabs C + Rabs (c (S n) i)). generalize (near0_and _ _ HC (near0_small 1 ltac:(lra))). apply near0_impl. intros h [A B].
    rewrite taylor_S in A. replace (g h i - taylor n c h i) with ((g h i - (taylor n c h i + c (S n) i * h ^ S n)) + c (S n) i * h ^ S n) by ring.
    eapply Rle_trans; [apply Rabs_triang|]. rewrite Rabs_mult, <- RPow_abs, Rmult_plus_distr_r. apply Rplus_le_compat_r.
    eapply Rle_trans; [exact A|]. change (Rabs h ^ S (S n)) with (Rabs h * Rabs h ^ S n).
    pose proof (pow_le (Rabs h) (S n) (Rabs_pos h)). pose proof (Rabs_pos h). pose proof (Rle_abs C).
    replace (C * (Rabs h * Rabs h ^ S n)) with (C * Rabs h * Rabs h ^ S n) by ring. apply Rmult_le_compat_r; [assumption|].
    apply Rle_trans with (Rabs C * Rabs h); [apply Rmult_le_compat_r; assumption|]. rewrite <- (Rmult_1_r (Rabs C)) at 2. apply Rmult_le_compat_l; [apply Rabs_pos|lra].
  Qed.
  Lemma expands_le m n g c : (m <= n)%nat -> expands n g c -> expands m g c.
  Proof. induction 1; auto using expands_lower. Qed.
  Lemma expands_0_bounded g c : expands 0 g c -> bounded g.
  Proof.
    intros H i. destruct (H i) as [C HC]. exists (Rabs C + Rabs (c 0%nat i)). generalize (near0_and _ _ HC (near0_small 1 ltac:(lra))). apply near0_impl. intros h [A B].
    unfold taylor in A. cbn [gsum pow] in A. rewrite !Rmult_1_r, Rplus_0_l in A.
    replace (g h i) with ((g h i - c 0%nat i) + c 0%nat i) by ring. eapply Rle_trans; [apply Rabs_triang|]. apply Rplus_le_compat_r.
    eapply Rle_trans; [exact A|]. apply Rle_trans with (Rabs C * Rabs h); [apply Rmult_le_compat_r; [apply Rabs_pos|apply Rle_abs]|].
    rewrite <- (Rmult_1_r (Rabs C)) at 2. apply Rmult_le_compat_l; [apply Rabs_pos|lra].
  Qed.
  Lemma expands_add n g g' c c' : expands n g c -> expands n g' c' -> expands n (fun h => vadd I (g h) (g' h)) (fun k => vadd I (c k) (c' k)).
  Proof.
    intros H H' i. destruct (H i) as [C HC]. destruct (H' i) as [C' HC']. exists (C + C'). generalize (near0_and _ _ HC HC'). apply near0_impl. intros h [A B].
    unfold vadd. assert (taylor n (fun k i => c k i + c' k i) h i = taylor n c h i + taylor n c' h i) as ->.
    { unfold taylor. rewrite <- gsum_add. apply gsum_ext_R. intros; ring. }
    replace (_ - _) with ((g h i - taylor n c h i) + (g' h i - taylor n c' h i)) by ring. eapply Rle_trans; [apply Rabs_triang|]. rewrite Rmult_plus_distr_r. lra.
  Qed.
  Lemma expands_scal n a g c : expands n g c -> expands n (fun h => vscal I a (g h)) (fun k => vscal I a (c k)).
  Proof.
    intros H i. destruct (H i) as [C HC]. exists (Rabs a * C). generalize HC. apply near0_impl. intros h A. unfold vscal.
    assert (taylor n (fun k i => a * c k i) h i = a * taylor n c h i) as -> by (unfold taylor; rewrite <- gsum_scal; apply gsum_ext_R; intros; ring).
    rewrite <- Rmult_minus_distr_l, Rabs_mult, Rmult_assoc. apply Rmult_le_compat_l; [apply Rabs_pos|exact A].
  Qed.
  Definition cconst (u : vec) (k : nat) : vec := match k with O => u | S _ => vzero I end.
  Lemma expands_const n u : expands n (fun _ => u) (cconst u).
  Proof.
    intros i. exists 0. apply near0_true. intros h. assert (taylor n (cconst u) h i = u i) as ->.
    { induction n as [|n IH]; [unfold taylor; cbn; ring|]. rewrite taylor_S, IH. cbn. unfold vzero. ring. }
    rewrite Rminus_diag_eq, Rabs_R0 by reflexivity. lra.
  Qed.
  Definition cshift (c : nat -> vec) (k : nat) : vec := match k with O => vzero I | S k => c k end.
  Lemma taylor_shift n c h i : taylor (S n) (cshift c) h i = h * taylor n c h i.
  Proof.
    induction n as [|n IH]; [unfold taylor; cbn; unfold vzero; ring|]. rewrite taylor_S, IH, taylor_S. cbn [cshift pow]. ring.
  Qed.
  Lemma expands_hmul n g c : expands n g c -> expands (S n) (fun h => vscal I h (g h)) (cshift c).
  Proof.
    intros H i. destruct (H i) as [C HC]. exists C. generalize HC. apply near0_impl. intros h A. rewrite taylor_shift. unfold vscal.
    rewrite <- Rmult_minus_distr_l, Rabs_mult. change (Rabs h ^ S (S n)) with (Rabs h * Rabs h ^ S n). rewrite <- Rmult_assoc, (Rmult_comm C), Rmult_assoc.
    apply Rmult_le_compat_l; [apply Rabs_pos|exact A].
  Qed.
  Lemma bounded_hmul g : bounded g -> expands 0 (fun h => vscal I h (g h)) (fun _ => vzero I).
  Proof.
    intros H i. destruct (H i) as [C HC]. exists C. generalize HC. apply near0_impl. intros h A. unfold taylor, vzero, vscal. cbn [gsum pow].
    replace (h * g h i - (0 + 0 * 1)) with (h * g h i) by ring. rewrite Rabs_mult, Rmult_1_r, Rmult_comm. apply Rmult_le_compat_r; [apply Rabs_pos|exact A].
  Qed.
  (** two functions with the same expansion differ by O(h^(n+1)) *)
  Lemma expands_close n g g' c : expands n g c -> expands n g' c -> forall i, exists C, near0 (fun h => Rabs (g h i - g' h i) <= C * Rabs h ^ S n).
  Proof.
    intros H H' i. destruct (H i) as [C HC]. destruct (H' i) as [C' HC']. exists (C + C'). generalize (near0_and _ _ HC HC'). apply near0_impl. intros h [A B].
    replace (g h i - g' h i) with ((g h i - taylor n c h i) - (g' h i - taylor n c h i)) by ring.
    eapply Rle_trans; [apply Rabs_triang|]. rewrite Rabs_Ropp, Rmult_plus_distr_r. lra.
  Qed.

  (** ** integration *)
  Definition cint (u0 : vec) (c : nat -> vec) (k : nat) : vec := match k with O => u0 | S k => vscal I (/ INR (S k)) (c k) end.
  Lemma taylor_int_deriv n u0 c i h : derivable_pt_lim (fun h => taylor (S n) (cint u0 c) h i) h (taylor n c h i).
  Proof.
    induction n as [|n IH].
    - unfold taylor. cbn [gsum cint]. unfold vscal. replace (0 + c 0%nat i * h ^ 0) with (0 + (/ INR 1 * c 0%nat i) * (INR 1 * h ^ 0)) by (cbn; field).
      apply (derivable_pt_lim_plus (fun h => 0 + u0 i * h ^ 0) (fun h => / INR 1 * c 0%nat i * h ^ 1)).
      + cbn [pow]. apply (derivable_pt_lim_const (0 + u0 i * 1)).
      + apply derivable_pt_lim_scal. apply (derivable_pt_lim_pow h 1).
    - replace (taylor (S n) c h i) with (taylor n c h i + (/ INR (S (S n)) * c (S n) i) * (INR (S (S n)) * h ^ S n)).
      + apply (derivable_pt_lim_plus (fun h => taylor (S n) (cint u0 c) h i) (fun h => / INR (S (S n)) * c (S n) i * h ^ S (S n))); [exact IH|].
        apply derivable_pt_lim_scal. apply (derivable_pt_lim_pow h (S (S n))).
      + rewrite taylor_S. field. apply not_0_INR. lia.
  Qed.
  Lemma small_integral (f : R -> R) (f' : R -> R) C d n : 0 < d -> 0 <= C -> f 0 = 0 -> (forall h, Rabs h < d -> derivable_pt_lim f h (f' h)) ->
    (forall h, Rabs h < d -> Rabs (f' h) <= C * Rabs h ^ n) -> forall h, Rabs h < d -> Rabs (f h) <= C * Rabs h ^ S n.
  Proof.
    intros Hd HC F0 HD HB h Hh.
    assert (forall a b, a < b -> (forall x, a <= x <= b -> Rabs x < d) -> exists x, a <= x <= b /\ f b - f a = f' x * (b - a)) as MV.
    { intros a b Hab Hin. destruct (MVT_cor2 f f' a b Hab) as (x & E & Hx); [intros c Hc; apply HD, Hin; exact Hc|]. exists x. split; [lra|exact E]. }
    destruct (Rtotal_order h 0) as [H|[H|H]].
    - destruct (MV h 0 H) as (x & Hx & E); [intros x Hx; rewrite Rabs_left1 in * by lra; lra|].
      assert (f h = f' x * h) as -> by lra. rewrite Rabs_mult. change (Rabs h ^ S n) with (Rabs h * Rabs h ^ n).
      assert (Rabs x <= Rabs h) as Hle by (rewrite !Rabs_left1 by lra; lra). assert (Rabs x < d) by lra. specialize (HB x ltac:(lra)).
      pose proof (pow_incr (Rabs x) (Rabs h) n (conj (Rabs_pos x) Hle)) as P. rewrite (Rmult_comm (Rabs h)), <- Rmult_assoc. apply Rmult_le_compat_r; [apply Rabs_pos|].
      eapply Rle_trans; [exact HB|]. apply Rmult_le_compat_l; assumption.
    - subst h. rewrite F0, Rabs_R0. rewrite pow_i by lia. lra.
    - destruct (MV 0 h H) as (x & Hx & E); [intros x Hx; rewrite Rabs_right in * by lra; lra|].
      assert (f h = f' x * h) as -> by lra. rewrite Rabs_mult. change (Rabs h ^ S n) with (Rabs h * Rabs h ^ n).
      assert (Rabs x <= Rabs h) as Hle by (rewrite !Rabs_right by lra; lra). assert (Rabs x < d) by lra. specialize (HB x ltac:(lra)).
      pose proof (pow_incr (Rabs x) (Rabs h) n (conj (Rabs_pos x) Hle)) as P. rewrite (Rmult_comm (Rabs h)), <- Rmult_assoc. apply Rmult_le_compat_r; [apply Rabs_pos|].
      eapply Rle_trans; [exact HB|]. apply Rmult_le_compat_l; assumption.
  Qed.
  Lemma expands_int n (y g : R -> vec) c : (forall i, near0 (fun h => derivable_pt_lim (fun h => y h i) h (g h i))) ->
    expands n g c -> expands (S n) y (cint (y 0) c).
  Proof.
    intros HD H i. destruct (HD i) as (d1 & Hd1 & D1). destruct (H i) as [C (d2 & Hd2 & D2)].
    exists (Rabs C), (Rmin d1 d2). split; [apply Rmin_glb_lt; auto|]. intros h Hh.
    apply (small_integral (fun h => y h i - taylor (S n) (cint (y 0) c) h i) (fun h => g h i - taylor n c h i) (Rabs C) (Rmin d1 d2) (S n)); auto.
    - apply Rmin_glb_lt; auto.
    - apply Rabs_pos.
    - assert (forall m c, taylor m c 0 i = c 0%nat i) as E0.
      { clear. induction m as [|m IH]; intros c; [unfold taylor; cbn; ring|]. rewrite taylor_S, IH, pow_i by lia. ring. }
      rewrite E0. cbn. ring.
    - intros x Hx. apply derivable_pt_lim_minus; [apply D1; eapply Rlt_le_trans; [exact Hx|apply Rmin_l]|apply taylor_int_deriv].
    - intros x Hx. eapply Rle_trans; [apply D2; eapply Rlt_le_trans; [exact Hx|apply Rmin_r]|]. apply Rmult_le_compat_r; [apply pow_le, Rabs_pos|apply Rle_abs].
  Qed.
  Lemma expands_derivable (y g : R -> vec) : (forall i, near0 (fun h => derivable_pt_lim (fun h => y h i) h (g h i))) -> expands 0 y (cconst (y 0)).
  Proof.
    intros HD i. destruct (HD i) as (d1 & Hd1 & D1). specialize (D1 0 ltac:(rewrite Rabs_R0; exact Hd1)).
    destruct (D1 1 Rlt_0_1) as [d Hd]. exists (Rabs (g 0 i) + 1), d. split; [apply cond_pos|]. intros h Hh.
    unfold taylor. cbn [gsum cconst pow]. replace (y h i - (0 + y 0 i * 1)) with (y h i - y 0 i) by ring. rewrite Rmult_1_r.
    destruct (Req_dec h 0) as [->|N]; [rewrite Rminus_diag_eq, !Rabs_R0 by reflexivity; lra|].
    specialize (Hd h N Hh). rewrite Rplus_0_l in Hd.
    replace (y h i - y 0 i) with (((y h i - y 0 i) / h - g 0 i) * h + g 0 i * h) by (field; exact N).
    eapply Rle_trans; [apply Rabs_triang|]. rewrite !Rabs_mult, <- Rmult_plus_distr_r. apply Rmult_le_compat_r; [apply Rabs_pos|]. lra.
  Qed.
End Expansions.
