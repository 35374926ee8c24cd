(** BiharmonicProofs4.v -- when the biharmonic solver returns a solution at all, and when it does not. *)
From Coq Require Import Reals ZArith List Arith Bool Lia Lra.
From Verif Require Import Base Fld SparseModel SparseSpec SparseProofs RPoly StencilModel StencilModel2 LegMatrixModel LegMatrixProofs5 LegMatrixProofs6
  ChebMatrixModel ChebMatrixProofs2 HelmholtzModel HelmholtzSpec HelmholtzProofs HelmholtzProofs3 HelmholtzProofs4 BiharmonicModel BiharmonicProofs BiharmonicProofs2 BiharmonicProofs3.
Import ListNotations.
Local Open Scope R_scope.

(** upper triangular (only the fourth-order term): the pivots are the diagonal *)
Lemma pivots_S M odd a D : (5 <= M)%nat -> (forall k, (k < M)%nat -> a * half odd (sii D) k <> 0) ->
  forall k, (k < M)%nat -> v0 (bh_lu M odd a 0 0 D) k <> 0.
Proof.
  intros HM HD. destruct (lu_inv M odd a 0 0 D HM) as (U & U0 & U1 & L0 & L1 & V & _).
  set (s := bh_lu M odd a 0 0 D) in *.
  assert (Hl : forall r j, (j < r)%nat -> Hb odd a 0 0 D r j = 0).
  { intros r j Hj. unfold Hb. repeat (match goal with |- context [Nat.eqb ?x ?y] => destruct (Nat.eqb_spec x y) | |- context [Nat.leb ?x ?y] => destruct (Nat.leb_spec x y) end; try lia; try ring). }
  assert (Z1 : forall r, (2 <= r < M)%nat -> m1 s (r - 2)%nat = 0).
  { intros r Hr. rewrite L1 by lia. rewrite Hl by lia. unfold Rdiv. ring. }
  assert (Zl : forall r j, (r < M)%nat -> lower0 (m1 s) U r j = 0).
  { intros r j Hr. unfold lower0. destruct (Nat.leb_spec 2 r); [|reflexivity]. rewrite Z1 by lia. ring. }
  assert (Z0 : forall r, (1 <= r < M)%nat -> m0 s (r - 1)%nat = 0).
  { intros r Hr. rewrite L0 by lia. rewrite Hl by lia. rewrite Zl by lia. unfold Rdiv. ring. }
  intros k Hk. destruct (V k Hk) as (-> & _).
  replace (U k k) with (Hb odd a 0 0 D k k).
  - unfold Hb. rewrite Nat.eqb_refl. specialize (HD k Hk). intros E. apply HD. rewrite <- E. ring.
  - destruct k; [symmetry; apply U0; lia|]. rewrite U1 by lia. rewrite Z0, Zl by lia. ring.
Qed.
Lemma half_exists n odd a D f u : (odd < 2)%nat -> Nat.even n = true -> (10 <= n)%nat ->
  (forall k, a * sii D k <> 0) -> exists r, bh_half n odd a 0 0 D f u = Some r.
Proof.
  intros Ho Hn H10 HD. apply Nat.even_spec in Hn. destruct Hn as [m ->].
  assert (E1 : (2 * m / 2 = m)%nat) by (rewrite Nat.mul_comm; apply Nat.div_mul; lia).
  assert (E2 : ((2 * m + 1) / 2 = m)%nat) by (rewrite Nat.mul_comm, Nat.add_comm, Nat.div_add by lia; reflexivity).
  unfold bh_half. rewrite E2.
  replace ((2 * m + 1 - odd) / 2)%nat with m by (assert (Hc : (odd = 0 \/ odd = 1)%nat) by lia; destruct Hc as [-> | ->]; [rewrite Nat.sub_0_r; auto|replace (2 * m + 1 - 1)%nat with (2 * m)%nat by lia; auto]).
  destruct (Nat.ltb_spec m 5); [lia|].
  rewrite pivots_ok_true.
  - destruct (bh_factor m odd _ _). eexists; reflexivity.
  - apply pivots_S; [lia|]. intros k _. apply HD.
Qed.
Lemma bD_sii h ds da db a : ds <> 0 -> a <> 0 -> forall k, a * sii (bD h ds da db) k <> 0.
Proof.
  intros Hd Ha k. unfold bD. cbn [sii]. pose proof (pos_INR k). assert (HP : PI <> 0) by (pose proof PI_RGT_0; lra). revert HP. generalize PI. intros p HP.
  repeat apply Rmult_integral_contrapositive_currified; try assumption; try lra; try (apply pow_nonzero; lra).
Qed.
Lemma biharmonic_exists N h ds da db a f u0 : (14 <= N)%nat -> Nat.even N = true -> ds <> 0 -> a <> 0 ->
  exists u, biharmonic6 (scaled ds (c_SSBSB N)) (scaled da (c_ASBSB N)) (scaled db (c_BSBSB h N)) a 0 0 f u0 = Some u.
Proof.
  intros HN He Hd Ha. unfold biharmonic6. rewrite b_keys by lia. rewrite b_rows.
  assert (Hn : Nat.even (N - 4) = true) by (rewrite Nat.even_sub, He by lia; reflexivity).
  destruct (half_exists (N - 4) 0 a (bD h ds da db) f u0 ltac:(lia) Hn ltac:(lia) (bD_sii h ds da db a Hd Ha)) as [e ->].
  destruct (half_exists (N - 4) 1 a (bD h ds da db) f u0 ltac:(lia) Hn ltac:(lia) (bD_sii h ds da db a Hd Ha)) as [o ->].
  eexists; reflexivity.
Qed.

(** entries of u0 past the end of the half are never written *)
Lemma v0_unwritten M odd a b c D : (1 <= M)%nat -> v0 (bh_lu M odd a b c D) M = 0.
Proof.
  intros HM. unfold bh_lu.
  enough (H : forall k s, (1 <= k <= M)%nat -> v0 s M = 0 -> v0 (for_up (M - k) k (bh_step M odd a b c D) s) M = 0).
  { apply H; [lia|]. unfold bh_init. cbn [v0]. rewrite upd_other by lia. reflexivity. }
  intros k s Hk Hs. apply (for_up_inv (fun _ s => v0 s M = 0)); [exact Hs|].
  intros i t Hi IH. unfold bh_step. cbn [v0]. rewrite upd_other by lia. exact IH.
Qed.
Lemma half_odd_none m a b c D f u : bh_half (2 * m + 1) 1 a b c D f u = None.
Proof.
  unfold bh_half. replace ((2 * m + 1 + 1) / 2)%nat with (m + 1)%nat.
  2:{ replace (2 * m + 1 + 1)%nat with ((m + 1) * 2)%nat by lia. rewrite Nat.div_mul by lia. reflexivity. }
  replace ((2 * m + 1 + 1 - 1) / 2)%nat with m.
  2:{ replace (2 * m + 1 + 1 - 1)%nat with (1 + m * 2)%nat by lia. rewrite Nat.div_add by lia. reflexivity. }
  destruct (Nat.ltb_spec m 5); [reflexivity|].
  destruct (pivots_ok (m + 1) (v0 (bh_lu m 1 a b c D))) eqn:E; [|reflexivity]. exfalso.
  apply (pivots_ok_spec _ _ E m); [lia|]. apply v0_unwritten. lia.
Qed.

(** a domain factor other than 1: the entries of S more than two diagonals out are taken without it *)
Definition unit_at (i k : nat) : R := if Nat.eqb k i then 1 else 0.
Lemma biharmonic_domain N h ds : (14 <= N)%nat -> Nat.even N = true -> ds <> 0 -> ds <> 1 -> exists u,
  biharmonic6 (scaled ds (c_SSBSB N)) (scaled 1 (c_ASBSB N)) (scaled 1 (c_BSBSB h N)) 1 0 0 (unit_at (N - 6)) (fun _ => 0) = Some u
  /\ ~ solves (N - 4) (fun k j => mat_entry RFld (scaled ds (c_SSBSB N)) k j) (unit_at (N - 6)) u.
Proof.
  intros HN He H0 H1.
  assert (Hn : Nat.even (N - 4) = true) by (rewrite Nat.even_sub, He by lia; reflexivity).
  set (f := unit_at (N - 6)). unfold biharmonic6. rewrite b_keys by lia. rewrite b_rows. set (D := bD h ds 1 1).
  assert (HD : forall k, 1 * sii D k <> 0) by (apply bD_sii; [exact H0|lra]).
  destruct (half_exists (N - 4) 0 1 D f (fun _ => 0) ltac:(lia) Hn ltac:(lia) HD) as [e Ee].
  destruct (half_exists (N - 4) 1 1 D f (fun _ => 0) ltac:(lia) Hn ltac:(lia) HD) as [o Eo].
  rewrite Ee, Eo. eexists. split; [reflexivity|]. intros Hs.
  pose proof (fun p => bh_half_ok _ _ _ _ _ _ _ _ _ p Hn Ee) as Hv. specialize (Hv ltac:(lia)).
  apply Nat.even_spec in Hn. destruct Hn as [m Em]. rewrite Em in *.
  assert (E1 : (2 * m / 2 = m)%nat) by (rewrite Nat.mul_comm; apply Nat.div_mul; lia).
  assert (E2 : forall x, ((2 * x + 1) / 2 = x)%nat) by (intros x; rewrite Nat.mul_comm, Nat.add_comm, Nat.div_add by lia; reflexivity).
  assert (E3 : forall x, (2 * x / 2 = x)%nat) by (intros x; rewrite Nat.mul_comm; apply Nat.div_mul; lia).
  rewrite E1, E2 in *.
  assert (V0 : forall j, Nat.even (2 * j) = true) by (intros; rewrite Nat.even_mul; reflexivity).
  assert (V1 : forall j, Nat.even (2 * j + 1) = false) by (intros; rewrite Nat.even_add, V0; reflexivity).
  (* row m-4 of the even half, true and used *)
  specialize (Hs (2 * (m - 4))%nat ltac:(lia)). unfold row_solved in Hs. rewrite rsum_halves in Hs.
  rewrite (rsum_zero m (fun j => mat_entry RFld (scaled ds (c_SSBSB N)) (2 * (m - 4)) (2 * j + 1) * _)) in Hs.
  2:{ intros j Hj. pose proof (b_row_other N h ds 1 1 1 0 0 (2 * (m - 4)) (2 * j + 1)%nat ltac:(lia) ltac:(lia) ltac:(rewrite V0, V1; discriminate)) as Z.
      replace (mat_entry RFld (scaled ds (c_SSBSB N)) (2 * (m - 4)) (2 * j + 1)) with 0 by (rewrite <- Z at 1; ring). ring. }
  rewrite Rplus_0_r in Hs.
  assert (Hd : rsum m (fun j => (if Nat.eqb j (m - 1) then (ds - 1) * far 1 0 (m - 4) (m - 1) * e (m - 1)%nat else 0)) = 0).
  { pose proof (Hv (m - 4)%nat ltac:(lia)) as Hu. rewrite Nat.add_0_r in Hu.
    transitivity (f (2 * (m - 4))%nat - f (2 * (m - 4))%nat); [|ring]. rewrite <- Hs at 1. rewrite <- Hu.
    unfold Rminus. rewrite <- Ropp_mult_distr_l_reverse || idtac.
    assert (Hsub : forall n g g', rsum n g - rsum n g' = rsum n (fun j => g j - g' j)) by (induction n as [|n IH]; intros g g'; cbn; [ring|rewrite <- IH; ring]).
    fold (rsum m (fun j => mat_entry RFld (scaled ds (c_SSBSB N)) (2 * (m - 4)) (2 * j) * (if (2 * j / 2 <? m)%nat then if Nat.even (2 * j) then e (2 * j / 2)%nat else o (2 * j / 2)%nat else 0)) - rsum m (fun j => Hb 0 1 0 0 D (m - 4) j * e j)).
    rewrite Hsub. apply rsum_ext. intros j Hj. cbv beta. rewrite E3, V0. destruct (Nat.ltb_spec j m); [|lia].
    destruct (Nat.eqb_spec j (m - 1)) as [->|Hne].
    - rewrite !scaled_entry. rewrite S_entry by lia. unfold Hb.
      destruct (Nat.eqb_spec (2 * (m - 1)) (2 * (m - 4))); [lia|]. destruct (Nat.eqb_spec (m - 1) (m - 4)); [lia|].
      destruct (Nat.eqb_spec (m - 1) (m - 4 + 1)); [lia|]. destruct (Nat.eqb_spec (m - 1) (m - 4 + 2)); [lia|].
      destruct (Nat.leb_spec (m - 4 + 3) (m - 1)); [|lia].
      replace (Nat.leb (2 * (m - 4)) (2 * (m - 1))) with true by (symmetry; apply Nat.leb_le; lia).
      replace (2 * (m - 1) - 2 * (m - 4))%nat with (2 * 3)%nat by lia. rewrite V0. cbn [andb].
      unfold far. rewrite !Nat.add_0_r. unfold Rdiv. ring.
    - pose proof (b_row N h ds 1 1 1 0 0 0 (m - 4) j ltac:(lia) ltac:(lia) ltac:(lia) ltac:(right; lia)) as Z. rewrite !Nat.add_0_r in Z. fold D in Z.
      rewrite <- Z. ring. }
  rewrite rsum_one in Hd. replace (Nat.ltb (m - 1) m) with true in Hd by (symmetry; apply Nat.ltb_lt; lia).
  pose proof (Hv (m - 1)%nat ltac:(lia)) as Hl.
  rewrite (rsum_ext m _ (fun j => if Nat.eqb j (m - 1) then sii D (2 * (m - 1))%nat * e (m - 1)%nat else 0)) in Hl.
  2:{ intros j Hj. unfold Hb. destruct (Nat.eqb_spec j (m - 1)) as [->|Hne].
      - unfold half. rewrite Nat.add_0_r. ring.
      - repeat (match goal with |- context [Nat.eqb ?x ?y] => destruct (Nat.eqb_spec x y) | |- context [Nat.leb ?x ?y] => destruct (Nat.leb_spec x y) end; try lia; try ring). }
  rewrite rsum_one in Hl. replace (Nat.ltb (m - 1) m) with true in Hl by (symmetry; apply Nat.ltb_lt; lia). unfold f, unit_at in Hl.
  destruct (Nat.eqb_spec (2 * (m - 1) + 0) (N - 6)); [|lia].
  assert (He0 : e (m - 1)%nat <> 0) by (intros E; rewrite E in Hl; lra).
  revert Hd. apply Rmult_integral_contrapositive_currified; [|exact He0].
  apply Rmult_integral_contrapositive_currified; [lra|].
  apply Rgt_not_eq. unfold far. pose proof (pos_INR (2 * (m - 4) + 0)). pose proof (pos_INR (2 * (m - 1) + 0)). pose proof PI_RGT_0 as HP.
  apply Rdiv_lt_0_compat; [|lra]. revert HP. generalize PI. intros p Hp. repeat apply Rmult_lt_0_compat; try lra.
  enough (0 < 3 * (INR (2 * (m - 1) + 0) + 2) * (INR (2 * (m - 1) + 0) + 2) /\ 0 <= INR (2 * (m - 4) + 0) * (INR (2 * (m - 4) + 0) + 4)) by lra.
  split; [repeat apply Rmult_lt_0_compat; lra|apply Rmult_le_pos; lra].
Qed.
