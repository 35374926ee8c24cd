(** BiharmonicProofs3.v -- the entries of the biharmonic matrices, and the two halves together. *)
From Coq Require Import Reals ZArith List Arith Bool Lia Lra.
From Verif Require Import Base Fld SparseModel SparseSpec SparseProofs RPoly StencilModel StencilModel2 LegMatrixModel LegMatrixProofs5 LegMatrixProofs6
  ChebMatrixModel ChebMatrixProofs2 HelmholtzModel HelmholtzSpec HelmholtzProofs HelmholtzProofs3 HelmholtzProofs4 BiharmonicModel BiharmonicProofs BiharmonicProofs2.
Import ListNotations.
Local Open Scope R_scope.

Lemma S_entry N K J : (K < N - 4)%nat -> (J < N - 4)%nat ->
  mat_entry RFld (c_SSBSB N) K J
  = if Nat.eqb J K then PI * 8 * (INR K + 1) ^ 2 * (INR K + 2) * (INR K + 4)
    else if (Nat.leb K J && Nat.even (J - K))%bool then 8 * (INR K + 1) * (INR K + 2) * (INR K * (INR K + 4) + 3 * (INR J + 2) ^ 2) * PI / (INR J + 3) else 0.
Proof.
  intros HK HJ. unfold c_SSBSB. rewrite fromkeys_entry. cbv zeta.
  destruct (Nat.eqb_spec J K) as [->|Hne].
  - rewrite Z.sub_diag. replace (0 <? Z.of_nat N - 4)%Z with true by (symmetry; apply Z.ltb_lt; lia).
    cbn [andb Z.leb Z.even Z.sub Z.compare Z.eqb]. rewrite Nat.min_id. reflexivity.
  - destruct (Z.leb_spec 0 (Z.of_nat J - Z.of_nat K)); cbn [andb].
    + replace (Z.of_nat J - Z.of_nat K <? Z.of_nat N - 4)%Z with true by (symmetry; apply Z.ltb_lt; lia). cbn [andb].
      rewrite zeven_nat by lia. replace (Nat.leb K J) with true by (symmetry; apply Nat.leb_le; lia). cbn [andb].
      destruct (Nat.even (J - K)); [|reflexivity]. destruct (Z.eqb_spec (Z.of_nat J - Z.of_nat K) 0); [lia|].
      rewrite Nat.min_l by lia. cbn [dget arr]. replace (K + Z.to_nat (Z.of_nat J - Z.of_nat K))%nat with J by lia. reflexivity.
    + replace (Nat.leb K J) with false by (symmetry; apply Nat.leb_gt; lia). reflexivity.
Qed.

Ltac eq_cases := repeat match goal with
  | |- context [Z.eq_dec ?a ?b] => destruct (Z.eq_dec a b); try lia
  | |- context [Nat.eqb ?x ?y] => destruct (Nat.eqb_spec x y); try lia
  end.

Lemma A3_entry N K J : (K < N - 4)%nat -> (J < N - 4)%nat ->
  mat_entry RFld (c_ASBSB N) K J
  = if Nat.eqb J K then -4 * ((INR K + 1) * (INR K + 2) ^ 2) / (INR K + 3) * PI
    else if Nat.eqb J (K + 2) then 2 * (INR K + 1) * (INR K + 2) * PI
    else if Nat.eqb (J + 2) K then 2 * (INR (J + 2) - 1) * (INR (J + 2) + 2) * PI else 0.
Proof.
  intros HK HJ. unfold c_ASBSB, mat_entry, dmat. cbn [sm_items sm_scale lookup].
  eq_cases; rn; try ring; rewrite ?Nat.min_r, ?Nat.min_l by lia; cbn [dget arr]; try (replace K with J by lia); ring.
Qed.
Section Bm.
  Variable h : nat -> R.
  Definition bs2 (i : nat) : R := - (2 * INR i + 4) / (INR i + 3).
  Definition bs4 (i : nat) : R := (INR i + 1) / (INR i + 3).
  Definition bd0 i := h i + h (i + 2)%nat * bs2 i ^ 2 + h (i + 4)%nat * bs4 i ^ 2.
  Definition bd2 i := h (i + 2)%nat * bs2 i + h (i + 4)%nat * bs4 i * bs2 (i + 2)%nat.
  Definition bd4 i := h (i + 4)%nat * bs4 i.
  Lemma B5_entry N K J : (K < N - 4)%nat -> (J < N - 4)%nat ->
    mat_entry RFld (c_BSBSB h N) K J
    = if Nat.eqb J K then bd0 K
      else if Nat.eqb J (K + 2) then bd2 K else if Nat.eqb J (K + 4) then bd4 K
      else if Nat.eqb (J + 2) K then bd2 J else if Nat.eqb (J + 4) K then bd4 J else 0.
  Proof.
    intros HK HJ. unfold c_BSBSB, mat_entry, dmat. cbn [sm_items sm_scale lookup].
    eq_cases; rn; try ring; rewrite ?Nat.min_r, ?Nat.min_l by lia; cbn [dget arr]; unfold bd0, bd2, bd4, bs2, bs4; try (replace K with J by lia); ring.
  Qed.
End Bm.

Lemma INR2 k o : INR (2 * k + o) = 2 * INR k + INR o.
Proof. rewrite plus_INR, mult_INR. change (INR 2) with 2. reflexivity. Qed.

Section Full.
  Variables (N : nat) (h : nat -> R) (ds da db : R).
  Let S := scaled ds (c_SSBSB N).
  Let A := scaled da (c_ASBSB N).
  Let B := scaled db (c_BSBSB h N).
  Definition bD : bdiags :=
    mkB (fun i => PI * 8 * (INR i + 1) ^ 2 * (INR i + 2) * (INR i + 4) * ds)
        (fun i => 8 * (INR i + 1) * (INR i + 2) * (INR i * (INR i + 4) + 3 * (INR (i + 2) + 2) ^ 2) * PI / (INR (i + 2) + 3) * ds)
        (fun i => 8 * (INR i + 1) * (INR i + 2) * (INR i * (INR i + 4) + 3 * (INR (i + 4) + 2) ^ 2) * PI / (INR (i + 4) + 3) * ds)
        (fun i => 2 * (INR (i + 2) - 1) * (INR (i + 2) + 2) * PI * da)
        (fun i => -4 * ((INR i + 1) * (INR i + 2) ^ 2) / (INR i + 3) * PI * da)
        (fun i => 2 * (INR i + 1) * (INR i + 2) * PI * da)
        (fun i => bd4 h i * db) (fun i => bd2 h i * db) (fun i => bd0 h i * db) (fun i => bd2 h i * db) (fun i => bd4 h i * db).
  Lemma b_keys : (9 <= N)%nat -> bh_keys S A B = Some bD.
  Proof.
    intros HN. unfold bh_keys, S, c_SSBSB. rewrite !key_fromkeys by (apply zin; [lia|reflexivity]). reflexivity.
  Qed.
  Lemma b_rows : sm_rows RFld S = (N - 4)%nat.
  Proof. reflexivity. Qed.

  (** a row of the combination; the far entries of S must not be scaled *)
  Lemma b_row a b c o k j : (o < 2)%nat -> (2 * k + o < N - 4)%nat -> (2 * j + o < N - 4)%nat -> (ds = 1 \/ (j < k + 3)%nat) ->
    a * mat_entry RFld S (2 * k + o) (2 * j + o) + b * mat_entry RFld A (2 * k + o) (2 * j + o) + c * mat_entry RFld B (2 * k + o) (2 * j + o)
    = Hb o a b c bD k j.
  Proof.
    intros Ho HK HJ Hs. unfold S, A, B. rewrite !scaled_entry. rewrite S_entry, A3_entry, B5_entry by assumption.
    unfold Hb, half, bD. cbn [sii siu siuu ail aii aiu bill bil bii biu biuu].
    destruct (Nat.eqb_spec j k) as [->|N0].
    { rewrite Nat.eqb_refl. ring. }
    destruct (Nat.eqb_spec (2 * j + o) (2 * k + o)); [lia|].
    destruct (Nat.eqb_spec j (k + 1)) as [->|N1].
    { destruct (Nat.eqb_spec (2 * (k + 1) + o) (2 * k + o + 2)); [|lia].
      replace (Nat.leb (2 * k + o) (2 * (k + 1) + o)) with true by (symmetry; apply Nat.leb_le; lia).
      replace (2 * (k + 1) + o - (2 * k + o))%nat with 2%nat by lia. cbn [Nat.even andb].
      replace (2 * (k + 1) + o)%nat with (2 * k + o + 2)%nat by lia. ring. }
    destruct (Nat.eqb_spec (2 * j + o) (2 * k + o + 2)); [lia|].
    destruct (Nat.eqb_spec j (k + 2)) as [->|N2].
    { destruct (Nat.eqb_spec (2 * (k + 2) + o) (2 * k + o + 4)); [|lia].
      destruct (Nat.eqb_spec (2 * (k + 2) + o + 2) (2 * k + o)); [lia|].
      replace (Nat.leb (2 * k + o) (2 * (k + 2) + o)) with true by (symmetry; apply Nat.leb_le; lia).
      replace (2 * (k + 2) + o - (2 * k + o))%nat with 4%nat by lia. cbn [Nat.even andb].
      replace (2 * (k + 2) + o)%nat with (2 * k + o + 4)%nat by lia. ring. }
    destruct (Nat.eqb_spec (2 * j + o) (2 * k + o + 4)); [lia|].
    destruct (Nat.leb_spec (k + 3) j) as [H3|H3].
    { destruct Hs as [Hs|Hs]; [|lia].
      destruct (Nat.eqb_spec (2 * j + o + 2) (2 * k + o)); [lia|]. destruct (Nat.eqb_spec (2 * j + o + 4) (2 * k + o)); [lia|].
      replace (Nat.leb (2 * k + o) (2 * j + o)) with true by (symmetry; apply Nat.leb_le; lia).
      replace (2 * j + o - (2 * k + o))%nat with (2 * (j - k))%nat by lia. rewrite Nat.even_mul. cbn [Nat.even orb andb].
      unfold far. rewrite Hs. unfold Rdiv. ring. }
    replace (Nat.leb (2 * k + o) (2 * j + o)) with false by (symmetry; apply Nat.leb_gt; lia). cbn [andb].
    destruct (Nat.eqb_spec (j + 1) k) as [E1|M1].
    { destruct (Nat.eqb_spec (2 * j + o + 2) (2 * k + o)); [|lia]. ring. }
    destruct (Nat.eqb_spec (2 * j + o + 2) (2 * k + o)); [lia|].
    destruct (Nat.eqb_spec (j + 2) k) as [E2|M2].
    { destruct (Nat.eqb_spec (2 * j + o + 4) (2 * k + o)); [|lia]. ring. }
    destruct (Nat.eqb_spec (2 * j + o + 4) (2 * k + o)); [lia|]. ring.
  Qed.
  Lemma b_row_other a b c K J : (K < N - 4)%nat -> (J < N - 4)%nat -> Nat.even K <> Nat.even J ->
    a * mat_entry RFld S K J + b * mat_entry RFld A K J + c * mat_entry RFld B K J = 0.
  Proof.
    intros HK HJ Hne. unfold S, A, B. rewrite !scaled_entry. rewrite S_entry, A3_entry, B5_entry by assumption.
    assert (H2 : forall x, Nat.even (x + 2) = Nat.even x) by (intros x; rewrite Nat.even_add; destruct (Nat.even x); reflexivity).
    assert (H4 : forall x, Nat.even (x + 4) = Nat.even x) by (intros x; rewrite Nat.even_add; destruct (Nat.even x); reflexivity).
    destruct (Nat.eqb_spec J K) as [->|]; [congruence|].
    destruct (Nat.eqb_spec J (K + 2)) as [->|]; [rewrite H2 in Hne; congruence|].
    destruct (Nat.eqb_spec J (K + 4)) as [->|]; [rewrite H4 in Hne; congruence|].
    destruct (Nat.eqb_spec (J + 2) K) as [<-|]; [rewrite H2 in Hne; congruence|].
    destruct (Nat.eqb_spec (J + 4) K) as [<-|]; [rewrite H4 in Hne; congruence|].
    destruct (Nat.leb_spec K J); cbn [andb].
    - replace (Nat.even (J - K)) with false; [ring|]. symmetry.
      rewrite Nat.even_sub by lia. destruct (Nat.even J), (Nat.even K); reflexivity || congruence.
    - ring.
  Qed.
End Full.

Lemma rsum_halves M f : rsum (2 * M) f = rsum M (fun j => f (2 * j)%nat) + rsum M (fun j => f (2 * j + 1)%nat).
Proof.
  induction M as [|M IH]; [cbn; ring|]. replace (2 * S M)%nat with (S (S (2 * M))) by lia.
  change (rsum (S (S (2 * M))) f) with (rsum (2 * M) f + f (2 * M)%nat + f (S (2 * M))). rewrite IH.
  change (rsum (S M) (fun j => f (2 * j)%nat)) with (rsum M (fun j => f (2 * j)%nat) + f (2 * M)%nat).
  change (rsum (S M) (fun j => f (2 * j + 1)%nat)) with (rsum M (fun j => f (2 * j + 1)%nat) + f (2 * M + 1)%nat).
  replace (S (2 * M)) with (2 * M + 1)%nat by lia. ring.
Qed.

Lemma pivots_ok_spec M u0 : pivots_ok M u0 = true -> forall k, (k < M)%nat -> u0 k <> 0.
Proof.
  unfold pivots_ok. rewrite forallb_forall. intros H k Hk E. specialize (H k). rewrite in_seq in H.
  destruct (Req_EM_T (u0 k) 0) as [_|Hne]; [|contradiction]. discriminate H. lia.
Qed.
Lemma pivots_ok_true M u0 : (forall k, (k < M)%nat -> u0 k <> 0) -> pivots_ok M u0 = true.
Proof.
  intros H. unfold pivots_ok. apply forallb_forall. intros k Hk. apply in_seq in Hk. destruct (Req_EM_T (u0 k) 0) as [E|]; [|reflexivity].
  exfalso. exact (H k ltac:(lia) E).
Qed.

Lemma bh_half_ok n odd a b c D f u r : (odd < 2)%nat -> Nat.even n = true -> bh_half n odd a b c D f u = Some r ->
  forall k, (k < n / 2)%nat -> rsum (n / 2) (fun j => Hb odd a b c D k j * r j) = f (2 * k + odd)%nat.
Proof.
  intros Ho Hn E k Hk. apply Nat.even_spec in Hn. destruct Hn as [m ->].
  assert (E1 : (2 * m / 2 = m)%nat) by (rewrite Nat.mul_comm; apply Nat.div_mul; lia).
  assert (E2 : ((2 * m + 1) / 2 = m)%nat) by (rewrite Nat.mul_comm, Nat.add_comm, Nat.div_add by lia; reflexivity).
  unfold bh_half in E. rewrite E2 in E.
  replace ((2 * m + 1 - odd) / 2)%nat with m in E by (assert (Hc : (odd = 0 \/ odd = 1)%nat) by lia; destruct Hc as [-> | ->]; [rewrite Nat.sub_0_r; auto|replace (2 * m + 1 - 1)%nat with (2 * m)%nat by lia; auto]).
  rewrite E1 in *. destruct (Nat.ltb_spec m 5); [discriminate|].
  destruct (pivots_ok m (v0 (bh_lu m odd a b c D))) eqn:Ep; [|discriminate].
  pose proof (half_solved m odd a b c D (half odd f) (half odd u) ltac:(lia) (pivots_ok_spec _ _ Ep)) as H'.
  destruct (bh_factor m odd _ _) as [x y]. injection E as <-. apply H'. exact Hk.
Qed.

(** the whole system, for an even number of unknowns *)
Lemma biharmonic_ok N h da db a b c f u0 u : (9 <= N)%nat -> Nat.even N = true ->
  let S := scaled 1 (c_SSBSB N) in let A := scaled da (c_ASBSB N) in let B := scaled db (c_BSBSB h N) in
  biharmonic6 S A B a b c f u0 = Some u ->
  solves (N - 4) (fun k j => a * mat_entry RFld S k j + b * mat_entry RFld A k j + c * mat_entry RFld B k j) f u.
Proof.
  intros HN He S A B E. unfold biharmonic6 in E. unfold S, A, B in E. rewrite b_keys in E by lia. rewrite b_rows in E.
  assert (Hn : Nat.even (N - 4) = true) by (rewrite Nat.even_sub, He by lia; reflexivity).
  destruct (bh_half (N - 4) 0 a b c _ f u0) as [e|] eqn:Ee; [|discriminate].
  destruct (bh_half (N - 4) 1 a b c _ f u0) as [o|] eqn:Eo; [|discriminate].
  pose proof (fun p => bh_half_ok _ _ _ _ _ _ _ _ _ p Hn Ee) as He'. specialize (He' ltac:(lia)). pose proof (fun p => bh_half_ok _ _ _ _ _ _ _ _ _ p Hn Eo) as Ho'. specialize (Ho' ltac:(lia)).
  apply Nat.even_spec in Hn. destruct Hn as [m Em]. rewrite Em in *.
  assert (E1 : (2 * m / 2 = m)%nat) by (rewrite Nat.mul_comm; apply Nat.div_mul; lia).
  assert (E2 : forall x, ((2 * x + 1) / 2 = x)%nat) by (intros x; rewrite Nat.mul_comm, Nat.add_comm, Nat.div_add by lia; reflexivity).
  assert (E3 : forall x, (2 * x / 2 = x)%nat) by (intros x; rewrite Nat.mul_comm; apply Nat.div_mul; lia).
  rewrite E1 in *. rewrite E2 in E. apply (f_equal (fun o => match o with Some x => x | None => u end)) in E; cbv beta iota in E; subst u.
  intros K HK. unfold row_solved. rewrite rsum_halves.
  assert (V0 : forall j, Nat.even (2 * j) = true) by (intros; rewrite Nat.even_mul; reflexivity).
  assert (V1 : forall j, Nat.even (2 * j + 1) = false) by (intros; rewrite Nat.even_add, V0; reflexivity).
  destruct (Nat.even K) eqn:Ek.
  - apply Nat.even_spec in Ek. destruct Ek as [k ->]. assert (Hk : (k < m)%nat) by lia.
    transitivity (rsum m (fun j => Hb 0 a b c (bD h 1 da db) k j * e j) + 0).
    + f_equal.
      * apply rsum_ext. intros j Hj. cbv beta. rewrite E3, V0. destruct (Nat.ltb_spec j m); [|lia]. f_equal.
        rewrite <- (b_row N h 1 da db a b c 0 k j) by (lia || auto). rewrite !Nat.add_0_r. reflexivity.
      * apply rsum_zero. intros j Hj. unfold S, A, B. rewrite b_row_other; [ring|lia|lia|]. rewrite ?V0, ?V1; discriminate.
    + rewrite Rplus_0_r, (He' k Hk). rewrite Nat.add_0_r. reflexivity.
  - assert (Ek' : Nat.odd K = true) by (unfold Nat.odd; rewrite Ek; reflexivity). apply Nat.odd_spec in Ek'. destruct Ek' as [k ->]. assert (Hk : (k < m)%nat) by lia.
    transitivity (0 + rsum m (fun j => Hb 1 a b c (bD h 1 da db) k j * o j)).
    + f_equal.
      * apply rsum_zero. intros j Hj. unfold S, A, B. rewrite b_row_other; [ring|lia|lia|]. rewrite ?V0, ?V1; discriminate.
      * apply rsum_ext. intros j Hj. cbv beta. rewrite E2, V1. destruct (Nat.ltb_spec j m); [|lia]. f_equal.
        rewrite <- (b_row N h 1 da db a b c 1 k j) by (lia || auto). reflexivity.
    + rewrite Rplus_0_l, (Ho' k Hk). reflexivity.
Qed.
