From Coq Require Import Arith ZArith List Lia Bool QArith Qcanon Qcabs.
From Verif Require Import Base Fld SparseModel SparseSpec SparseProofs ExtractModel.
Import ListNotations.
Local Open Scope nat_scope.

Lemma qle_spec a b : qle a b = true <-> (a <= b)%Qc.
Proof.
  unfold qle. rewrite Qcle_alt. destruct (a ?= b)%Qc; split; intros H; try congruence; discriminate.
Qed.
Lemma qgt_spec a b : qgt a b = true <-> (b < a)%Qc.
Proof.
  unfold qgt, qle. destruct (Qcgt_alt a b) as [H1 H2]. unfold Qclt in *. split; intros H.
  - apply H2. destruct (a ?= b)%Qc; simpl in H; congruence.
  - rewrite (H1 H). reflexivity.
Qed.
Lemma qgt_false a b : qgt a b = false <-> (a <= b)%Qc.
Proof. unfold qgt. rewrite negb_false_iff. apply qle_spec. Qed.
Lemma qmax_l a b : (a <= qmax a b)%Qc.
Proof. unfold qmax. destruct (qle a b) eqn:E; [apply qle_spec; auto | apply Qcle_refl]. Qed.
Lemma qmax_r a b : (b <= qmax a b)%Qc.
Proof.
  unfold qmax. destruct (qle a b) eqn:E; [apply Qcle_refl|]. apply Qclt_le_weak. apply qgt_spec.
  unfold qgt. rewrite E. reflexivity.
Qed.
Lemma qmax_lub a b c : (a <= c)%Qc -> (b <= c)%Qc -> (qmax a b <= c)%Qc.
Proof. unfold qmax. destruct (qle a b); auto. Qed.
Lemma amax_ge n u t : t < n -> (Qcabs (u t) <= amax n u)%Qc.
Proof.
  induction n as [|n IH]; intros H; [lia|]. simpl. destruct (Nat.eq_dec t n) as [->|Hn]; [apply qmax_r|].
  eapply Qcle_trans; [apply IH; lia | apply qmax_l].
Qed.
Lemma amax_lub n u c : (0 <= c)%Qc -> (forall t, t < n -> (Qcabs (u t) <= c)%Qc) -> (amax n u <= c)%Qc.
Proof.
  induction n as [|n IH]; intros Hc H; simpl; auto. apply qmax_lub; [apply IH; auto | apply H; lia].
Qed.
Lemma amax2_ge r c M i j : i < r -> j < c -> (Qcabs (M i j) <= amax2 r c M)%Qc.
Proof.
  induction r as [|r IH]; intros Hi Hj; [lia|]. simpl. destruct (Nat.eq_dec i r) as [->|Hn].
  - eapply Qcle_trans; [apply (amax_ge c (M r) j Hj) | apply qmax_r].
  - eapply Qcle_trans; [apply IH; lia | apply qmax_l].
Qed.
Lemma amax2_lub r c M b : (0 <= b)%Qc -> (forall i j, i < r -> j < c -> (Qcabs (M i j) <= b)%Qc) -> (amax2 r c M <= b)%Qc.
Proof.
  induction r as [|r IH]; intros Hb H; simpl; auto. apply qmax_lub; [apply IH; auto | apply amax_lub; auto].
Qed.

(** position of an element on its diagonal *)
Lemma diagonal_at (M : nat -> nat -> Qc) i j :
  diagonal M (Z.of_nat j - Z.of_nat i) (Nat.min i j) = M i j.
Proof. unfold diagonal. f_equal; lia. Qed.
Lemma diag_len_at r c i j : i < r -> j < c -> Nat.min i j < diag_len r c (Z.of_nat j - Z.of_nat i).
Proof. unfold diag_len. lia. Qed.
Lemma diag_inv r c k t : t < diag_len r c k -> exists i j, i < r /\ j < c /\
  (Z.of_nat j - Z.of_nat i)%Z = k /\ forall M, diagonal M k t = M i j.
Proof.
  unfold diag_len. intros H.
  exists (Z.to_nat (Z.of_nat t - Z.min k 0)), (Z.to_nat (Z.of_nat t + Z.max k 0)).
  repeat split; try lia.
Qed.

Section E.
  Variables (r c : nat) (M : nat -> nat -> Qc) (lb ub : option nat) (abstol reltol : Qc).
  Let D := extract r c M lb ub abstol reltol.
  Definition in_band (k : Z) : Prop := (- Z.of_nat (lower r lb) <= k < Z.of_nat (upper c ub))%Z.

  Lemma keys_in k : In k (map fst (sm_items QcFld D)) <-> in_band k /\ keep r c M abstol reltol k = true.
  Proof.
    unfold D, extract. simpl. rewrite map_map. simpl. rewrite map_id, filter_In.
    rewrite in_map_iff. unfold in_band. split.
    - intros [(t & <- & H) H2]. apply in_seq in H. split; auto. lia.
    - intros [H1 H2]. split; auto. exists (Z.to_nat (k + Z.of_nat (lower r lb))). split; [lia|]. apply in_seq. lia.
  Qed.
  Lemma lookup_map_items (ks : list Z) (g : Z -> dval QcFld) k :
    lookup QcFld (map (fun k => (k, g k)) ks) k = if in_dec Z.eq_dec k ks then Some (g k) else None.
  Proof.
    induction ks as [|x ks IH]; cbn [map lookup]; [reflexivity|].
    destruct (Z.eq_dec x k) as [->|Hx].
    - destruct (in_dec Z.eq_dec k (k :: ks)) as [|n]; auto. exfalso; apply n; simpl; auto.
    - rewrite IH. destruct (in_dec Z.eq_dec k ks), (in_dec Z.eq_dec k (x :: ks)); auto.
      + exfalso. apply n. simpl. auto.
      + simpl in i. tauto.
  Qed.
  Lemma entry i j : mat_entry QcFld D i j =
    if in_dec Z.eq_dec (Z.of_nat j - Z.of_nat i)%Z (map fst (sm_items QcFld D)) then M i j else 0%Qc.
  Proof.
    unfold mat_entry, D, extract. cbn [sm_items sm_scale].
    rewrite (lookup_map_items _ (fun k => Arr QcFld (diag_len r c k) (diagonal M k))).
    rewrite map_map. simpl. rewrite map_id.
    destruct (in_dec _ _ _); auto. cbn [dget]. rewrite diagonal_at. apply Qcmult_1_r.
  Qed.
  Lemma extract_wf : 0 < r -> wf QcFld D.
  Proof.
    intros Hr0. split.
    - unfold D, extract. simpl. rewrite map_map. simpl. rewrite map_id. apply NoDup_filter.
      apply FinFun.Injective_map_NoDup; [intros x y H; lia | apply seq_NoDup].
    - apply Forall_forall. intros kv Hkv.
      assert (Hk : In (fst kv) (map fst (sm_items QcFld D))) by (apply in_map; auto).
      apply keys_in in Hk. destruct Hk as [Hk _]. unfold in_band, lower, upper in Hk.
      unfold D, extract in Hkv. simpl in Hkv. apply in_map_iff in Hkv. destruct Hkv as (k & <- & _). simpl in *.
      split; [|reflexivity].
      split; [destruct lb; lia | destruct ub; lia].
  Qed.
  Lemma dropped i j : i < r -> j < c -> in_band (Z.of_nat j - Z.of_nat i) -> (0 <= abstol)%Qc ->
    mat_entry QcFld D i j <> M i j ->
    forall i' j', i' < r -> j' < c -> (Z.of_nat j' - Z.of_nat i')%Z = (Z.of_nat j - Z.of_nat i)%Z ->
      (Qcabs (M i' j') <= abstol)%Qc \/ (Qcabs (M i' j') <= reltol * amax2 r c M)%Qc.
  Proof.
    intros Hi Hj Hb Hab Hne i' j' Hi' Hj' Ed. rewrite entry in Hne.
    destruct (in_dec _ _ _) as [|n]; [congruence|]. rewrite keys_in in n.
    assert (Ek : keep r c M abstol reltol (Z.of_nat j - Z.of_nat i) = false) by (destruct (keep _ _ _ _ _ _); auto; tauto).
    unfold keep in Ek. apply andb_false_iff in Ek.
    set (k := (Z.of_nat j - Z.of_nat i)%Z) in *.
    assert (Hle : (Qcabs (M i' j') <= amax (diag_len r c k) (diagonal M k))%Qc).
    { rewrite <- (diagonal_at M i' j'), Ed. apply amax_ge. rewrite <- Ed. apply diag_len_at; auto. }
    destruct Ek as [E|E]; apply qgt_false in E; [left | right]; eapply Qcle_trans; eauto.
    set (m := amax (diag_len r c k) (diagonal M k)) in *.
    assert (H0 : (0 <= amax2 r c M)%Qc) by (eapply Qcle_trans; [apply Qcabs_nonneg | apply (amax2_ge r c M i j Hi Hj)]).
    destruct (Qc_eq_dec (amax2 r c M) 0) as [Z|Z].
    - rewrite Z. rewrite Qcmult_0_r. unfold m. apply amax_lub; [apply Qcle_refl|].
      intros t Ht. destruct (diag_inv _ _ _ _ Ht) as (i1 & j1 & A1 & A2 & _ & A3). rewrite A3, <- Z. apply amax2_ge; auto.
    - apply (Qcmult_le_compat_r _ _ (amax2 r c M)) in E; auto. unfold Qcdiv in E.
      rewrite <- Qcmult_assoc, (Qcmult_comm (/ _)), Qcmult_inv_r, Qcmult_1_r in E by auto. exact E.
  Qed.
End E.
