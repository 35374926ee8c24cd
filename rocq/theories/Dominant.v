(** Dominant.v -- strictly diagonally dominant rational matrices satisfy the
    hypothesis [leading_nonsingular] of the solver theorems. *)
From Coq Require Import Arith ZArith List Bool Lia QArith Qcanon Qcabs.
From Verif Require Import Base Fld SolversSpec.
Local Open Scope nat_scope.

(** sum of |A i j| over j < n, j <> i, is smaller than |A i i| *)
Definition diag_dominant (n : nat) (A : nat -> nat -> QcFld) : Prop :=
  forall i, i < n ->
    (fsum (K := QcFld) n (fun j => if j =? i then f0 else Qcabs (A i j)) < Qcabs (A i i))%Qc.

Lemma argmax (f : nat -> Qc) k : 0 < k -> exists m, m < k /\ forall j, j < k -> (f j <= f m)%Qc.
Proof.
  induction k as [|k IH]; intros H; [lia|].
  destruct k as [|k].
  - exists 0. split; auto. intros j Hj. replace j with 0 by lia. apply Qcle_refl.
  - destruct IH as (m & Hm & Hmax); [lia|].
    destruct (Qclt_le_dec (f m) (f (S k))) as [Hlt|Hle].
    + exists (S k). split; [lia|]. intros j Hj.
      destruct (Nat.eq_dec j (S k)) as [->|]; [apply Qcle_refl|].
      apply Qcle_trans with (f m); [apply Hmax; lia|]. apply Qclt_le_weak; auto.
    + exists m. split; [lia|]. intros j Hj.
      destruct (Nat.eq_dec j (S k)) as [->|]; auto. apply Hmax; lia.
Qed.

Lemma fsum_abs_le (n : nat) (f g : nat -> QcFld) :
  (forall j, j < n -> (Qcabs (f j) <= g j)%Qc) -> (Qcabs (fsum n f) <= fsum n g)%Qc.
Proof.
  induction n as [|n IH]; intros H.
  - change (Qcabs (Q2Qc 0) <= Q2Qc 0)%Qc. rewrite Qcabs_pos; apply Qcle_refl.
  - rewrite !fsum_S. eapply Qcle_trans; [apply Qcabs_triangle|].
    apply Qcplus_le_compat; [apply IH; intros; apply H; lia | apply H; lia].
Qed.

Lemma fsum_le (n : nat) (f g : nat -> QcFld) :
  (forall j, j < n -> (f j <= g j)%Qc) -> (fsum n f <= fsum n g)%Qc.
Proof.
  induction n as [|n IH]; intros H.
  - apply Qcle_refl.
  - rewrite !fsum_S. apply Qcplus_le_compat; [apply IH; intros; apply H; lia | apply H; lia].
Qed.

Lemma fsum_split_at (n i : nat) (f : nat -> QcFld) : i < n ->
  fsum n f = fadd (f i) (fsum n (fun j => if j =? i then f0 else f j)).
Proof.
  intros Hi.
  rewrite (fsum_ext QcFld n f (fun j => fadd (if j =? i then f j else f0) (if j =? i then f0 else f j))).
  - rewrite fsum_add, fsum_delta. rewrite (proj2 (Nat.ltb_lt i n)) by lia. reflexivity.
  - intros j Hj. destruct (j =? i); simpl.
    + symmetry. apply Qcplus_0_r.
    + symmetry. apply Qcplus_0_l.
Qed.

Lemma qc_opp_of_sum (a s : Qc) : (a + s = 0 -> s = - a)%Qc.
Proof.
  intros H. assert (E : (s = - a + (a + s))%Qc) by ring.
  rewrite E, H. ring.
Qed.

Lemma dominant_sub n k A : k <= n -> diag_dominant n A -> diag_dominant k A.
Proof.
  intros Hk H i Hi. eapply Qcle_lt_trans; [|apply (H i); lia].
  replace n with (k + (n - k)) by lia. rewrite fsum_split.
  match goal with |- (?a <= _)%Qc => rewrite <- (Qcplus_0_r a) at 1 end.
  apply Qcplus_le_compat; [apply Qcle_refl|].
  replace (Q2Qc 0) with (fsum (K := QcFld) (n - k) (fun _ => f0)).
  - apply fsum_le. intros j Hj. destruct (k + j =? i); [apply Qcle_refl | apply Qcabs_nonneg].
  - apply fsum_zero. reflexivity.
Qed.

Lemma dominant_nonsingular n A : diag_dominant n A -> leading_nonsingular n A.
Proof.
  intros HD k Hk x Hx. apply (dominant_sub n k A Hk) in HD.
  destruct k as [|k']; [intros; lia|]. set (k := S k') in *.
  destruct (argmax (fun j => Qcabs (x j)) k ltac:(lia)) as (m & Hm & Hmax). cbv beta in Hmax.
  assert (E : Qcabs (x m) = Q2Qc 0).
  { destruct (Qclt_le_dec 0 (Qcabs (x m))) as [Hpos|Hle].
    2:{ apply Qcle_antisym; auto. apply Qcabs_nonneg. }
    exfalso. pose proof (Hx m Hm) as HE. rewrite (fsum_split_at k m) in HE by auto.
    set (S0 := fsum k (fun j => if j =? m then f0 else (A m j * x j)%fld)) in HE.
    assert (HA : Qcabs (A m m * x m)%Qc = Qcabs S0).
    { rewrite <- Qcabs_opp. f_equal.
      symmetry. apply qc_opp_of_sum. exact HE. }
    rewrite Qcabs_Qcmult in HA.
    assert (HB : (Qcabs S0 <= fsum (K := QcFld) k (fun j => if j =? m then f0 else Qcabs (A m j)) * Qcabs (x m))%Qc).
    { unfold S0. eapply Qcle_trans.
      - apply (fsum_abs_le k _ (fun j => @fmul QcFld (if j =? m then f0 else Qcabs (A m j)) (Qcabs (x m)))).
        intros j Hj. destruct (j =? m).
        + change (Qcabs (Q2Qc 0) <= Q2Qc 0 * Qcabs (x m))%Qc. rewrite Qcmult_0_l. rewrite Qcabs_pos; apply Qcle_refl.
        + change (Qcabs (A m j * x j) <= Qcabs (A m j) * Qcabs (x m))%Qc. rewrite Qcabs_Qcmult.
          rewrite (Qcmult_comm (Qcabs (A m j)) (Qcabs (x j))), (Qcmult_comm (Qcabs (A m j)) (Qcabs (x m))).
          apply Qcmult_le_compat_r; [apply Hmax; auto | apply Qcabs_nonneg].
      - rewrite (fsum_scal_r QcFld k (Qcabs (x m)) (fun j => if j =? m then f0 else Qcabs (A m j))).
        apply Qcle_refl. }
    rewrite <- HA in HB.
    pose proof (HD m Hm) as HDm.
    apply (Qcle_not_lt _ _ HB). apply Qcmult_lt_compat_r; auto. }
  intros j Hj. apply Qcabs_null. apply Qcle_antisym; [|apply Qcabs_nonneg].
  rewrite <- E. apply Hmax; auto.
Qed.
