(** MatvecProofs7.v -- the products of the Helmholtz and Biharmonic classes with the assembled matrices. *)
From Coq Require Import Reals ZArith List Arith Bool Lia Lra.
From Verif Require Import Base Fld SparseModel SparseSpec SparseProofs RPoly StencilModel StencilModel2 LegMatrixModel
  LegMatrixProofs5 LegMatrixProofs6 ChebMatrixModel ChebMatrixProofs2 HelmholtzModel HelmholtzProofs HelmholtzProofs3 HelmholtzProofs4 HelmholtzProofs5
  BiharmonicModel BiharmonicProofs3 MatvecModel MatvecSpec MatvecProofs MatvecProofs2 MatvecProofs4 MatvecProofs5 MatvecProofs6.
Import ListNotations.
Local Open Scope R_scope.

Section Helm.
  Variables (h : nat -> R) (N : nat) (ca cb al be : R) (v : nat -> R).
  Hypothesis Hh : norms h.
  Notation A := (scaled ca (c_ASDSD N)).
  Notation B := (scaled cb (c_BSDSD h N)).
  Lemma hmv_keys : (6 <= N)%nat -> exists a0 a2 b0, key A 0 = Some a0 /\ key A 2 = Some a2 /\ key B 0 = Some b0 /\
    (forall i, a0 i = -2 * PI * (INR i + 1) * (INR i + 2) * ca) /\ (forall i, a2 i = -4 * PI * (INR i + 1) * ca) /\ (forall i, b0 i = (h i + h (i + 2)%nat) * cb).
  Proof.
    intros HN. unfold c_ASDSD. rewrite !key_fromkeys by (apply zin; [lia|reflexivity]).
    eexists _, _, _. split; [reflexivity|]. split; [reflexivity|]. split; [reflexivity|]. repeat split.
  Qed.
  (** the value: the off-diagonal entries of the mass matrix are those of the reference domain *)
  Lemma hmv_value : (6 <= N)%nat -> exists b, helmholtz_matvec A B al be v = Some b /\ (forall k, (N - 2 <= k)%nat -> b k = 0) /\
    forall k, (k < N - 2)%nat -> b k = rsum (N - 2) (fun j => (al * mat_entry RFld A k j + be * mat_entry RFld B k j) * v j)
      + be * (cb - 1) * PI / 2 * (below (N - 2) k 2 (fun _ => 1) v + above (N - 2) k 2 (fun _ => 1) v).
  Proof.
    intros HN. unfold helmholtz_matvec. destruct (hmv_keys HN) as (a0 & a2 & b0 & -> & -> & -> & H0 & H2 & Hb).
    eexists. split; [reflexivity|]. change (sm_rows RFld A) with (N - 2)%nat. split; intros k Hk; rewrite hmv_spec by lia.
    - destruct (Nat.ltb_spec k (N - 2)); [lia|reflexivity].
    - destruct (Nat.ltb_spec k (N - 2)); [|lia].
      rewrite (rsum_ext _ _ (fun j => al * ca * (brow 0 (-2 * PI * (INR k + 1) * (INR k + 2)) (-4 * PI * (INR k + 1)) (-4 * PI * (INR k + 1)) k j * v j)
         + be * cb * (brow (- h 1%nat) (h k + h (k + 2)%nat) (- h 1%nat) 0 k j * v j))).
      + rewrite rsum_add, !rsum_scal, row_two, brow_sum by lia. rewrite H0, H2, Hb.
        destruct Hh as (_ & Hh1 & _). rewrite Hh1. unfold below, above.
        destruct (Nat.leb_spec 2 k); cbn [andb]; destruct (Nat.ltb_spec (k + 2) (N - 2)); try (destruct (Nat.ltb_spec (k - 2) (N - 2)); [|lia]); field.
      + intros j Hj. rewrite !scaled_entry, ASDSD_row, BSDSD_row by assumption. ring.
  Qed.
End Helm.

Section HelmN.
  Variables (h : nat -> R) (N : nat) (ca cb al be : R) (v : nat -> R).
  Notation A := (scaled ca (c_ASNSN N)).
  Notation B := (scaled cb (c_BSNSN h N)).
  Lemma hn_keys : (8 <= N)%nat -> exists D, helmholtz_keys A B = Some D /\
    (forall i, dA0 D i = -2 * PI * INR i ^ 2 * (INR i + 1) / (INR i + 2) * ca) /\
    (forall i, dA2 D i = -4 * PI * (INR i + 2) ^ 2 * (INR i + 1) / (INR i + 2) ^ 2 * ca) /\
    (forall i, dBm D i = - nal i * h (i + 2)%nat * cb) /\ (forall i, dB0 D i = (h i + nal i ^ 2 * h (i + 2)%nat) * cb) /\ (forall i, dB2 D i = - nal i * h (i + 2)%nat * cb).
  Proof.
    intros HN. unfold helmholtz_keys, c_ASNSN. rewrite !key_fromkeys by (apply zin; [lia|reflexivity]).
    eexists. split; [reflexivity|]. repeat split.
  Qed.
  Lemma hnmv_value : (8 <= N)%nat -> exists b, helmholtz_neumann_matvec Numba A B al be v = Some b /\ (forall k, (N - 2 <= k)%nat -> b k = 0) /\
    forall k, (k < N - 2)%nat -> b k = rsum (N - 2) (fun j => (al * mat_entry RFld A k j + be * mat_entry RFld B k j) * v j).
  Proof.
    intros HN. unfold helmholtz_neumann_matvec. destruct (hn_keys HN) as (D & -> & H0 & H2 & Hm & Hb & Hu).
    eexists. split; [reflexivity|]. change (sm_rows RFld A) with (N - 2)%nat. cbn [pre_numba dA0 dA2 dBm dB0 dB2]. split; intros k Hk; rewrite hnmv_spec by lia.
    - destruct (Nat.ltb_spec k (N - 2)); [lia|reflexivity].
    - destruct (Nat.ltb_spec k (N - 2)); [|lia].
      rewrite (rsum_ext _ _ (fun j => al * ca * (mat_entry RFld (c_ASNSN N) k j * v j)
         + be * cb * (brow (- nal (k - 2) * h k) (h k + nal k ^ 2 * h (k + 2)%nat) (- nal k * h (k + 2)%nat) 0 k j * v j))).
      + rewrite rsum_add, !rsum_scal, ASNSN_sum, brow_sum by lia. rewrite H0, H2, Hb. unfold below, above. rewrite Hm, Hu.
        assert (J : forall i, (0 < i)%nat -> ann_j2 i * sqn i = 1).
        { intros i Hi. unfold ann_j2, sqn. destruct (Nat.eqb_spec i 0); [lia|]. rewrite pow_INR. pose proof (lt_0_INR i Hi). field. lra. }
        assert (Z0 : nal 0 = 0) by (unfold nal; cbn; field).
        replace (k + 2 - 2)%nat with k by lia.
        set (T := tail (N - 2) (k + 2) (fun j => v j * sqn j)).
        assert (Hd : (-2 * PI * INR k ^ 2 * (INR k + 1) / (INR k + 2) * ca * (if Nat.eqb k 0 then 0 else ann_j2 k) * al
                      + (h k + nal k ^ 2 * h (k + 2)%nat) * cb * ann_j2 k * be) * (v k * sqn k) + (if Nat.eqb k 0 then (h 0%nat + nal 0 ^ 2 * h 2%nat) * cb * ann_j2 0 * v 0%nat * be else 0)
                     = al * ca * (-2 * PI * (INR k + 1) / (INR k + 2) * (v k * sqn k)) + be * cb * ((h k + nal k ^ 2 * h (k + 2)%nat) * v k)).
        { destruct (Nat.eqb_spec k 0) as [->|Hk0].
          - rewrite Z0. unfold ann_j2, sqn. cbn. field.
          - replace (INR k ^ 2) with (sqn k) by apply sqn_pow.
            transitivity (al * ca * (-2 * PI * (INR k + 1) / (INR k + 2) * (v k * sqn k)) * (ann_j2 k * sqn k) + be * cb * ((h k + nal k ^ 2 * h (k + 2)%nat) * v k) * (ann_j2 k * sqn k)); [unfold Rdiv; ring|].
            rewrite J by lia. ring. }
        assert (Ht : -4 * PI * (INR k + 2) ^ 2 * (INR k + 1) / (INR k + 2) ^ 2 * ca * ann_j2 (k + 2) = -4 * PI * (INR k + 1) / (INR k + 2) ^ 2 * ca).
        { unfold ann_j2. destruct (Nat.eqb_spec (k + 2) 0); [lia|]. rewrite pow_INR, plus_INR. cbn [INR]. pose proof (pos_INR k). field. lra. }
        assert (Hl : forall i, - nal i * h (i + 2)%nat * cb * ann_j2 i * (v i * sqn i) = - nal i * h (i + 2)%nat * cb * v i).
        { intros i. destruct (Nat.eq_dec i 0) as [->|Hi]; [rewrite Z0; ring|].
          transitivity (- nal i * h (i + 2)%nat * cb * v i * (ann_j2 i * sqn i)); [ring|]. rewrite J by lia. ring. }
        assert (H20 : (if Nat.eqb k 2 then dBm D 0%nat * ann_j2 0 * v 0%nat * be else 0) = 0) by (rewrite Hm, Z0; destruct (Nat.eqb k 2); ring).
        assert (Hb0 : (if Nat.eqb k 0 then dB0 D 0%nat * ann_j2 0 * v 0%nat * be else 0) = (if Nat.eqb k 0 then (h 0%nat + nal 0 ^ 2 * h 2%nat) * cb * ann_j2 0 * v 0%nat * be else 0)) by (rewrite Hb; reflexivity).
        rewrite Ht.
        assert (Hup : - nal k * h (k + 2)%nat * cb * ann_j2 (k + 2) * (v (k + 2)%nat * sqn (k + 2)) = - nal k * h (k + 2)%nat * cb * v (k + 2)%nat).
        { transitivity (- nal k * h (k + 2)%nat * cb * v (k + 2)%nat * (ann_j2 (k + 2) * sqn (k + 2))); [ring|]. rewrite J by lia. ring. }
        assert (Hlow : (if (Nat.leb 2 k && Nat.ltb (k - 2) (N - 2))%bool then - nal (k - 2) * h (k - 2 + 2)%nat * cb * ann_j2 (k - 2) * (v (k - 2)%nat * sqn (k - 2)) else 0)
                       = cb * (if Nat.leb 2 k then - nal (k - 2) * h k * v (k - 2)%nat else 0)).
        { destruct (Nat.leb_spec 2 k); cbn [andb]; [|ring]. destruct (Nat.ltb_spec (k - 2) (N - 2)); [|lia]. rewrite Hl. replace (k - 2 + 2)%nat with k by lia. ring. }
        rewrite Hlow.
        assert (Hhi : (if Nat.ltb (k + 2) (N - 2) then - nal k * h (k + 2)%nat * cb * ann_j2 (k + 2) * (v (k + 2)%nat * sqn (k + 2)) else 0)
                      = cb * (if Nat.ltb (k + 2) (N - 2) then - nal k * h (k + 2)%nat * v (k + 2)%nat else 0)).
        { destruct (Nat.ltb (k + 2) (N - 2)); [rewrite Hup|]; ring. }
        rewrite Hhi. rewrite H20, Hb0.
        match goal with |- ?x * ?y + ?z + ?p + ?q + ?r + 0 = _ => transitivity ((x * y + r) + (z + p + q)); [ring|] end.
        rewrite Hd. unfold Rdiv. ring.
      + intros j Hj. rewrite !scaled_entry, BSNSN_row by assumption. ring.
  Qed.
End HelmN.
