(** MatvecProofs8.v -- the product of the Biharmonic class. *)
From Coq Require Import Reals ZArith List Arith Bool Lia Lra.
From Verif Require Import Base Fld SparseModel SparseSpec SparseProofs RPoly StencilModel StencilModel2 LegMatrixModel
  LegMatrixProofs5 LegMatrixProofs6 ChebMatrixModel ChebMatrixProofs2 HelmholtzModel HelmholtzProofs HelmholtzProofs3 HelmholtzProofs4 HelmholtzProofs5
  BiharmonicModel BiharmonicProofs3 MatvecModel MatvecSpec MatvecProofs MatvecProofs2 MatvecProofs4 MatvecProofs5.
Import ListNotations.
Local Open Scope R_scope.

Definition iw (im : impl) (z : Z) : Z := match im with Numba => z | Cython => wrap32 z end.
Definition far (im : impl) (M k : nat) (sk : R) (v : nat -> R) : R :=
  INR k * sk / (INR k + 1) * tail M (k + 6) (fun j => v j / (INR j + 3))
  + IZR (iw im (24 * (Z.of_nat k + 1) * (Z.of_nat k + 2))) * PI * tail M (k + 6) (fun j => IZR (iw im ((Z.of_nat j + 2) * (Z.of_nat j + 2))) * (v j / (INR j + 3))).
Section Bmv.
  Variables (im : impl) (M : nat) (a0 : R) (sii ldd ld dd ud udd v : nat -> R).
  Hypothesis HM : (10 <= M)%nat.
  Definition lowup (k : nat) : R :=
    if Nat.ltb 3 k then ldd (k - 4)%nat * v (k - 4)%nat + ld (k - 2)%nat * v (k - 2)%nat + dd k * v k + ud k * v (k + 2)%nat + udd k * v (k + 4)%nat
    else if Nat.ltb 1 k then ld (k - 2)%nat * v (k - 2)%nat + dd k * v k + ud k * v (k + 2)%nat + udd k * v (k + 4)%nat
    else dd k * v k + ud k * v (k + 2)%nat + udd k * v (k + 4)%nat.
  Lemma bmv_loop b0 k :
    fst (fst (for_down (M - 6) (bmv_step im M a0 sii ldd ld dd ud udd v) (b0, (0, 0), (0, 0)))) k
    = if Nat.ltb k (M - 6) then far im M k (sii k) v * a0 + lowup k else b0 k.
  Proof.
    rewrite (loop2 Nat.even (fun k => v (k + 6)%nat / (INR (k + 6) + 3)) (fun k => IZR (iw im ((Z.of_nat (k + 6) + 2) * (Z.of_nat (k + 6) + 2))) * (v (k + 6)%nat / (INR (k + 6) + 3)))
      (fun k s t => (INR k * sii k / (INR k + 1) * s + IZR (iw im (24 * (Z.of_nat k + 1) * (Z.of_nat k + 2))) * PI * t) * a0 + lowup k) even_S
      (bmv_step im M a0 sii ldd ld dd ud udd v)).
    - rewrite (tail_shift 6 (M - 6) k (fun j => v j / (INR j + 3))), (tail_shift 6 (M - 6) k (fun j => IZR (iw im ((Z.of_nat j + 2) * (Z.of_nat j + 2))) * (v j / (INR j + 3)))).
      replace (M - 6 + 6)%nat with M by lia. reflexivity.
    - intros i b s1 z1 s2 z2 Hi. unfold bmv_step, lowup, iw. destruct im; destruct (Nat.even i); eexists; (split; [|reflexivity]); intros j;
        (destruct (Nat.eq_dec j i) as [->|]; upds; reflexivity).
  Qed.
  Lemma bmv_final : let r0 := fun i => ldd (i - 4)%nat * v (i - 4)%nat + ld (i - 2)%nat * v (i - 2)%nat + dd i * v i in
    let r1 := fun i => r0 i + ud i * v (i + 2)%nat in
    let r2 := fun i => r1 i + udd i * v (i + 4)%nat in
    let b0 := upd (upd (upd (upd (upd (upd zeros (M - 1) (r0 (M - 1)%nat)) (M - 2) (r0 (M - 2)%nat)) (M - 3) (r1 (M - 3)%nat)) (M - 4) (r1 (M - 4)%nat)) (M - 5) (r2 (M - 5)%nat)) (M - 6) (r2 (M - 6)%nat) in
    forall k, fst (fst (for_down (M - 6) (bmv_step im M a0 sii ldd ld dd ud udd v) (b0, (0, 0), (0, 0)))) k
    = if Nat.ltb k M then below M k 4 ldd v + below M k 2 ld v + dd k * v k + above M k 2 ud v + above M k 4 udd v + far im M k (sii k) v * a0 else 0.
  Proof.
    intros r0 r1 r2 b0 k. rewrite bmv_loop. unfold b0, upd, lowup, zeros, below, above.
    destruct (Nat.ltb_spec k (M - 6)).
    - cases; ring.
    - assert (Hf : far im M k (sii k) v = 0) by (unfold far; rewrite !tail_ge by lia; ring). rewrite Hf.
      unfold r2, r1, r0. cases; try ring; subst; ring.
  Qed.
End Bmv.

Section Bih.
  Variables (h : nat -> R) (N : nat) (ds da db : R) (v : nat -> R).
  Notation S := (scaled ds (c_SSBSB N)).
  Notation A := (scaled da (c_ASBSB N)).
  Notation B := (scaled db (c_BSBSB h N)).
  Notation M := (N - 4)%nat.
  (** a row of S, with the near entries apart *)
  Lemma S_near k : (k < M)%nat -> rsum M (fun j => mat_entry RFld (c_SSBSB N) k j * v j)
    = PI * 8 * (INR k + 1) ^ 2 * (INR k + 2) * (INR k + 4) * v k
      + above M k 2 (fun i => 8 * (INR i + 1) * (INR i + 2) * (INR i * (INR i + 4) + 3 * (INR (i + 2) + 2) ^ 2) * PI / (INR (i + 2) + 3)) v
      + above M k 4 (fun i => 8 * (INR i + 1) * (INR i + 2) * (INR i * (INR i + 4) + 3 * (INR (i + 4) + 2) ^ 2) * PI / (INR (i + 4) + 3)) v
      + (8 * (INR k + 1) * (INR k + 2) * PI * (INR k * (INR k + 4)) * tail M (k + 6) (fun j => v j / (INR j + 3))
         + 24 * (INR k + 1) * (INR k + 2) * PI * tail M (k + 6) (fun j => (INR j + 2) ^ 2 * (v j / (INR j + 3)))).
  Proof.
    intros Hk. rewrite SSBSB_row by exact Hk. pose proof (pos_INR k). unfold above.
    destruct (Nat.ltb_spec (k + 2) M).
    - rewrite !(tail_step M (k + 2)) by lia. replace (k + 2 + 2)%nat with (k + 4)%nat by lia. pose proof (pos_INR (k + 2)).
      destruct (Nat.ltb_spec (k + 4) M).
      + rewrite !(tail_step M (k + 4)) by lia. replace (k + 4 + 2)%nat with (k + 6)%nat by lia. pose proof (pos_INR (k + 4)). field. lra.
      + rewrite !tail_ge by lia. field. lra.
    - destruct (Nat.ltb_spec (k + 4) M); [lia|]. rewrite !tail_ge by lia. ring.
  Qed.
  Lemma bmv_value im a0 al be : (14 <= N)%nat -> exists b, Biharmonic_matvec im S A B a0 al be v = Some b /\ (forall k, (M <= k)%nat -> b k = 0) /\
    forall k, (k < M)%nat -> b k = rsum M (fun j => (al * mat_entry RFld A k j + be * mat_entry RFld B k j) * v j)
      + a0 * (ds * (PI * 8 * (INR k + 1) ^ 2 * (INR k + 2) * (INR k + 4) * v k
           + above M k 2 (fun i => 8 * (INR i + 1) * (INR i + 2) * (INR i * (INR i + 4) + 3 * (INR (i + 2) + 2) ^ 2) * PI / (INR (i + 2) + 3)) v
           + above M k 4 (fun i => 8 * (INR i + 1) * (INR i + 2) * (INR i * (INR i + 4) + 3 * (INR (i + 4) + 2) ^ 2) * PI / (INR (i + 4) + 3)) v)
         + far im M k (PI * 8 * (INR k + 1) ^ 2 * (INR k + 2) * (INR k + 4) * ds) v).
  Proof.
    intros HN. unfold Biharmonic_matvec. rewrite b_keys by lia. cbn [obind]. change (sm_rows RFld S) with M.
    destruct (Nat.ltb_spec M 10); [lia|]. cbv zeta.
    unfold bD. cbn [sii siu siuu ail aii aiu bill bil bii biu biuu].
    match goal with |- context [for_down _ (bmv_step _ _ _ ?s0 ?f1 ?f2 ?f3 ?f4 ?f5 _) ?st] =>
      assert (L : forall k, fst (fst (for_down (M - 6) (bmv_step im M a0 s0 f1 f2 f3 f4 f5 v) st)) k
        = if Nat.ltb k M then below M k 4 f1 v + below M k 2 f2 v + f3 k * v k + above M k 2 f4 v + above M k 4 f5 v + far im M k (s0 k) v * a0 else 0)
        by (exact (bmv_final im M a0 s0 f1 f2 f3 f4 f5 v ltac:(lia)));
      destruct (for_down (M - 6) (bmv_step im M a0 s0 f1 f2 f3 f4 f5 v) st) as [[b t1] t2] end.
    cbn [fst] in L. exists b. split; [reflexivity|]. split; intros k Hk; rewrite L; destruct (Nat.ltb_spec k M); try lia; [reflexivity|].
    clear L.
    rewrite (rsum_ext _ _ (fun j => al * da * (mat_entry RFld (c_ASBSB N) k j * v j) + be * db * (mat_entry RFld (c_BSBSB h N) k j * v j))) by (intros; rewrite !scaled_entry; ring).
    rewrite rsum_add, !rsum_scal.
    assert (EA : rsum M (fun j => mat_entry RFld (c_ASBSB N) k j * v j) = 1 * terms M k v (sm_items RFld (c_ASBSB N)))
      by (apply (row_terms M M 1 (sm_items RFld (c_ASBSB N)) k v); nodup c_ASBSB).
    assert (EB : rsum M (fun j => mat_entry RFld (c_BSBSB h N) k j * v j) = 1 * terms M k v (sm_items RFld (c_BSBSB h N)))
      by (apply (row_terms M M 1 (sm_items RFld (c_BSBSB h N)) k v); nodup c_BSBSB).
    rewrite EA, EB. clear EA EB. unfold c_ASBSB, c_BSBSB. cbv zeta. cbn [terms fold_right dmat sm_items]. term_rw. rewrite ?term_diag by lia. rewrite ?dget_sc, ?dget_ar.
    fold (bs2) (bs4). unfold bd0, bd2, bd4, bs2, bs4.
    set (F := far _ _ _ _ _). clearbody F.
    unfold above, below.
    destruct (Nat.leb_spec 4 k); destruct (Nat.leb_spec 2 k); destruct (Nat.ltb_spec (k - 4) M); destruct (Nat.ltb_spec (k - 2) M); destruct (Nat.ltb_spec (k + 2) M); destruct (Nat.ltb_spec (k + 4) M); try lia; cbn [andb]; rn; ring.
  Qed.
  Lemma far_ok im k d : (k < M)%nat -> (im = Cython -> (Z.of_nat N <= 9468)%Z) ->
    far im M k (PI * 8 * (INR k + 1) ^ 2 * (INR k + 2) * (INR k + 4) * d) v
    = d * (8 * (INR k + 1) * (INR k + 2) * PI * (INR k * (INR k + 4)) * tail M (k + 6) (fun j => v j / (INR j + 3)))
      + 24 * (INR k + 1) * (INR k + 2) * PI * tail M (k + 6) (fun j => (INR j + 2) ^ 2 * (v j / (INR j + 3))).
  Proof.
    intros Hk HN. unfold far. pose proof (pos_INR k). destruct (Nat.le_gt_cases M (k + 6)).
    - rewrite !tail_ge by lia. ring.
    - assert (W : forall z, (0 <= z < 2 ^ 31)%Z \/ im = Numba -> iw im z = z).
      { intros z Hz. unfold iw. destruct im; [reflexivity|]. destruct Hz as [Hz|Hz]; [|discriminate]. apply wrap32_id. lia. }
      rewrite (tail_ext _ _ (fun j => IZR (iw im ((Z.of_nat j + 2) * (Z.of_nat j + 2))) * (v j / (INR j + 3))) (fun j => (INR j + 2) ^ 2 * (v j / (INR j + 3)))).
      + rewrite W.
        * rewrite !mult_IZR, !plus_IZR, <- INR_IZR_INZ. field. lra.
        * destruct im; [right; reflexivity|left]. specialize (HN eq_refl). assert (0 <= Z.of_nat k <= 9457)%Z by lia. nia.
      + intros j Hj. f_equal. rewrite W.
        * rewrite !mult_IZR, !plus_IZR, <- INR_IZR_INZ. ring.
        * destruct im; [right; reflexivity|left]. specialize (HN eq_refl). assert (0 <= Z.of_nat j <= 9463)%Z by lia. nia.
  Qed.
End Bih.
