(** MatvecProofs5.v -- the products with the dense upper triangular matrices. *)
From Coq Require Import Reals ZArith List Arith Bool Lia Lra.
From Verif Require Import Base Fld SparseModel SparseSpec SparseProofs RPoly StencilModel StencilModel2 LegMatrixModel
  LegMatrixProofs5 LegMatrixProofs6 ChebMatrixModel ChebMatrixProofs2 HelmholtzModel HelmholtzProofs HelmholtzProofs3 HelmholtzProofs4
  BiharmonicModel BiharmonicProofs3 MatvecModel MatvecSpec MatvecProofs MatvecProofs2 MatvecProofs4.
Import ListNotations.
Local Open Scope R_scope.

Lemma product_obj A c s v k :
  product (smul RFld (scaled c A) s) v k = s * c * rsum (sm_cols RFld A) (fun j => mat_entry RFld A k j * v j).
Proof.
  unfold product. cbn [smul scaled sm_cols]. rewrite <- rsum_scal. apply rsum_ext. intros j Hj. rewrite smul_entry, scaled_entry. ring.
Qed.
Lemma zeven_n m : Z.even (Z.of_nat m) = Nat.even m.
Proof. pose proof (zeven_nat m 0 ltac:(lia)) as H. rewrite Nat.sub_0_r in H. rewrite <- H. f_equal. lia. Qed.
Lemma zcond a b k j : (j < k + b)%nat ->
  (Z.leb (Z.of_nat a) (Z.of_nat j - Z.of_nat k) && Z.ltb (Z.of_nat j - Z.of_nat k) (Z.of_nat b) && Z.even (Z.of_nat j - Z.of_nat k - Z.of_nat a))%bool
  = (Nat.leb (k + a) j && Nat.even (j - (k + a)))%bool.
Proof.
  intros H. destruct (Nat.leb_spec (k + a) j).
  - destruct (Z.leb_spec (Z.of_nat a) (Z.of_nat j - Z.of_nat k)); [|lia]. destruct (Z.ltb_spec (Z.of_nat j - Z.of_nat k) (Z.of_nat b)); [|lia].
    cbn [andb]. rewrite <- zeven_n. f_equal. lia.
  - destruct (Z.leb_spec (Z.of_nat a) (Z.of_nat j - Z.of_nat k)); [lia|]. reflexivity.
Qed.
Lemma tail_if N a (g : nat -> R) c : rsum N (fun j => if (Nat.leb a j && Nat.even (j - a))%bool then c * g j else 0) = c * tail N a g.
Proof. unfold tail. rewrite <- rsum_scal. apply rsum_ext. intros j Hj. destruct (Nat.leb a j && Nat.even (j - a))%bool; ring. Qed.

Lemma CTT_row N k v : (k < N)%nat -> rsum N (fun j => mat_entry RFld (c_CTT N) k j * v j) = PI * tail N (k + 1) (fun j => INR j * v j).
Proof.
  intros Hk. rewrite <- tail_if. apply rsum_ext. intros j Hj. unfold c_CTT. rewrite fromkeys_entry. cbv zeta.
  change 1%Z with (Z.of_nat 1). rewrite zcond by lia.
  destruct (Nat.leb_spec (k + 1) j); cbn [andb]; [|ring]. destruct (Nat.even (j - (k + 1))); [|ring].
  unfold arr. cbn [dget]. rewrite Nat.min_l by lia. replace (k + Z.to_nat (Z.of_nat j - Z.of_nat k))%nat with j by lia. ring.
Qed.
Lemma CLL_row N k v : (k < N)%nat -> rsum N (fun j => mat_entry RFld (CLLmat N) k j * v j) = 2 * tail N (k + 1) v.
Proof.
  intros Hk. rewrite <- tail_if. apply rsum_ext. intros j Hj. unfold CLLmat. rewrite (dense_entry N N 1 N (fun _ => Scal RFld 2)) by lia.
  replace (j - k - 1)%nat with (j - (k + 1))%nat by lia. destruct (Nat.leb (k + 1) j && Nat.even (j - (k + 1)))%bool; cbn; ring.
Qed.
Lemma ATT_row N k v : (k < N)%nat -> rsum N (fun j => mat_entry RFld (c_ATT N) k j * v j)
  = PI / 2 * tail N (k + 2) (fun j => INR j ^ 3 * v j) - PI / 2 * INR k ^ 2 * tail N (k + 2) (fun j => INR j * v j).
Proof.
  intros Hk. rewrite <- !tail_if. replace (fun j => mat_entry RFld (c_ATT N) k j * v j) with (fun j : nat => mat_entry RFld (c_ATT N) k j * v j) by reflexivity.
  unfold Rminus. rewrite Ropp_mult_distr_l || idtac.
  match goal with |- _ = ?a + - ?b => replace (a + - b) with (a + (-1) * b) by ring end.
  rewrite <- rsum_scal, <- rsum_add. apply rsum_ext. intros j Hj. unfold c_ATT. rewrite fromkeys_entry. cbv zeta.
  change 2%Z with (Z.of_nat 2). rewrite zcond by lia.
  destruct (Nat.leb_spec (k + 2) j); cbn [andb]; [|ring]. destruct (Nat.even (j - (k + 2))); [|ring].
  unfold arr. cbn [dget]. rewrite Nat.min_l by lia. replace (k + Z.to_nat (Z.of_nat j - Z.of_nat k))%nat with j by lia. field.
Qed.
Lemma CTSD_row N k v : (k < N)%nat -> rsum (N - 2) (fun j => mat_entry RFld (c_CTSD N) k j * v j)
  = (if (Nat.ltb 0 k && Nat.ltb k (N - 1))%bool then - INR (k + 1) * PI * v (k - 1)%nat else 0) - 2 * PI * tail (N - 2) (k + 1) v.
Proof.
  intros Hk.
  rewrite (rsum_ext _ _ (fun j => (if Nat.eqb j (k - 1) then (if Nat.ltb 0 k then - INR (k + 1) * PI * v j else 0) else 0)
     + (if (Nat.leb (k + 1) j && Nat.even (j - (k + 1)))%bool then (-2 * PI) * v j else 0))).
  - rewrite rsum_add, tail_if, rsum_one. destruct (Nat.ltb_spec 0 k); destruct (Nat.ltb_spec (k - 1) (N - 2)); destruct (Nat.ltb_spec k (N - 1)); cbn [andb]; try lia; ring.
  - intros j Hj. unfold c_CTSD. rewrite fromkeys_entry. cbv zeta.
    destruct (Nat.leb_spec (k + 1) j); cbn [andb].
    + destruct (Nat.eqb_spec j (k - 1)); [lia|]. 
      destruct (Z.leb_spec (-1) (Z.of_nat j - Z.of_nat k)); [|lia]. destruct (Z.ltb_spec (Z.of_nat j - Z.of_nat k) (Z.of_nat N - 2)); [|lia]. cbn [andb].
      replace (Z.of_nat j - Z.of_nat k - -1)%Z with (Z.of_nat (S (S (j - (k + 1))))) by lia. rewrite zeven_n, !even_S, negb_involutive.
      destruct (Nat.even (j - (k + 1))); [|ring]. destruct (Z.eqb_spec (Z.of_nat j - Z.of_nat k) (-1)); [lia|]. cbn [dget]. ring.
    + destruct (Nat.eq_dec (j + 1) k) as [E|E].
      * destruct (Nat.eqb_spec j (k - 1)); [|lia]. destruct (Nat.ltb_spec 0 k); [|lia].
        destruct (Z.leb_spec (-1) (Z.of_nat j - Z.of_nat k)); [|lia]. destruct (Z.ltb_spec (Z.of_nat j - Z.of_nat k) (Z.of_nat N - 2)); [|lia]. cbn [andb].
        replace (Z.of_nat j - Z.of_nat k - -1)%Z with 0%Z by lia. cbn [Z.even].
        destruct (Z.eqb_spec (Z.of_nat j - Z.of_nat k) (-1)); [|lia]. unfold arr. cbn [dget]. rewrite Nat.min_r by lia.
        replace (INR (j + 1) + 1) with (INR (k + 1)) by (rewrite <- (S_INR (j + 1)); f_equal; lia). ring.
      * assert (Hz : (Z.leb (-1) (Z.of_nat j - Z.of_nat k) && Z.ltb (Z.of_nat j - Z.of_nat k) (Z.of_nat N - 2) && Z.even (Z.of_nat j - Z.of_nat k - -1))%bool = false).
        { destruct (Z.leb_spec (-1) (Z.of_nat j - Z.of_nat k)); [|reflexivity]. assert (j = k) as -> by lia.
          replace (Z.of_nat k - Z.of_nat k - -1)%Z with 1%Z by lia. apply andb_false_r. }
        rewrite Hz. destruct (Nat.eqb_spec j (k - 1)); [|ring]. destruct (Nat.ltb_spec 0 k); [lia|]. ring.
Qed.
Lemma SSBSB_row N k v : (k < N - 4)%nat -> rsum (N - 4) (fun j => mat_entry RFld (c_SSBSB N) k j * v j)
  = PI * 8 * (INR k + 1) ^ 2 * (INR k + 2) * (INR k + 4) * v k
    + 8 * (INR k + 1) * (INR k + 2) * PI * (INR k * (INR k + 4)) * tail (N - 4) (k + 2) (fun j => v j / (INR j + 3))
    + 24 * (INR k + 1) * (INR k + 2) * PI * tail (N - 4) (k + 2) (fun j => (INR j + 2) ^ 2 * (v j / (INR j + 3))).
Proof.
  intros Hk. rewrite <- !tail_if.
  rewrite (rsum_ext _ _ (fun j => (if Nat.eqb j k then PI * 8 * (INR k + 1) ^ 2 * (INR k + 2) * (INR k + 4) * v j else 0)
     + (if (Nat.leb (k + 2) j && Nat.even (j - (k + 2)))%bool then 8 * (INR k + 1) * (INR k + 2) * PI * (INR k * (INR k + 4)) * (v j / (INR j + 3)) else 0)
     + (if (Nat.leb (k + 2) j && Nat.even (j - (k + 2)))%bool then 24 * (INR k + 1) * (INR k + 2) * PI * ((INR j + 2) ^ 2 * (v j / (INR j + 3))) else 0))).
  - rewrite !rsum_add, rsum_one. destruct (Nat.ltb_spec k (N - 4)); [reflexivity|lia].
  - intros j Hj. rewrite S_entry by assumption. destruct (Nat.eqb_spec j k) as [->|E].
    + destruct (Nat.leb_spec (k + 2) k); [lia|]. cbn [andb]. ring.
    + destruct (Nat.leb_spec k j); cbn [andb].
      * destruct (Nat.leb_spec (k + 2) j); cbn [andb].
        -- replace (j - k)%nat with (S (S (j - (k + 2)))) by lia. rewrite !even_S, negb_involutive.
           destruct (Nat.even (j - (k + 2))); [|ring]. pose proof (pos_INR j). field. lra.
        -- replace (j - k)%nat with 1%nat by lia. cbn [Nat.even]. ring.
      * destruct (Nat.leb_spec (k + 2) j); [lia|]. cbn [andb]. ring.
Qed.

Section Dense.
  Variables (N : nat) (c s : R) (v : nat -> R).
  Notation obj X := (smul RFld (scaled c X) s).

  Lemma CTT_ok : proper_scale (s * c) -> (1 <= N)%nat -> exists b, CTT_cython N c (obj (c_CTT N)) v = Some b /\ is_product (obj (c_CTT N)) v b.
  Proof.
    intros Hs HN. unfold CTT_cython. destruct (CTT_spec N v HN) as (r & -> & Hr). change (sm_scale RFld (obj (c_CTT N))) with (1 * s). rewrite Rmult_1_l.
    apply conclude; [exact Hs| |]; change (sm_rows RFld (obj (c_CTT N))) with N; intros k Hk; rewrite Hr.
    - rewrite product_obj. change (sm_cols RFld (c_CTT N)) with N. rewrite CTT_row by exact Hk. destruct (Nat.ltb_spec k N); [ring|lia].
    - destruct (Nat.ltb_spec k N); [lia|reflexivity].
  Qed.
  Lemma CLL_ok : proper_scale (s * c) -> (1 <= N)%nat -> exists b, CLL_cython N c (obj (CLLmat N)) v = Some b /\ is_product (obj (CLLmat N)) v b.
  Proof.
    intros Hs HN. unfold CLL_cython. destruct (CLL_spec N v HN) as (r & -> & Hr). change (sm_scale RFld (obj (CLLmat N))) with (1 * s). rewrite Rmult_1_l.
    apply conclude; [exact Hs| |]; change (sm_rows RFld (obj (CLLmat N))) with N; intros k Hk; rewrite Hr.
    - rewrite product_obj. change (sm_cols RFld (CLLmat N)) with N. rewrite CLL_row by exact Hk. destruct (Nat.ltb_spec k N); [ring|lia].
    - destruct (Nat.ltb_spec k N); [lia|reflexivity].
  Qed.
  (** the cumulative sums of format='self' *)
  Lemma cumsum_tail n t : forall v, (2 * t <= n)%nat -> cumsum (fun i => v (n - 2 * i)%nat) t = tail (n + 1) (n - 2 * t) v.
  Proof.
    induction t as [|t IH]; intros w Ht.
    - cbn [cumsum]. rewrite tail_step by lia. rewrite tail_ge by lia. rewrite Rplus_0_r. f_equal; lia.
    - cbn [cumsum]. rewrite IH by lia. rewrite (tail_step (n + 1) (n - 2 * S t)) by lia. replace (n - 2 * S t + 2)%nat with (n - 2 * t)%nat by lia. ring.
  Qed.
  Lemma tail_last n a w : (n < a \/ Nat.even (n - a) = false)%nat -> tail (n + 1) a w = tail n a w.
  Proof.
    intros H. unfold tail. replace (n + 1)%nat with (S n) by lia. cbn [gsum].
    replace (Nat.leb a n && Nat.even (n - a))%bool with false; [ring|]. destruct H as [H|H].
    - destruct (Nat.leb_spec a n); [lia|reflexivity].
    - rewrite H. now rewrite andb_false_r.
  Qed.
  Lemma CLL_self_ok : proper_scale (s * c) -> (1 <= N)%nat -> exists b, CLL_self N c (obj (CLLmat N)) v = Some b /\ is_product (obj (CLLmat N)) v b.
  Proof.
    intros Hs HN. unfold CLL_self. cbv zeta. change (sm_scale RFld (obj (CLLmat N))) with (1 * s). rewrite Rmult_1_l.
    apply conclude; [exact Hs| |]; change (sm_rows RFld (obj (CLLmat N))) with N; intros k Hk.
    - rewrite product_obj. change (sm_cols RFld (CLLmat N)) with N. rewrite CLL_row by exact Hk.
      destruct (Nat.ltb_spec (k + 1) N); cbn [andb].
      + destruct (Nat.even (N - 2 - k)) eqn:Ev.
        * apply Nat.even_spec in Ev. destruct Ev as [m Em].
          replace ((N - 2 - k) / 2)%nat with m by (rewrite Em, Nat.mul_comm, Nat.div_mul; lia).
          rewrite (cumsum_tail (N - 1) m v) by lia. replace (N - 1 + 1)%nat with N by lia. replace (N - 1 - 2 * m)%nat with (k + 1)%nat by lia. ring.
        * destruct (Nat.ltb_spec (k + 2) N); cbn [andb].
          -- replace (N - 2 - k)%nat with (S (N - 3 - k)) in Ev by lia. rewrite even_S in Ev. apply negb_false_iff in Ev. rewrite Ev.
             apply Nat.even_spec in Ev. destruct Ev as [m Em].
             replace ((N - 3 - k) / 2)%nat with m by (rewrite Em, Nat.mul_comm, Nat.div_mul; lia).
             rewrite (cumsum_tail (N - 2) m v) by lia. replace (N - 2 - 2 * m)%nat with (k + 1)%nat by lia.
             replace N with (N - 2 + 1 + 1)%nat at 2 by lia. rewrite (tail_last (N - 2 + 1)); [ring|]. right.
             replace (N - 2 + 1 - (k + 1))%nat with (S (N - 3 - k)) by lia. rewrite even_S. apply negb_false_iff. apply Nat.even_spec. exists m. exact Em.
          -- assert (N = k + 2)%nat by lia. subst N. replace (k + 2 - 2 - k)%nat with 0%nat in Ev by lia. discriminate.
      + destruct (Nat.ltb_spec (k + 2) N); [lia|]. cbn [andb]. rewrite tail_ge by lia. ring.
    - destruct (Nat.ltb_spec (k + 1) N); [lia|]. destruct (Nat.ltb_spec (k + 2) N); [lia|]. reflexivity.
  Qed.
  Lemma ASDSD_ok : c <> 0 -> proper_scale (s * c) -> (4 <= N)%nat -> exists b, ASDSD_cython c (obj (c_ASDSD N)) v = Some b /\ is_product (obj (c_ASDSD N)) v b.
  Proof.
    intros Hc Hs HN. unfold ASDSD_cython.
    assert (E : akey (obj (c_ASDSD N)) 0 = Some ((N - 2)%nat, fun i => -2 * PI * (INR i + 1) * (INR i + 2) * c)).
    { unfold akey. cbn [smul scaled sm_items]. rewrite dict_get_lookup, lookup_scaled. unfold c_ASDSD, dmat, fromkeys. cbn [sm_items].
      rewrite (lookup_map_in (fun z => z)); [|trivial|apply zin; [lia|reflexivity]]. reflexivity. }
    rewrite E. cbn [obind fst snd].
    match goal with |- context [ADD_matvec _ ?d v] => destruct (ADD_spec (N - 2) d v ltac:(lia)) as (r & -> & Hr) end.
    change (sm_scale RFld (obj (c_ASDSD N))) with (1 * s). rewrite Rmult_1_l.
    apply conclude; [exact Hs| |]; change (sm_rows RFld (obj (c_ASDSD N))) with (N - 2)%nat; intros k Hk; rewrite Hr.
    - rewrite product_obj. change (sm_cols RFld (c_ASDSD N)) with (N - 2)%nat.
      rewrite (rsum_ext _ _ (fun j => brow 0 (-2 * PI * (INR k + 1) * (INR k + 2)) (-4 * PI * (INR k + 1)) (-4 * PI * (INR k + 1)) k j * v j)) by (intros; rewrite ASDSD_row by assumption; reflexivity).
      rewrite row_two by exact Hk. destruct (Nat.ltb_spec k (N - 2)); [|lia]. rewrite plus_INR. cbn [INR]. field. exact Hc.
    - destruct (Nat.ltb_spec k (N - 2)); [lia|reflexivity].
  Qed.
  Lemma CTSD_ok : c = 1 -> proper_scale s -> (4 <= N)%nat -> exists b, CTSD_cython N (obj (c_CTSD N)) v = Some b /\ is_product (obj (c_CTSD N)) v b.
  Proof.
    intros Hc Hs HN. unfold CTSD_cython. destruct (CTSD_spec N v HN) as (r & -> & Hr). change (sm_scale RFld (obj (c_CTSD N))) with (1 * s). rewrite Rmult_1_l.
    apply conclude; [exact Hs| |]; change (sm_rows RFld (obj (c_CTSD N))) with N; intros k Hk; rewrite Hr.
    - rewrite product_obj. change (sm_cols RFld (c_CTSD N)) with (N - 2)%nat. rewrite CTSD_row by exact Hk. rewrite Hc.
      destruct (Nat.ltb_spec k (N - 1)); destruct (Nat.ltb_spec 0 k); cbn [andb]; try lia; try ring.
      rewrite tail_ge by lia. ring.
    - destruct (Nat.ltb_spec k (N - 1)); [lia|reflexivity].
  Qed.
  Lemma ATT_ok : proper_scale (s * c) -> (2 <= Z.of_nat N <= 1291)%Z -> exists b, ATT_cython N c (obj (c_ATT N)) v = Some b /\ is_product (obj (c_ATT N)) v b.
  Proof.
    intros Hs HN. unfold ATT_cython. destruct (ATT_spec N v ltac:(lia)) as (r & -> & Hr). change (sm_scale RFld (obj (c_ATT N))) with (1 * s). rewrite Rmult_1_l.
    apply conclude; [exact Hs| |]; change (sm_rows RFld (obj (c_ATT N))) with N; intros k Hk; rewrite Hr.
    - rewrite product_obj. change (sm_cols RFld (c_ATT N)) with N. rewrite ATT_row by exact Hk. destruct (Nat.ltb_spec k N); [|lia]. unfold att_tail.
      rewrite (tail_ext N (k + 2) (fun j => IZR (wrap32 (Z.of_nat j ^ 3)) * v j) (fun j => INR j ^ 3 * v j)).
      + rewrite wrap32_id by (assert (0 <= Z.of_nat k <= 1290)%Z by lia; nia).
        replace (IZR (Z.of_nat k ^ 2)) with (INR k ^ 2); [ring|]. rewrite INR_IZR_INZ. exact (pow_IZR (Z.of_nat k) 2).
      + intros j Hj. f_equal. rewrite wrap32_id by (assert (0 <= Z.of_nat j <= 1290)%Z by lia; nia).
        rewrite INR_IZR_INZ. symmetry. exact (pow_IZR (Z.of_nat j) 3).
    - destruct (Nat.ltb_spec k N); [lia|reflexivity].
  Qed.
  Lemma SSBSB_ok : c <> 0 -> proper_scale (s * c) -> (6 <= Z.of_nat N <= 9464)%Z -> exists b, SSBSB_cython c (obj (c_SSBSB N)) v = Some b /\ is_product (obj (c_SSBSB N)) v b.
  Proof.
    intros Hc Hs HN. unfold SSBSB_cython.
    assert (E : akey (obj (c_SSBSB N)) 0 = Some ((N - 4)%nat, fun i => PI * 8 * (INR i + 1) ^ 2 * (INR i + 2) * (INR i + 4) * c)).
    { unfold akey. cbn [smul scaled sm_items]. rewrite dict_get_lookup, lookup_scaled. unfold c_SSBSB, dmat, fromkeys. cbn [sm_items].
      rewrite (lookup_map_in (fun z => z)); [|trivial|apply zin; [lia|reflexivity]]. reflexivity. }
    rewrite E. cbn [obind fst snd].
    match goal with |- context [SBB_matvec _ ?d v] => destruct (SBB_spec (N - 4) d v ltac:(lia)) as (r & -> & Hr) end.
    change (sm_scale RFld (obj (c_SSBSB N))) with (1 * s). rewrite Rmult_1_l.
    apply conclude; [exact Hs| |]; change (sm_rows RFld (obj (c_SSBSB N))) with (N - 4)%nat; intros k Hk; rewrite Hr.
    - rewrite product_obj. change (sm_cols RFld (c_SSBSB N)) with (N - 4)%nat. rewrite SSBSB_row by exact Hk. destruct (Nat.ltb_spec k (N - 4)); [|lia].
      unfold sbb_tail. destruct (Nat.le_gt_cases (N - 4) (k + 2)) as [Hge|Hlt].
      + rewrite !tail_ge by lia. rewrite plus_INR. cbn [INR]. pose proof (pos_INR k). field. split; [exact Hc|lra].
      + rewrite wrap32_id by (assert (0 <= Z.of_nat k <= 9457)%Z by lia; nia).
        rewrite (tail_ext _ _ (fun j => IZR (wrap32 ((Z.of_nat j + 2) * (Z.of_nat j + 2))) * (v j / (INR j + 3))) (fun j => (INR j + 2) ^ 2 * (v j / (INR j + 3)))).
        * rewrite !mult_IZR, !plus_IZR, <- INR_IZR_INZ, plus_INR. cbn [INR]. pose proof (pos_INR k). field. split; lra.
        * intros j Hj. f_equal. rewrite wrap32_id by (assert (0 <= Z.of_nat j <= 9459)%Z by lia; nia).
          rewrite !mult_IZR, !plus_IZR, <- INR_IZR_INZ. ring.
    - destruct (Nat.ltb_spec k (N - 4)); [lia|reflexivity].
  Qed.
End Dense.
