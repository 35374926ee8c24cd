(** MatvecProofs2.v -- the banded products, format='cython' and format='self'. *)
From Coq Require Import Reals ZArith List Arith Bool Lia Lra.
From Verif Require Import Base Fld SparseModel SparseSpec SparseProofs RPoly StencilModel StencilModel2 LegMatrixModel
  LegMatrixProofs6 ChebMatrixModel HelmholtzModel HelmholtzProofs HelmholtzProofs3 HelmholtzProofs4 BiharmonicModel MatvecModel MatvecSpec MatvecProofs.
Import ListNotations.
Local Open Scope R_scope.

Lemma above_scal M k a d c v : above M k a (fun i => d i * c) v = c * above M k a d v.
Proof. unfold above. destruct (Nat.ltb (k + a) M); ring. Qed.
Lemma below_scal M k a d c v : below M k a (fun i => d i * c) v = c * below M k a d v.
Proof. unfold below. destruct (Nat.leb a k && Nat.ltb (k - a) M)%bool; ring. Qed.
Lemma term_diag M k v d : (k < M)%nat -> term M k v (0%Z, d) = dget RFld d k * v k.
Proof. intros H. rewrite (term_in M k v 0 d k) by lia. now rewrite Nat.min_id. Qed.
Lemma term_p1 M k v d : term M k v (1%Z, d) = above M k 1 (dget RFld d) v. Proof. exact (term_above M k v 1 d). Qed.
Lemma term_p2 M k v d : term M k v (2%Z, d) = above M k 2 (dget RFld d) v. Proof. exact (term_above M k v 2 d). Qed.
Lemma term_p3 M k v d : term M k v (3%Z, d) = above M k 3 (dget RFld d) v. Proof. exact (term_above M k v 3 d). Qed.
Lemma term_p4 M k v d : term M k v (4%Z, d) = above M k 4 (dget RFld d) v. Proof. exact (term_above M k v 4 d). Qed.
Lemma term_m1 M k v d : term M k v ((-1)%Z, d) = below M k 1 (dget RFld d) v. Proof. exact (term_below M k v 1 d ltac:(lia)). Qed.
Lemma term_m2 M k v d : term M k v ((-2)%Z, d) = below M k 2 (dget RFld d) v. Proof. exact (term_below M k v 2 d ltac:(lia)). Qed.
Lemma term_m3 M k v d : term M k v ((-3)%Z, d) = below M k 3 (dget RFld d) v. Proof. exact (term_below M k v 3 d ltac:(lia)). Qed.
Lemma term_m4 M k v d : term M k v ((-4)%Z, d) = below M k 4 (dget RFld d) v. Proof. exact (term_below M k v 4 d ltac:(lia)). Qed.
Ltac term_rw := rewrite ?term_p1, ?term_p2, ?term_p3, ?term_p4, ?term_m1, ?term_m2, ?term_m3, ?term_m4.
Lemma fsum_scal (d : nat -> R) (c : R) : (fun t => @fmul RFld (d t) c) = (fun t => d t * c).
Proof. reflexivity. Qed.
Lemma dget_sc x : dget RFld (Scal RFld x) = (fun _ => x). Proof. reflexivity. Qed.
Lemma dget_ar n f : dget RFld (arr n f) = f. Proof. reflexivity. Qed.
Ltac nodup X := cbv [X dmat sm_items map fst]; repeat constructor; cbn [In]; intuition discriminate.
Ltac keys X Y := match goal with |- exists b, ?t = Some b /\ @?Q b =>
  let t' := eval cbv [X Y akey skey dict_get smul scaled dmat sm_items sm_scale sm_rows sm_cols map fst snd dscale arr Z.eqb Pos.eqb obind Z.opp dget] in t in
  change (exists b, t' = Some b /\ Q b) end.
Lemma conclude A sc v r : proper_scale sc ->
  (forall k, (k < sm_rows RFld A)%nat -> r k * sc = product A v k) -> (forall k, (sm_rows RFld A <= k)%nat -> r k = 0) ->
  exists b, with_scale sc (Some r) = Some b /\ is_product A v b.
Proof.
  intros Hs H1 H2. cbn [with_scale]. eexists. split; [reflexivity|]. split; intros k Hk; rewrite scale_array_ok by exact Hs.
  - apply H1, Hk.
  - rewrite H2 by exact Hk. ring.
Qed.
Lemma proper_one s : proper_scale s -> proper_scale (1 * s).
Proof. rewrite Rmult_1_l. auto. Qed.

Section Banded.
  Variables (h : nat -> R) (N : nat) (c s : R) (v : nat -> R).
  Hypothesis (Hs : proper_scale s).
  Notation obj X := (smul RFld (scaled c X) s).
  Ltac fin X Hr := apply conclude;
    [ apply (proper_one s Hs)
    | cbn [smul scaled sm_rows]; unfold X at 1; cbn [dmat sm_rows]; intros k Hk; rewrite Hr; rewrite product_terms by (nodup X);
      unfold X; cbv zeta; cbn [terms fold_right dmat sm_items sm_cols sm_scale]; term_rw; rewrite ?term_diag by lia; rewrite ?dget_sc, ?dget_ar;
      repeat match goal with |- context [Nat.ltb k ?m] => destruct (Nat.ltb_spec k m); [|lia] end;
      repeat first [rewrite above_scal | rewrite below_scal]; rn
    | cbn [smul scaled sm_rows]; unfold X; cbn [dmat sm_rows]; intros k Hk; rewrite Hr;
      match goal with |- context [Nat.ltb k ?m] => destruct (Nat.ltb_spec k m); [unfold dmax in *; lia|reflexivity] end ].
  Ltac dims a b := replace a with b in * by (unfold dmax; lia).
  Lemma BSDSD_ok : (6 <= N)%nat -> exists b, BSDSD_cython (obj (c_BSDSD h N)) v = Some b /\ is_product (obj (c_BSDSD h N)) v b.
  Proof.
    intros HN. keys BSDSD_cython c_BSDSD.
    match goal with |- context [Tridiagonal_matvec ?a0 ?a1 ?a2 ?a3 v] => destruct (Tridiagonal_spec a0 a1 a2 a3 v ltac:(unfold dmax; lia)) as (r & -> & Hr) end.
    match type of Hr with context [below ?m _ _ _ _] => replace m with (N - 2)%nat in Hr by (unfold dmax; lia) end.
    fin c_BSDSD Hr. ring.
  Qed.
  Lemma BSDSN_ok : (6 <= N)%nat -> exists b, BSDSN_cython (obj (c_BSDSN h N)) v = Some b /\ is_product (obj (c_BSDSN h N)) v b.
  Proof.
    intros HN. keys BSDSN_cython c_BSDSN.
    match goal with |- context [BDN_matvec ?a0 ?a1 ?a2 ?a3 v] => destruct (BDN_spec a0 a1 a2 a3 v ltac:(unfold dmax; lia)) as (r & -> & Hr) end.
    match type of Hr with context [below ?m _ _ _ _] => replace m with (N - 2)%nat in Hr by (unfold dmax; lia) end.
    fin c_BSDSN Hr. ring.
  Qed.
  Lemma BSBSB_ok : (12 <= N)%nat -> exists b, BSBSB_cython (obj (c_BSBSB h N)) v = Some b /\ is_product (obj (c_BSBSB h N)) v b.
  Proof.
    intros HN. keys BSBSB_cython c_BSBSB.
    match goal with |- context [Pentadiagonal_matvec ?a0 ?a1 ?a2 ?a3 ?a4 ?a5 v] => destruct (Pentadiagonal_spec a0 a1 a2 a3 a4 a5 v ltac:(unfold dmax; lia)) as (r & -> & Hr) end.
    match type of Hr with context [below ?m _ _ _ _] => replace m with (N - 4)%nat in Hr by (unfold dmax; lia) end.
    fin c_BSBSB Hr. ring.
  Qed.
  Lemma BSBSD_ok : (8 <= N)%nat -> exists b, BSBSD_cython (obj (c_BSBSD h N)) v = Some b /\ is_product (obj (c_BSBSD h N)) v b.
  Proof.
    intros HN. keys BSBSD_cython c_BSBSD.
    match goal with |- context [BBD_matvec ?a0 ?a1 ?a2 ?a3 ?a4 v] => destruct (BBD_spec a0 a1 a2 a3 a4 v ltac:(unfold dmax; lia)) as (r & -> & Hr) end.
    match type of Hr with context [below ?m _ _ _ _] => replace m with (N - 2)%nat in Hr by (unfold dmax; lia) end.
    fin c_BSBSD Hr. ring.
  Qed.
  Lemma CSDSN_ok : (4 <= N)%nat -> exists b, CSD_cython (obj (c_CSDSN N)) v = Some b /\ is_product (obj (c_CSDSN N)) v b.
  Proof.
    intros HN. keys CSD_cython c_CSDSN.
    match goal with |- context [CDD_matvec ?a0 ?a1 ?a2 v] => destruct (CDD_spec a0 a1 a2 v ltac:(unfold dmax; lia)) as (r & -> & Hr) end.
    match type of Hr with context [below ?m _ _ _ _] => replace m with (N - 2)%nat in Hr by (unfold dmax; lia) end.
    fin c_CSDSN Hr. ring.
  Qed.
  Lemma CSDSD_ok : (4 <= N)%nat -> exists b, CSD_cython (obj (c_CSDSD N)) v = Some b /\ is_product (obj (c_CSDSD N)) v b.
  Proof.
    intros HN. keys CSD_cython c_CSDSD.
    match goal with |- context [CDD_matvec ?a0 ?a1 ?a2 v] => destruct (CDD_spec a0 a1 a2 v ltac:(unfold dmax; lia)) as (r & -> & Hr) end.
    match type of Hr with context [below ?m _ _ _ _] => replace m with (N - 2)%nat in Hr by (unfold dmax; lia) end.
    fin c_CSDSD Hr. ring.
  Qed.
  Lemma CSBSD_ok : (6 <= N)%nat -> exists b, CSBSD_cython (obj (c_CSBSD N)) v = Some b /\ is_product (obj (c_CSBSD N)) v b.
  Proof.
    intros HN. keys CSBSD_cython c_CSBSD.
    match goal with |- context [CBD_matvec ?a0 ?a1 ?a2 ?a3 v] => destruct (CBD_spec a0 a1 a2 a3 v ltac:(unfold dmax; lia)) as (r & -> & Hr) end.
    match type of Hr with context [below ?m _ _ _ _] => replace m with (N - 2)%nat in Hr by (unfold dmax; lia) end.
    fin c_CSBSD Hr. ring.
  Qed.
  Lemma CSDSB_ok : (8 <= N)%nat -> exists b, CSDSB_cython (obj (c_CSDSB N)) v = Some b /\ is_product (obj (c_CSDSB N)) v b.
  Proof.
    intros HN. keys CSDSB_cython c_CSDSB.
    match goal with |- context [CDB_matvec ?a0 ?a1 ?a2 ?a3 v] => destruct (CDB_spec a0 a1 a2 a3 v ltac:(unfold dmax; lia)) as (r & -> & Hr) end.
    match type of Hr with context [below ?m _ _ _ _] => replace m with (N - 4)%nat in Hr by (unfold dmax; lia) end.
    fin c_CSDSB Hr. ring.
  Qed.
  Lemma ASBSB_ok : (8 <= N)%nat -> exists b, ASBSB_cython (obj (c_ASBSB N)) v = Some b /\ is_product (obj (c_ASBSB N)) v b.
  Proof.
    intros HN. keys ASBSB_cython c_ASBSB.
    match goal with |- context [Tridiagonal_matvec ?a0 ?a1 ?a2 ?a3 v] => destruct (Tridiagonal_spec a0 a1 a2 a3 v ltac:(unfold dmax; lia)) as (r & -> & Hr) end.
    match type of Hr with context [below ?m _ _ _ _] => replace m with (N - 4)%nat in Hr by (unfold dmax; lia) end.
    fin c_ASBSB Hr. ring.
  Qed.
End Banded.
