(** HelmholtzProofs3.v -- the entries of the Dirichlet and Neumann matrices, row by row. *)
From Coq Require Import Reals ZArith List Arith Bool Lia Lra.
From Verif Require Import Base Fld SparseModel SparseSpec SparseProofs RPoly StencilModel StencilModel2 LegMatrixModel LegMatrixProofs5 LegMatrixProofs6
  ChebMatrixModel ChebMatrixProofs2 HelmholtzModel HelmholtzProofs HelmholtzProofs2.
Import ListNotations.
Local Open Scope R_scope.

Lemma lookup_scaled c l z : lookup RFld (map (fun kv => (fst kv, dscale RFld (snd kv) c)) l) z
  = match lookup RFld l z with Some d => Some (dscale RFld d c) | None => None end.
Proof.
  induction l as [|[k v] l IH]; [reflexivity|]. cbn [map lookup fst snd].
  destruct (Z.eq_dec k z); [reflexivity|exact IH].
Qed.
Lemma dget_scaled d c t : dget RFld (dscale RFld d c) t = dget RFld d t * c.
Proof. destruct d; reflexivity. Qed.
Lemma scaled_entry c A k j : mat_entry RFld (scaled c A) k j = c * mat_entry RFld A k j.
Proof.
  unfold mat_entry, scaled. cbn [sm_items sm_scale]. rewrite lookup_scaled.
  destruct (lookup RFld (sm_items RFld A) (Z.of_nat j - Z.of_nat k)) as [d|].
  - rewrite dget_scaled. rn. ring.
  - rn. ring.
Qed.
Lemma key_scaled c A z : key (scaled c A) z = match key A z with Some f => Some (fun i => dget RFld (match lookup RFld (sm_items RFld A) z with Some d => d | None => Scal RFld 0 end) i * c) | None => None end.
Proof.
  unfold key, scaled. cbn [sm_items]. rewrite !dict_get_lookup, lookup_scaled.
  destruct (lookup RFld (sm_items RFld A) z) as [[x|n f]|]; reflexivity.
Qed.
(** reading a stored diagonal *)
Lemma key_entry A z f : key A z = Some f ->
  forall k j, (Z.of_nat j - Z.of_nat k = z)%Z -> mat_entry RFld A k j = f (Nat.min k j) * sm_scale RFld A.
Proof.
  unfold key, mat_entry. rewrite dict_get_lookup. intros H k j <-.
  destruct (lookup RFld (sm_items RFld A) (Z.of_nat j - Z.of_nat k)); [|discriminate]. injection H as <-. reflexivity.
Qed.

Lemma zeven_nat j k : (k <= j)%nat -> Z.even (Z.of_nat j - Z.of_nat k - 0) = Nat.even (j - k).
Proof.
  intros H. replace (Z.of_nat j - Z.of_nat k - 0)%Z with (Z.of_nat (j - k)) by lia.
  destruct (Nat.even (j - k)) eqn:E.
  - apply Nat.even_spec in E. destruct E as [m E]. apply Z.even_spec. exists (Z.of_nat m). lia.
  - rewrite <- Nat.negb_odd in E. apply negb_false_iff in E. apply Nat.odd_spec in E. destruct E as [m E].
    rewrite <- Z.negb_odd. apply negb_false_iff. apply Z.odd_spec. exists (Z.of_nat m). lia.
Qed.

Lemma dense_brow N g di up far k j :
  (k < N - 2)%nat -> (j < N - 2)%nat ->
  dget RFld (g 0%Z) k = di ->
  (j = k + 2 -> dget RFld (g 2%Z) k = up)%nat ->
  (forall z, (3 < z)%Z -> Z.of_nat j - Z.of_nat k = z -> dget RFld (g z) k = far)%Z ->
  mat_entry RFld (dmat (N - 2) (N - 2) (fromkeys (zarange 0 (Z.of_nat N - 2)) g)) k j = brow 0 di up far k j.
Proof.
  intros Hk Hj H0 H2 H4. rewrite fromkeys_entry. cbv zeta. unfold brow.
  destruct (Nat.eqb_spec j k) as [->|N0].
  { rewrite Z.sub_diag. replace (0 <? Z.of_nat N - 2)%Z with true by (symmetry; apply Z.ltb_lt; lia).
    cbn [andb Z.leb Z.even Z.sub Z.compare]. rewrite Nat.min_id. exact H0. }
  destruct (Z.leb_spec 0 (Z.of_nat j - Z.of_nat k)) as [Hle|Hlt]; cbn [andb].
  2:{ replace (Nat.eqb j (k + 2)) with false by (symmetry; apply Nat.eqb_neq; lia).
      replace (Nat.leb (k + 4) j) with false by (symmetry; apply Nat.leb_gt; lia). cbn [andb].
      destruct (Nat.eqb (j + 2) k); reflexivity. }
  replace (Z.of_nat j - Z.of_nat k <? Z.of_nat N - 2)%Z with true by (symmetry; apply Z.ltb_lt; lia). cbn [andb].
  rewrite zeven_nat by lia.
  replace (Nat.eqb (j + 2) k) with false by (symmetry; apply Nat.eqb_neq; lia).
  rewrite Nat.min_l by lia.
  destruct (Nat.eqb_spec j (k + 2)) as [->|N2].
  { replace (k + 2 - k)%nat with 2%nat by lia. cbn [Nat.even]. replace (Z.of_nat (k + 2) - Z.of_nat k)%Z with 2%Z by lia. apply H2. reflexivity. }
  destruct (Nat.leb_spec (k + 4) j); cbn [andb].
  - destruct (Nat.even (j - k)); [|reflexivity]. apply H4; [lia|reflexivity].
  - destruct (Nat.even (j - k)) eqn:E; [|reflexivity]. assert (Hc : (j - k = 1 \/ j - k = 3)%nat) by lia.
    destruct Hc as [Hc|Hc]; rewrite Hc in E; discriminate.
Qed.

Lemma ASDSD_row N k j : (k < N - 2)%nat -> (j < N - 2)%nat ->
  mat_entry RFld (c_ASDSD N) k j = brow 0 (-2 * PI * (INR k + 1) * (INR k + 2)) (-4 * PI * (INR k + 1)) (-4 * PI * (INR k + 1)) k j.
Proof.
  intros Hk Hj. unfold c_ASDSD. apply dense_brow; try assumption; try reflexivity.
  intros z Hz Hjk. destruct (Z.eqb_spec z 0); [lia|]. destruct (Z.eqb_spec z 2); [lia|]. reflexivity.
Qed.
(** the columns of the Neumann matrices are multiplied by j^2 *)
Lemma ASNSN_row N k j : (k < N - 2)%nat -> (j < N - 2)%nat ->
  mat_entry RFld (c_ASNSN N) k j
  = brow 0 (-2 * PI * (INR k + 1) / (INR k + 2)) (-4 * PI * (INR k + 1) / (INR k + 2) ^ 2) (-4 * PI * (INR k + 1) / (INR k + 2) ^ 2) k j * INR j ^ 2.
Proof.
  intros Hk Hj. pose proof (pos_INR k) as Pk.
  unfold c_ASNSN.
  rewrite (dense_brow N _ (-2 * PI * INR k ^ 2 * (INR k + 1) / (INR k + 2))
     (-4 * PI * (INR j) ^ 2 * (INR k + 1) / (INR k + 2) ^ 2) (-4 * PI * (INR j) ^ 2 * (INR k + 1) / (INR k + 2) ^ 2)).
  - rn. unfold brow. destruct (Nat.eqb_spec j k) as [->|]; [field; lra|].
    destruct (Nat.eqb j (k + 2)); [field; lra|].
    destruct (Nat.leb (k + 4) j && Nat.even (j - k))%bool; [field; lra|].
    destruct (Nat.eqb (j + 2) k); ring.
  - assumption.
  - assumption.
  - reflexivity.
  - intros ->. cbn [Z.eqb dget arr]. rewrite plus_INR. reflexivity.
  - intros z Hz Hjk. destruct (Z.eqb_spec z 0); [lia|]. cbn [dget arr].
    replace (INR k + INR (Z.to_nat z)) with (INR j); [reflexivity|]. rewrite <- plus_INR. f_equal. lia.
Qed.

Lemma tri_brow N lo di up k j : (k < N)%nat -> (j < N)%nat ->
  forall d0 dm dp items, items = [((-2)%Z, dm); (0%Z, d0); (2%Z, dp)] \/ items = [(0%Z, d0); (2%Z, dp); ((-2)%Z, dm)] ->
  dget RFld d0 k = di -> dget RFld dp k = up -> (2 <= k -> dget RFld dm (k - 2) = lo)%nat ->
  mat_entry RFld (dmat N N items) k j = brow lo di up 0 k j.
Proof.
  intros Hk Hj d0 dm dp items Hi E0 Ep Em. unfold mat_entry, dmat. cbn [sm_items sm_scale]. unfold brow.
  assert (G : lookup RFld items (Z.of_nat j - Z.of_nat k)
    = if Nat.eqb j k then Some d0 else if Nat.eqb j (k + 2) then Some dp else if Nat.eqb (j + 2) k then Some dm else None).
  { destruct Hi as [-> | ->]; cbn [lookup];
      repeat match goal with |- context [Z.eq_dec ?a ?b] => destruct (Z.eq_dec a b) end;
      destruct (Nat.eqb_spec j k); destruct (Nat.eqb_spec j (k + 2)); destruct (Nat.eqb_spec (j + 2) k); try lia; reflexivity. }
  rewrite G. rn.
  destruct (Nat.eqb_spec j k) as [->|]; [rewrite Nat.min_id, E0; ring|].
  destruct (Nat.eqb_spec j (k + 2)) as [->|]; [rewrite Nat.min_l, Ep by lia; ring|].
  destruct (Nat.eqb_spec (j + 2) k) as [Hjk|].
  - rewrite Nat.min_r by lia. replace j with (k - 2)%nat at 1 by lia. rewrite Em by lia.
    replace (Nat.leb (k + 4) j) with false by (symmetry; apply Nat.leb_gt; lia). cbn [andb]. ring.
  - destruct (Nat.leb (k + 4) j && Nat.even (j - k))%bool; reflexivity.
Qed.

Lemma BSDSD_row h N k j : (k < N - 2)%nat -> (j < N - 2)%nat ->
  mat_entry RFld (c_BSDSD h N) k j = brow (- h 1%nat) (h k + h (k + 2)%nat) (- h 1%nat) 0 k j.
Proof. intros Hk Hj. unfold c_BSDSD. eapply tri_brow; try assumption; [left; reflexivity|reflexivity..]. Qed.

Definition nal (i : nat) : R := (INR i / (INR i + 2)) ^ 2.
Lemma BSNSN_row h N k j : (k < N - 2)%nat -> (j < N - 2)%nat ->
  mat_entry RFld (c_BSNSN h N) k j
  = brow (- nal (k - 2) * h k) (h k + nal k ^ 2 * h (k + 2)%nat) (- nal k * h (k + 2)%nat) 0 k j.
Proof.
  intros Hk Hj. unfold c_BSNSN. eapply tri_brow; try assumption; [right; reflexivity|reflexivity|reflexivity|].
  intros H2. cbn [dget arr]. replace (k - 2 + 2)%nat with k by lia. reflexivity.
Qed.

(** ** the keys that the solvers read *)
Lemma key_fromkeys r c s a b g z : In z (zarange a b) ->
  key (scaled s (dmat r c (fromkeys (zarange a b) g))) z = Some (fun i => dget RFld (dscale RFld (g z) s) i).
Proof.
  intros H. unfold key, scaled, dmat, fromkeys. cbn [sm_items]. rewrite dict_get_lookup, lookup_scaled.
  rewrite (lookup_map_in (fun z => z) g) by (trivial; exact H). reflexivity.
Qed.
Lemma key_fromkeys_none r c s a b g z : ~ In z (zarange a b) ->
  key (scaled s (dmat r c (fromkeys (zarange a b) g))) z = None.
Proof.
  intros H. unfold key, scaled, dmat, fromkeys. cbn [sm_items]. rewrite dict_get_lookup, lookup_scaled.
  rewrite (lookup_map_out (fun z => z) g); [reflexivity|]. intros x Hx E. subst. exact (H Hx).
Qed.
