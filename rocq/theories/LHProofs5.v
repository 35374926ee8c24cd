(** LHProofs5.v -- entries of the matrices. *)
From Coq Require Import Reals ZArith List Arith Bool Lia Lra.
From Verif Require Import Base Fld SparseModel SparseSpec RPoly MatrixSpec MatrixProofs StencilModel StencilModel2 LegMatrixModel HelmholtzProofs BndModel BndProofs LHModel LHSpec LHProofs LHProofs2 GaussInt LHProofs3 LHProofs4.
Import ListNotations.
Local Open Scope R_scope.

(** ** reading entries *)
Ltac rr := match goal with |- @eq _ ?a ?b => change (@eq R a b) end; change (@fmul RFld) with Rmult; change (@f0 RFld) with 0.
Lemma entry_diag N c k j : mat_entry RFld (dmat N N [(0%Z, Scal RFld c)]) k j = c * kron k j.
Proof.
  unfold mat_entry, kron. cbn [sm_items sm_scale dmat lookup dget]. destruct (Z.eq_dec 0 (Z.of_nat j - Z.of_nat k)) as [E|E].
  - replace (Nat.eqb k j) with true by (symmetry; apply Nat.eqb_eq; lia). reflexivity.
  - replace (Nat.eqb k j) with false by (symmetry; apply Nat.eqb_neq; lia). symmetry. apply Rmult_0_r.
Qed.
Lemma entry_tri N a b k j : mat_entry RFld (dmat N N [(0%Z, Scal RFld a); (1%Z, Scal RFld b); ((-1)%Z, Scal RFld b)]) k j =
  a * kron k j + b * kron (S k) j + b * kron k (S j).
Proof.
  unfold mat_entry, kron. cbn [sm_items sm_scale dmat lookup dget].
  destruct (Z.eq_dec 0 (Z.of_nat j - Z.of_nat k)) as [E|E]; [|destruct (Z.eq_dec 1 (Z.of_nat j - Z.of_nat k)) as [F|F]; [|destruct (Z.eq_dec (-1) (Z.of_nat j - Z.of_nat k)) as [G|G]]].
  all: destruct (Nat.eqb_spec k j), (Nat.eqb_spec (S k) j), (Nat.eqb_spec k (S j)); try lia; rr; cbn [dget]; ring.
Qed.
Definition ahh_entry (N k j : nat) : R :=
  if Nat.eqb k j then ahh_0 N k else if Nat.eqb j (k + 2) then ahh_2 k else if Nat.eqb k (j + 2) then ahh_2 j else 0.
Lemma entry_ahh N k j : mat_entry RFld (AHHmat N) k j = ahh_entry N k j.
Proof.
  unfold mat_entry, AHHmat, ahh_entry, arr. cbn [sm_items sm_scale dmat lookup dget].
  destruct (Z.eq_dec 0 (Z.of_nat j - Z.of_nat k)) as [E|E]; [|destruct (Z.eq_dec 2 (Z.of_nat j - Z.of_nat k)) as [F|F]; [|destruct (Z.eq_dec (-2) (Z.of_nat j - Z.of_nat k)) as [G|G]]].
  all: destruct (Nat.eqb_spec k j), (Nat.eqb_spec j (k + 2)), (Nat.eqb_spec k (j + 2)); try lia; rr; cbn [dget].
  - subst j. rewrite Nat.min_id. ring.
  - replace (Nat.min k j) with k by lia. ring.
  - replace (Nat.min k j) with j by lia. ring.
  - reflexivity.
Qed.
Lemma matvec_sum N s v k : (k < N)%nat -> ahh_matvec N s v k = s * rsum N (fun j => mat_entry RFld (AHHmat N) k j * v j).
Proof.
  intros H.
  rewrite (sum_ext N _ (fun j => (if Nat.eqb j k then ahh_0 N k * v j else 0) + ((if Nat.eqb j (k + 2) then ahh_2 k * v j else 0) + (if Nat.eqb j (k - 2) then (if Nat.leb 2 k then ahh_2 j * v j else 0) else 0)))).
  2:{ intros j Hj. rewrite entry_ahh. unfold ahh_entry.
      destruct (Nat.eqb_spec k j), (Nat.eqb_spec j k), (Nat.eqb_spec j (k + 2)), (Nat.eqb_spec k (j + 2)), (Nat.eqb_spec j (k - 2)), (Nat.leb_spec 2 k); try lia; ring. }
  rewrite sum_add, sum_add. rewrite sum_delta by exact H.
  rewrite (HelmholtzProofs.rsum_one N (k + 2) (fun j => ahh_2 k * v j)), (HelmholtzProofs.rsum_one N (k - 2) (fun j => if Nat.leb 2 k then ahh_2 j * v j else 0)).
  unfold ahh_matvec. replace (Nat.ltb (k - 2) N) with true by (symmetry; apply Nat.ltb_lt; lia).
  destruct (Nat.ltb_spec k (N - 2)), (Nat.ltb_spec (k + 2) N), (Nat.leb_spec 2 k); try lia; ring.
Qed.

(** ** inner products of the derivatives *)
Definition ha (n : nat) : R := sqrt (INR n / 2).
Definition hb (n : nat) : R := sqrt (INR (n + 1) / 2).
Lemma hermite'_ab n x : hermite' n x = ha n * hermite (n - 1) x - hb n * hermite (n + 1) x.
Proof.
  unfold hermite', ha, hb. rewrite !Nat.add_1_r, !S_INR. destruct n as [|m].
  - cbn [INR]. replace (0 / 2) with 0 by field. rewrite sqrt_0. ring.
  - replace (S m - 1)%nat with m by lia. reflexivity.
Qed.
Definition form (d : nat -> nat -> R) (i j : nat) : R :=
  ha i * ha j * d (i - 1)%nat (j - 1)%nat - ha i * hb j * d (i - 1)%nat (j + 1)%nat - hb i * ha j * d (i + 1)%nat (j - 1)%nat + hb i * hb j * d (i + 1)%nat (j + 1)%nat.
(** kron for indices below T *)
Definition kron_below (T i j : nat) : R := if Nat.ltb i T then kron i j else 0.
Lemma ha_sq i : ha i * ha i = INR i / 2. Proof. apply sqrt_half_sq. Qed.
Lemma hb_sq i : hb i * hb i = (INR i + 1) / 2. Proof. unfold hb. rewrite sqrt_half_sq, plus_INR. reflexivity. Qed.
Lemma ha_hb i : hb i * ha (i + 2) = - ahh_2 i. Proof. rewrite ahh_2_eq. unfold ha, hb. ring. Qed.
Lemma ha_0 : ha 0 = 0. Proof. unfold ha. cbn [INR]. replace (0 / 2) with 0 by field. apply sqrt_0. Qed.
Definition tent (T i j : nat) : R :=
  if Nat.eqb i j then (if Nat.ltb (i + 1) T then INR i + 1 / 2 else INR i / 2)
  else if Nat.eqb j (i + 2) then ahh_2 i else if Nat.eqb i (j + 2) then ahh_2 j else 0.
Lemma form_value T i j : (i < T)%nat -> (j < T)%nat -> form (kron_below T) i j = tent T i j.
Proof.
  intros Hi Hj. unfold form.
  assert (A : ha i * ha j * kron_below T (i - 1) (j - 1) = if Nat.eqb i j then INR i / 2 else 0).
  { unfold kron_below. replace (Nat.ltb (i - 1) T) with true by (symmetry; apply Nat.ltb_lt; lia). unfold kron.
    destruct (Nat.eqb_spec i j) as [<-|N]; [rewrite Nat.eqb_refl, Rmult_1_r; apply ha_sq|].
    destruct (Nat.eqb_spec (i - 1) (j - 1)) as [E|E]; [|ring].
    destruct i as [|i]; [rewrite ha_0; ring|]. destruct j as [|j]; [rewrite ha_0; ring|lia]. }
  assert (B : hb i * hb j * kron_below T (i + 1) (j + 1) = if Nat.eqb i j then (if Nat.ltb (i + 1) T then (INR i + 1) / 2 else 0) else 0).
  { unfold kron_below, kron. destruct (Nat.eqb_spec i j) as [<-|N].
    - rewrite Nat.eqb_refl. destruct (Nat.ltb (i + 1) T); [rewrite Rmult_1_r; apply hb_sq|ring].
    - replace (Nat.eqb (i + 1) (j + 1)) with false by (symmetry; apply Nat.eqb_neq; lia). destruct (Nat.ltb (i + 1) T); ring. }
  assert (C : ha i * hb j * kron_below T (i - 1) (j + 1) = if Nat.eqb i (j + 2) then - ahh_2 j else 0).
  { unfold kron_below, kron. replace (Nat.ltb (i - 1) T) with true by (symmetry; apply Nat.ltb_lt; lia).
    destruct (Nat.eqb_spec (i - 1) (j + 1)), (Nat.eqb_spec i (j + 2)); try lia; [subst i; rewrite Rmult_1_r, Rmult_comm; apply ha_hb|ring]. }
  assert (D : hb i * ha j * kron_below T (i + 1) (j - 1) = if Nat.eqb j (i + 2) then - ahh_2 i else 0).
  { unfold kron_below, kron. destruct (Nat.eqb_spec j (i + 2)) as [->|N].
    - replace (Nat.ltb (i + 1) T) with true by (symmetry; apply Nat.ltb_lt; lia). replace (Nat.eqb (i + 1) (i + 2 - 1)) with true by (symmetry; apply Nat.eqb_eq; lia).
      rewrite Rmult_1_r. apply ha_hb.
    - replace (Nat.eqb (i + 1) (j - 1)) with false by (symmetry; apply Nat.eqb_neq; lia). destruct (Nat.ltb (i + 1) T); ring. }
  rewrite A, B, C, D. unfold tent.
  destruct (Nat.eqb_spec i j), (Nat.eqb_spec j (i + 2)), (Nat.eqb_spec i (j + 2)); try lia; try ring. destruct (Nat.ltb (i + 1) T); field.
Qed.
Lemma tent_ahh N i j : (i < N)%nat -> (j < N)%nat -> tent N i j = ahh_entry N i j.
Proof.
  intros Hi Hj. unfold tent, ahh_entry. destruct (Nat.eqb_spec i j) as [<-|]; [|reflexivity]. unfold ahh_0.
  destruct (Nat.ltb_spec (i + 1) N) as [L|L]; destruct (Nat.eqb_spec i (N - 1)) as [E|E]; try lia; [lra|].
  assert (EN : INR N = INR i + 1) by (rewrite <- S_INR; f_equal; lia). rewrite EN. field.
Qed.
(** the exact inner products *)
Definition exact_entry (i j : nat) : R :=
  if Nat.eqb i j then INR i + 1 / 2 else if Nat.eqb j (i + 2) then ahh_2 i else if Nat.eqb i (j + 2) then ahh_2 j else 0.
Lemma hermite'_int i j : integral_line (fun x => hermite' i x * hermite' j x) (exact_entry i j).
Proof.
  set (T := (i + j + 2)%nat).
  replace (exact_entry i j) with (form (kron_below T) i j).
  2:{ rewrite form_value by (unfold T; lia). unfold tent, exact_entry. replace (Nat.ltb (i + 1) T) with true by (symmetry; apply Nat.ltb_lt; unfold T; lia). reflexivity. }
  assert (K : forall a b, (a <= i + 1)%nat -> kron_below T a b = kron a b).
  { intros a b H. unfold kron_below. replace (Nat.ltb a T) with true by (symmetry; apply Nat.ltb_lt; unfold T; lia). reflexivity. }
  unfold form. rewrite !K by lia.
  apply (line_ext (fun x => (ha i * ha j) * (hermite (i - 1) x * hermite (j - 1) x) + ((- (ha i * hb j)) * (hermite (i - 1) x * hermite (j + 1) x) +
     ((- (hb i * ha j)) * (hermite (i + 1) x * hermite (j - 1) x) + (hb i * hb j) * (hermite (i + 1) x * hermite (j + 1) x))))).
  - intros x. rewrite !hermite'_ab. ring.
  - match goal with |- integral_line _ ?v => replace v with (ha i * ha j * kron (i - 1) (j - 1) + (- (ha i * hb j) * kron (i - 1) (j + 1) +
      (- (hb i * ha j) * kron (i + 1) (j - 1) + hb i * hb j * kron (i + 1) (j + 1)))) by ring end.
    repeat apply line_add; apply line_scal, hermite_orthonormal.
Qed.
(** the same with a Gauss rule whose points are the zeros of H_N *)
Lemma hermite'_quad N x w i j : hermite_gauss N x w -> (forall q, (q < N)%nat -> peval (hermP N) (x q) = 0) -> (i < N)%nat -> (j < N)%nat ->
  rsum N (fun q => herm_weight x w q * (hermite' i (x q) * hermite' j (x q))) = ahh_entry N i j.
Proof.
  intros G Z Hi Hj. rewrite <- tent_ahh, <- form_value by assumption.
  assert (Zh : forall q, (q < N)%nat -> hermite N (x q) = 0) by (intros q Hq; unfold hermite; rewrite (Z q Hq); ring).
  assert (D : forall a b, (a <= N)%nat -> (b <= N)%nat -> rsum N (fun q => herm_weight x w q * (hermite a (x q) * hermite b (x q))) = kron_below N a b).
  { intros a b Ha Hb. unfold kron_below. destruct (Nat.ltb_spec a N) as [L|L].
    - destruct (Nat.eq_dec b N) as [->|Nb]; [|apply herm_discrete; auto; lia].
      rewrite sum_0; [unfold kron; replace (Nat.eqb a N) with false by (symmetry; apply Nat.eqb_neq; lia); reflexivity|].
      intros q Hq. rewrite (Zh q Hq). ring.
    - replace a with N by lia. apply sum_0. intros q Hq. rewrite (Zh q Hq). ring. }
  unfold form. rewrite <- !D by lia.
  rewrite (sum_ext N _ (fun q => (ha i * ha j) * (herm_weight x w q * (hermite (i - 1) (x q) * hermite (j - 1) (x q))) + ((- (ha i * hb j)) * (herm_weight x w q * (hermite (i - 1) (x q) * hermite (j + 1) (x q))) +
     ((- (hb i * ha j)) * (herm_weight x w q * (hermite (i + 1) (x q) * hermite (j - 1) (x q))) + (hb i * hb j) * (herm_weight x w q * (hermite (i + 1) (x q) * hermite (j + 1) (x q))))))).
  2:{ intros q _. rewrite !hermite'_ab. ring. }
  rewrite !sum_add, !sum_scal. ring.
Qed.

(** ** the Dirichlet functions of the Laguerre family *)
Definition lagD (k : nat) (x : R) : R := laguerre k x - laguerre (S k) x.
Definition lagD' (k : nat) (x : R) : R := 1 / 2 * (laguerre k x + laguerre (S k) x).
Lemma lagD_deriv k x : derivable_pt_lim (lagD k) x (lagD' k x).
Proof.
  apply (derivable_ext (wl (padd (lagL k) (pscale (-1) (lagL (S k)))))).
  - intros y. unfold wl, lagD, laguerre. rewrite peval_padd, peval_pscale. ring.
  - replace (lagD' k x) with (wl (lq (padd (lagL k) (pscale (-1) (lagL (S k))))) x); [apply wl_deriv|].
    unfold wl, lq, lagD', laguerre. rewrite peval_padd, pderiv_padd, pderiv_pscale, peval_pscale, peval_padd, peval_pscale, lag_deriv. field.
Qed.
Lemma lag_bilinear (s : R) c k j : integral_half (fun x => (c * (laguerre k x + s * laguerre (S k) x)) * (c * (laguerre j x + s * laguerre (S j) x)))
  (c * c * ((1 + s * s) * kron k j + s * kron (S k) j + s * kron k (S j))).
Proof.
  apply (half_ext (fun x => (c * c) * (laguerre k x * laguerre j x) + ((c * c * s) * (laguerre k x * laguerre (S j) x) +
     ((c * c * s) * (laguerre (S k) x * laguerre j x) + (c * c * (s * s)) * (laguerre (S k) x * laguerre (S j) x))))); [intros x; ring|].
  replace (c * c * ((1 + s * s) * kron k j + s * kron (S k) j + s * kron k (S j))) with
    (c * c * kron k j + (c * c * s * kron k (S j) + (c * c * s * kron (S k) j + c * c * (s * s) * kron (S k) (S j)))) by (change (kron (S k) (S j)) with (kron k j); ring).
  repeat apply half_add; apply half_scal, laguerre_orthonormal.
Qed.
Lemma kron_sym i j : kron i j = kron j i. Proof. unfold kron. rewrite Nat.eqb_sym. reflexivity. Qed.
