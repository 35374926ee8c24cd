(** GenProofs8.v -- the stencils of Phi1, Phi2, Phi3, Phi4, Phi6 of both Chebyshev families are dual to the derivatives. *)
From Coq Require Import Reals ZArith List Bool Arith Lia Lra.
From Verif Require Import Base Fld SparseModel SparseSpec RPoly StencilModel StencilSpec StencilProofs StencilProofs8 MatrixSpec MatrixProofs ChebMatrixProofs UTransSpec UTransProofs2
  JacobiModel JacobiProofs2 JacobiProofs3 JacobiProofs4 GenModel GenSpec GenProofs GenProofs2 GenProofs3 GenProofs4 GenProofs5 GenProofs6 GenProofs7.
Import ListNotations.
Local Open Scope R_scope.
Notation rsum := (gsum 0 Rplus).

(** the matrices b: Q_j = sum_i b_ij Q_i' *)
Definition bT : mat := fun i j =>
  if (i =? S j)%nat then (if (j =? 0)%nat then 1 else 1 / (2 * (INR j + 1))) else if (j =? S i)%nat then (if (i =? 0)%nat then 0 else - 1 / (2 * INR i)) else 0.
Definition bU : mat := fun i j =>
  if (i =? S j)%nat then 1 / (2 * (INR j + 1)) else if (j =? S i)%nat then - 1 / (2 * (INR i + 2)) else 0.
Lemma b_two (b : mat) (F : nat -> R) j : (forall i j, (i <> S j)%nat -> (j <> S i)%nat -> b i j = 0) ->
  rsum (j + 2) (fun i => b i j * F i) = (match j with O => 0 | S i => b i j * F i end) + b (S j) j * F (S j).
Proof.
  intros Bd. replace (j + 2)%nat with (S (S j)) by lia. destruct j as [|j].
  - cbn [gsum]. rewrite (Bd 0%nat 0%nat) by lia. ring.
  - cbn [gsum]. rewrite (Bd (S j) (S j)) by lia. rewrite sum_0 by (intros i Hi; rewrite (Bd i (S j)) by lia; ring). ring.
Qed.
Lemma bT_band i j : (i <> S j)%nat -> (j <> S i)%nat -> bT i j = 0.
Proof. intros H1 H2. unfold bT. destruct (Nat.eqb_spec i (S j)); [lia|]. destruct (Nat.eqb_spec j (S i)); [lia|reflexivity]. Qed.
Lemma bU_band i j : (i <> S j)%nat -> (j <> S i)%nat -> bU i j = 0.
Proof. intros H1 H2. unfold bU. destruct (Nat.eqb_spec i (S j)); [lia|]. destruct (Nat.eqb_spec j (S i)); [lia|reflexivity]. Qed.
Lemma bT_up j : bT (S j) j = if (j =? 0)%nat then 1 else 1 / (2 * (INR j + 1)).
Proof. unfold bT. rewrite Nat.eqb_refl. reflexivity. Qed.
Lemma bU_up j : bU (S j) j = 1 / (2 * (INR j + 1)).
Proof. unfold bU. rewrite Nat.eqb_refl. reflexivity. Qed.
Lemma bT_down i : bT i (S i) = if (i =? 0)%nat then 0 else - 1 / (2 * INR i).
Proof. unfold bT. destruct (Nat.eqb_spec i (S (S i))); [lia|]. rewrite Nat.eqb_refl. reflexivity. Qed.
Lemma bU_down i : bU i (S i) = - 1 / (2 * (INR i + 2)).
Proof. unfold bU. destruct (Nat.eqb_spec i (S (S i))); [lia|]. rewrite Nat.eqb_refl. reflexivity. Qed.
Lemma bT_lead j : bT (S j) j <> 0.
Proof. rewrite bT_up. pose proof (pos_INR j). destruct (j =? 0)%nat; [lra|]. apply Rmult_integral_contrapositive. split; [lra|apply Rinv_neq_0_compat; lra]. Qed.
Lemma bU_lead j : bU (S j) j <> 0.
Proof. rewrite bU_up. pose proof (pos_INR j). apply Rmult_integral_contrapositive. split; [lra|apply Rinv_neq_0_compat; lra]. Qed.
Lemma T_b j x : peval (chebT j) x = rsum (j + 2) (fun i => bT i j * deriv_at 1 (chebT i) x).
Proof.
  rewrite (b_two bT (fun i => deriv_at 1 (chebT i) x) j bT_band), bT_up. unfold deriv_at. cbn [dn]. rewrite T_deriv.
  destruct j as [|[|j]].
  - cbn. ring.
  - cbn. field.
  - rewrite bT_down, T_deriv. cbn [Nat.eqb]. pose proof (TU j x) as H. rewrite !S_INR. pose proof (pos_INR j).
    replace (peval (chebT (S (S j))) x) with ((peval (chebU (S (S j))) x - peval (chebU j) x) / 2) by lra. field. lra.
Qed.
Lemma U_b j x : peval (chebU j) x = rsum (j + 2) (fun i => bU i j * deriv_at 1 (chebU i) x).
Proof.
  rewrite (b_two bU (fun i => deriv_at 1 (chebU i) x) j bU_band), bU_up. unfold deriv_at. cbn [dn].
  destruct j as [|j].
  - cbn. field.
  - rewrite bU_down. pose proof (T_deriv (S j) x) as H. pose proof (pos_INR j).
    assert (E : forall y, peval (pscale 2 (chebT (S (S j)))) y = peval (padd (chebU (S (S j))) (pscale (-1) (chebU j))) y).
    { intros y. rewrite peval_padd, !peval_pscale, TU. ring. }
    pose proof (peq_dn 1 _ _ E x) as D. rewrite deriv_at_padd, !deriv_at_pscale in D. unfold deriv_at in D. cbn [dn] in D. rewrite H in D. rewrite !S_INR in *.
    replace (peval (pderiv (chebU (S (S j)))) x) with (2 * ((INR j + 1 + 1) * peval (chebU (S j)) x) + peval (pderiv (chebU j)) x) by lra.
    field. lra.
Qed.
(** the coefficients; those of Phi5, which is not a class, are an intermediate step *)
Definition listT (k : nat) (n : R) : list R :=
  match k with
  | 1%nat => [((1 / PI) / (n + 1));
           (((- 1) / PI) / (n + 1))]
  | 2%nat => [(1 / (((2 * PI) * (n + 1)) * (n + 2)));
           ((- 1) / (PI * (((n ^ 2) + (4 * n)) + 3)));
           (1 / (((2 * PI) * (n + 2)) * (n + 3)))]
  | 3%nat => [(1 / ((((4 * PI) * (n + 1)) * (n + 2)) * (n + 3)));
           ((- 3) / ((((4 * PI) * (n + 1)) * (n + 3)) * (n + 4)));
           (3 / ((((4 * PI) * (n + 2)) * (n + 3)) * (n + 5)));
           ((- 1) / ((((4 * PI) * (n + 3)) * (n + 4)) * (n + 5)))]
  | 4%nat => [(1 / (((((8 * PI) * (n + 1)) * (n + 2)) * (n + 3)) * (n + 4)));
           ((- 1) / (((((2 * PI) * (n + 1)) * (n + 3)) * (n + 4)) * (n + 5)));
           (3 / (((((4 * PI) * (n + 2)) * (n + 3)) * (n + 5)) * (n + 6)));
           ((- 1) / (((((2 * PI) * (n + 3)) * (n + 4)) * (n + 5)) * (n + 7)));
           (1 / (((((8 * PI) * (n + 4)) * (n + 5)) * (n + 6)) * (n + 7)))]
  | 5%nat => [1 / (16 * PI * ((n + 1) * (n + 2) * (n + 3) * (n + 4) * (n + 5)));
           (- 5) / (16 * PI * ((n + 1) * (n + 3) * (n + 4) * (n + 5) * (n + 6)));
           10 / (16 * PI * ((n + 2) * (n + 3) * (n + 5) * (n + 6) * (n + 7)));
           (- 10) / (16 * PI * ((n + 3) * (n + 4) * (n + 5) * (n + 7) * (n + 8)));
           5 / (16 * PI * ((n + 4) * (n + 5) * (n + 6) * (n + 7) * (n + 9)));
           (- 1) / (16 * PI * ((n + 5) * (n + 6) * (n + 7) * (n + 8) * (n + 9)))]
  | 6%nat => [(1 / (((((((32 * PI) * (n + 1)) * (n + 2)) * (n + 3)) * (n + 4)) * (n + 5)) * (n + 6)));
           ((- 3) / (((((((16 * PI) * (n + 1)) * (n + 3)) * (n + 4)) * (n + 5)) * (n + 6)) * (n + 7)));
           (15 / (((((((32 * PI) * (n + 2)) * (n + 3)) * (n + 5)) * (n + 6)) * (n + 7)) * (n + 8)));
           ((- 5) / (((((((8 * PI) * (n + 3)) * (n + 4)) * (n + 5)) * (n + 7)) * (n + 8)) * (n + 9)));
           (15 / (((((((32 * PI) * (n + 4)) * (n + 5)) * (n + 6)) * (n + 7)) * (n + 9)) * (n + 10)));
           ((- 3) / (((((((16 * PI) * (n + 5)) * (n + 6)) * (n + 7)) * (n + 8)) * (n + 9)) * (n + 11)));
           (1 / (((((((32 * PI) * (n + 6)) * (n + 7)) * (n + 8)) * (n + 9)) * (n + 10)) * (n + 11)))]
  | _ => []
  end.
Definition listU (k : nat) (n : R) : list R :=
  match k with
  | 1%nat => [(1 / (PI * (n + 1)));
           ((- 1) / (PI * (n + 3)))]
  | 2%nat => [(1 / (((2 * PI) * (n + 1)) * (n + 2)));
           ((- 1) / ((PI * (n + 2)) * (n + 4)));
           (1 / (((2 * PI) * (n + 4)) * (n + 5)))]
  | 3%nat => [(1 / ((((4 * PI) * (n + 1)) * (n + 2)) * (n + 3)));
           ((- 3) / ((((4 * PI) * (n + 2)) * (n + 3)) * (n + 5)));
           (3 / ((((4 * PI) * (n + 3)) * (n + 5)) * (n + 6)));
           ((- 1) / ((((4 * PI) * (n + 5)) * (n + 6)) * (n + 7)))]
  | 4%nat => [(1 / (((((8 * PI) * (n + 1)) * (n + 2)) * (n + 3)) * (n + 4)));
           ((- 1) / (((((2 * PI) * (n + 2)) * (n + 3)) * (n + 4)) * (n + 6)));
           (3 / (((((4 * PI) * (n + 3)) * (n + 4)) * (n + 6)) * (n + 7)));
           ((- 1) / (((((2 * PI) * (n + 4)) * (n + 6)) * (n + 7)) * (n + 8)));
           (1 / (((((8 * PI) * (n + 6)) * (n + 7)) * (n + 8)) * (n + 9)))]
  | 5%nat => [1 / (16 * PI * ((n + 1) * (n + 2) * (n + 3) * (n + 4) * (n + 5)));
           (- 5) / (16 * PI * ((n + 2) * (n + 3) * (n + 4) * (n + 5) * (n + 7)));
           10 / (16 * PI * ((n + 3) * (n + 4) * (n + 5) * (n + 7) * (n + 8)));
           (- 10) / (16 * PI * ((n + 4) * (n + 5) * (n + 7) * (n + 8) * (n + 9)));
           5 / (16 * PI * ((n + 5) * (n + 7) * (n + 8) * (n + 9) * (n + 10)));
           (- 1) / (16 * PI * ((n + 7) * (n + 8) * (n + 9) * (n + 10) * (n + 11)))]
  | 6%nat => [(1 / (((((((32 * PI) * (n + 1)) * (n + 2)) * (n + 3)) * (n + 4)) * (n + 5)) * (n + 6)));
           ((- 3) / (((((((16 * PI) * (n + 2)) * (n + 3)) * (n + 4)) * (n + 5)) * (n + 6)) * (n + 8)));
           (15 / (((((((32 * PI) * (n + 3)) * (n + 4)) * (n + 5)) * (n + 6)) * (n + 8)) * (n + 9)));
           ((- 5) / (((((((8 * PI) * (n + 4)) * (n + 5)) * (n + 6)) * (n + 8)) * (n + 9)) * (n + 10)));
           (15 / (((((((32 * PI) * (n + 5)) * (n + 6)) * (n + 8)) * (n + 9)) * (n + 10)) * (n + 11)));
           ((- 3) / (((((((16 * PI) * (n + 6)) * (n + 8)) * (n + 9)) * (n + 10)) * (n + 11)) * (n + 12)));
           (1 / (((((((32 * PI) * (n + 8)) * (n + 9)) * (n + 10)) * (n + 11)) * (n + 12)) * (n + 13)))]
  | _ => []
  end.
Definition cT (k m i : nat) : R := nth i (listT k (INR m)) 0.
Definition cU (k m i : nat) : R := nth i (listU k (INR m)) 0.
Lemma bT_row (k m : nat) : bT (m + S (S k))%nat (m + S k)%nat = 1 / (2 * (INR m + INR k + 2)) /\ bT (m + S (S k))%nat (m + S (S (S k)))%nat = - 1 / (2 * (INR m + INR k + 2)).
Proof.
  pose proof (pos_INR m). pose proof (pos_INR k). split.
  - replace (m + S (S k))%nat with (S (m + S k)) by lia. rewrite bT_up. destruct (Nat.eqb_spec (m + S k) 0); [lia|]. rewrite plus_INR, S_INR. f_equal. ring.
  - replace (m + S (S (S k)))%nat with (S (m + S (S k))) by lia. rewrite bT_down. destruct (Nat.eqb_spec (m + S (S k)) 0); [lia|]. rewrite plus_INR, !S_INR. f_equal. f_equal. ring.
Qed.
Lemma bU_row (k m : nat) : bU (m + S k)%nat (m + k)%nat = 1 / (2 * (INR m + INR k + 1)) /\ bU (m + S k)%nat (m + S (S k))%nat = - 1 / (2 * (INR m + INR k + 3)).
Proof.
  split.
  - replace (m + S k)%nat with (S (m + k)) by lia. rewrite bU_up, plus_INR. reflexivity.
  - replace (m + S (S k))%nat with (S (m + S k)) by lia. rewrite bU_down, plus_INR, S_INR. f_equal. f_equal. ring.
Qed.
Lemma T0 x : deriv_at 1 (chebT 0) x = 0. Proof. cbn; ring. Qed.
Lemma U0 x : deriv_at 1 (chebU 0) x = 0. Proof. cbn; ring. Qed.
Definition dual1 (f : poly -> poly -> R) (P : nat -> poly) (k : nat) (c : nat -> nat -> R) : Prop :=
  forall n m, f (dn k (P n)) (comb2P P m (S k) (c m)) = if (n =? m + k)%nat then 1 else 0.
Ltac step_case := intros m i Hi; pose proof PI_RGT_0 as HPI; pose proof (pos_INR m) as HM.
Lemma T_dual1 : dual1 cip chebT 1 (cT 1).
Proof.
  refine (comb_step cip chebT bT 0 cip_form T0 T_b bT_band bT_lead (fun m _ => / (if (m =? 0)%nat then PI else PI / 2)) (cT 1) 1 _ _).
  - intros n m. pose proof PI_RGT_0. unfold comb2P. rewrite (f_val_r cip cip_form _ 1 (fun _ => / (if (m =? 0)%nat then PI else PI / 2)) (fun _ => chebT m)).
    + cbn [gsum dn]. rewrite cip_orth, Nat.add_0_r. destruct (Nat.eqb_spec n m) as [->|]; [|ring]. destruct (m =? 0)%nat; field; lra.
    + intros x. rewrite peval_comb. cbn [gsum]. rewrite Nat.mul_0_r, Nat.add_0_r. reflexivity.
  - step_case. replace (m + 1)%nat with (S m) by lia. replace (m + 0)%nat with m by lia. replace (m + 2)%nat with (S (S m)) by lia. rewrite bT_up, bT_down.
    destruct i as [|[|i]]; [| |lia]; cbn [Nat.ltb Nat.leb Nat.eqb cT listT nth]; unfold cT; cbn [nth listT]; rewrite ?S_INR.
    + destruct (Nat.eqb_spec m 0) as [->|]; cbn [INR]; field; lra.
    + field. lra.
Qed.
Lemma U_dual1 : dual1 uip chebU 1 (cU 1).
Proof.
  refine (comb_step uip chebU bU 0 uip_form U0 U_b bU_band bU_lead (fun m _ => / (PI / 2)) (cU 1) 1 _ _).
  - intros n m. pose proof PI_RGT_0. unfold comb2P. rewrite (f_val_r uip uip_form _ 1 (fun _ => / (PI / 2)) (fun _ => chebU m)).
    + cbn [gsum dn]. rewrite uip_orth, Nat.add_0_r. destruct (Nat.eqb_spec n m) as [->|]; [|ring]. field; lra.
    + intros x. rewrite peval_comb. cbn [gsum]. rewrite Nat.mul_0_r, Nat.add_0_r. reflexivity.
  - step_case. destruct (bU_row 0 m) as [-> ->]. cbn [INR].
    destruct i as [|[|i]]; [| |lia]; cbn [Nat.ltb Nat.leb Nat.eqb]; unfold cU; cbn [nth listU]; field; lra.
Qed.
Ltac shiftm m := replace (INR (m + 2)) with (INR m + 2) by (rewrite plus_INR; cbn [INR]; ring).
Lemma T_step k : (1 <= k < 6)%nat -> dual1 cip chebT k (cT k) -> dual1 cip chebT (S k) (cT (S k)).
Proof.
  intros Hk H. refine (comb_step cip chebT bT k cip_form T0 T_b bT_band bT_lead (cT k) (cT (S k)) (S k) H _).
  step_case. destruct k as [|k]; [lia|]. destruct (bT_row k m) as [-> ->]. unfold cT. shiftm m. set (n := INR m) in *. clearbody n.
  destruct k as [|[|[|[|[|k]]]]]; [| | | | |lia]; cbn [INR];
  (destruct i as [|[|[|[|[|[|[|i]]]]]]]; try lia; cbn [Nat.ltb Nat.leb nth listT]; field; neq0).
Qed.
Lemma U_step k : (1 <= k < 6)%nat -> dual1 uip chebU k (cU k) -> dual1 uip chebU (S k) (cU (S k)).
Proof.
  intros Hk H. refine (comb_step uip chebU bU k uip_form U0 U_b bU_band bU_lead (cU k) (cU (S k)) (S k) H _).
  step_case. destruct (bU_row k m) as [-> ->]. unfold cU. shiftm m. set (n := INR m) in *. clearbody n.
  destruct k as [|[|[|[|[|[|k]]]]]]; [lia| | | | | |lia]; cbn [INR];
  (destruct i as [|[|[|[|[|[|[|i]]]]]]]; try lia; cbn [Nat.ltb Nat.leb nth listU]; field; neq0).
Qed.
Lemma T_dual k : (1 <= k <= 6)%nat -> dual1 cip chebT k (cT k).
Proof. intros Hk. destruct k as [|k]; [lia|]. induction k as [|k IH]; [exact T_dual1|]. apply T_step; [lia|]. apply IH. lia. Qed.
Lemma U_dual k : (1 <= k <= 6)%nat -> dual1 uip chebU k (cU k).
Proof. intros Hk. destruct k as [|k]; [lia|]. induction k as [|k IH]; [exact U_dual1|]. apply U_step; [lia|]. apply IH. lia. Qed.
