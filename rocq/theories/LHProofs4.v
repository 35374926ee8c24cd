(** LHProofs4.v -- transforms and matrices of the Hermite and Laguerre functions. *)
From Coq Require Import Reals ZArith List Arith Bool Lia Lra.
From Verif Require Import Base Fld SparseModel SparseSpec RPoly MatrixSpec MatrixProofs StencilModel StencilModel2 LegMatrixModel HelmholtzProofs BndModel BndProofs LHModel LHSpec LHProofs LHProofs2 GaussInt LHProofs3.
Import ListNotations.
Local Open Scope R_scope.

(** ** Gauss rules *)
Lemma length_pmul p q : (length (pmul p q) <= length p + length q)%nat.
Proof.
  induction p as [|a p IH]; cbn [pmul]; [cbn; lia|]. rewrite length_padd. unfold pscale. rewrite map_length. unfold pX. cbn [length]. lia.
Qed.
Lemma prod_short P Q i j : deglt (S i) P -> deglt (S j) Q -> exists p, (length p <= S i + S j)%nat /\ forall x, peval p x = peval P x * peval Q x.
Proof.
  intros (p & Lp & Ep) (q & Lq & Eq). exists (pmul p q). split; [pose proof (length_pmul p q); lia|]. intros x. rewrite peval_pmul, Ep, Eq. reflexivity.
Qed.
Lemma deglt_lag n : deglt (S n) (lagL n).
Proof. apply deglt_three_term. exists [1; - (1)]. split; [cbn; lia|reflexivity]. Qed.
Lemma deglt_herm n : deglt (S n) (hermP n).
Proof. apply deglt_three_term. exists [0; 2]. split; [cbn; lia|reflexivity]. Qed.
Lemma gauss_lag n x w i j : laguerre_gauss n x w -> (i < n)%nat -> (j < n)%nat ->
  rsum n (fun q => w q * (peval (lagL i) (x q) * peval (lagL j) (x q))) = kron i j.
Proof.
  intros G Hi Hj. destruct (prod_short _ _ i j (deglt_lag i) (deglt_lag j)) as (p & Lp & Ep).
  rewrite <- (G p (kron i j)); [apply sum_ext; intros q _; rewrite Ep; reflexivity|lia|].
  apply (half_ext (fun x => peval (lagL i) x * peval (lagL j) x * exp (- x))); [intros y; rewrite Ep; reflexivity|apply lag_int].
Qed.
Lemma gauss_herm n x w i j : hermite_gauss n x w -> (i < n)%nat -> (j < n)%nat ->
  rsum n (fun q => w q * (peval (hermP i) (x q) * peval (hermP j) (x q))) = kron i j * hnorm i.
Proof.
  intros G Hi Hj. destruct (prod_short _ _ i j (deglt_herm i) (deglt_herm j)) as (p & Lp & Ep).
  rewrite <- (G p (kron i j * hnorm i)); [apply sum_ext; intros q _; rewrite Ep; reflexivity|lia|].
  apply (line_ext (fun x => peval (hermP i) x * peval (hermP j) x * exp (- x ^ 2))); [intros y; rewrite Ep; reflexivity|apply herm_int].
Qed.
Lemma lag_fun x i : lag_vandermonde x i = laguerre i x. Proof. unfold lag_vandermonde, laguerre. rewrite lagvander_ok. reflexivity. Qed.
Lemma neg_sq x : - (x ^ 2) / 2 = - x ^ 2 / 2. Proof. reflexivity. Qed.
Lemma herm_fun x i : herm_basis_all x i = hermite i x.
Proof. unfold herm_basis_all, hermite. rewrite hermvander_ok, factor_eq. ring. Qed.
(** the rule with the weights of points_and_weights gives the discrete inner products of the functions *)
Lemma lag_discrete n x w i j : laguerre_gauss n x w -> (i < n)%nat -> (j < n)%nat ->
  rsum n (fun q => lag_weight x w q * (laguerre i (x q) * laguerre j (x q))) = kron i j.
Proof.
  intros G Hi Hj. rewrite <- (gauss_lag n x w i j G Hi Hj). apply sum_ext. intros q _. unfold lag_weight, laguerre.
  assert (E : exp (x q) * (exp (- x q / 2) * exp (- x q / 2)) = 1) by (rewrite exp_half_sq, <- exp_plus, Rplus_opp_r; apply exp_0).
  transitivity (w q * (peval (lagL i) (x q) * peval (lagL j) (x q)) * (exp (x q) * (exp (- x q / 2) * exp (- x q / 2)))); [ring|rewrite E; ring].
Qed.
Lemma kron_factor i j : herm_factor i * herm_factor j * (kron i j * hnorm i) = kron i j.
Proof.
  unfold kron. destruct (Nat.eqb_spec i j) as [<-|N]; [|ring]. rewrite factor_sq. unfold hnorm.
  pose proof sPI_pos. pose proof (fact_INR_pos i). pose proof (pow_lt 2 i ltac:(lra)). field. lra.
Qed.
Lemma herm_discrete n x w i j : hermite_gauss n x w -> (i < n)%nat -> (j < n)%nat ->
  rsum n (fun q => herm_weight x w q * (hermite i (x q) * hermite j (x q))) = kron i j.
Proof.
  intros G Hi Hj. rewrite <- (kron_factor i j), <- (gauss_herm n x w i j G Hi Hj), <- sum_scal. apply sum_ext. intros q _. unfold herm_weight.
  rewrite !hermite_wh. unfold wh. rewrite !peval_pscale.
  assert (E : exp (x q ^ 2) * (exp (- x q ^ 2 / 2) * exp (- x q ^ 2 / 2)) = 1) by (rewrite exp_sq_sq, <- exp_plus, Rplus_opp_r; apply exp_0).
  transitivity (herm_factor i * herm_factor j * (w q * (peval (hermP i) (x q) * peval (hermP j) (x q))) * (exp (x q ^ 2) * (exp (- x q ^ 2 / 2) * exp (- x q ^ 2 / 2)))); [ring|rewrite E; ring].
Qed.
(** a transform with discretely orthonormal functions returns the coefficients *)
Lemma roundtrip N M (w : nat -> R) (P : nat -> nat -> R) uh i :
  (forall i j, (i < N)%nat -> (j < N)%nat -> rsum M (fun q => w q * (P q i * P q j)) = kron i j) -> (i < N)%nat ->
  identity_solve 1 (scalar_product M P w (fun q => rsum N (fun j => P q j * uh j))) i = uh i.
Proof.
  intros H Hi. unfold identity_solve, scalar_product.
  rewrite (sum_ext M _ (fun q => rsum N (fun j => uh j * (w q * (P q i * P q j))))).
  2:{ intros q _. rewrite Rmult_assoc, Rmult_comm, <- sum_scal. apply sum_ext. intros j _. ring. }
  rewrite sum_swap. rewrite (sum_ext N _ (fun j => if Nat.eqb j i then uh j else 0)).
  - rewrite sum_delta by exact Hi. field.
  - intros j Hj. rewrite sum_scal, (H i j Hi Hj). unfold kron. rewrite Nat.eqb_sym. destruct (Nat.eqb j i); ring.
Qed.

(** ** the stiffness matrix of the Hermite functions *)
(** the coefficients of the derivative, without those beyond N-1 *)
Definition dcoef (N : nat) (v : nat -> R) (j : nat) : R :=
  if Nat.ltb j N then (if Nat.ltb (j + 1) N then sqrt (INR (j + 1) / 2) * v (j + 1)%nat else 0) - (if Nat.eqb j 0 then 0 else sqrt (INR j / 2) * v (j - 1)%nat)
  else 0.
Lemma sqrt_half_sq k : sqrt (INR k / 2) * sqrt (INR k / 2) = INR k / 2.
Proof. apply sqrt_sqrt. pose proof (pos_INR k). lra. Qed.
Lemma ahh_2_eq k : ahh_2 k = - (sqrt (INR (k + 1) / 2) * sqrt (INR (k + 2) / 2)).
Proof.
  unfold ahh_2. pose proof (pos_INR k) as P. rewrite <- sqrt_mult by (rewrite ?plus_INR; cbn [INR]; lra).
  rewrite !plus_INR. cbn [INR]. replace ((INR k + 1) / 2 * ((INR k + (1 + 1)) / 2)) with ((INR k + 1) * (INR k + 2) / (2 * 2)) by field.
  rewrite sqrt_div_alt by lra. rewrite sqrt_square by lra. field.
Qed.
Lemma ahh_factor N v k : (k < N)%nat ->
  ahh_matvec N 1 v k = (if Nat.eqb k 0 then 0 else sqrt (INR k / 2) * dcoef N v (k - 1)) - sqrt (INR (k + 1) / 2) * dcoef N v (k + 1).
Proof.
  intros H. unfold ahh_matvec, dcoef.
  assert (D : ahh_0 N k = sqrt (INR k / 2) * sqrt (INR k / 2) + (if Nat.ltb (k + 1) N then sqrt (INR (k + 1) / 2) * sqrt (INR (k + 1) / 2) else 0)).
  { rewrite !sqrt_half_sq. unfold ahh_0. destruct (Nat.eqb_spec k (N - 1)) as [E|E].
    - replace (Nat.ltb (k + 1) N) with false by (symmetry; apply Nat.ltb_ge; lia). assert (EN : INR N = INR k + 1) by (rewrite <- S_INR; f_equal; lia). rewrite EN. field.
    - replace (Nat.ltb (k + 1) N) with true by (symmetry; apply Nat.ltb_lt; lia). rewrite plus_INR. change (INR 1) with 1. lra. }
  rewrite D.
  replace (Nat.eqb (k + 1) 0) with false by (symmetry; apply Nat.eqb_neq; lia). replace (k + 1 - 1)%nat with k by lia. replace (k + 1 + 1)%nat with (k + 2)%nat by lia.
  assert (C : (if (k <? N - 2)%nat then ahh_2 k * v (k + 2)%nat else 0) = - (sqrt (INR (k + 1) / 2) * (if Nat.ltb (k + 2) N then sqrt (INR (k + 2) / 2) * v (k + 2)%nat else 0))).
  { destruct (Nat.ltb_spec k (N - 2)); destruct (Nat.ltb_spec (k + 2) N); try lia; [rewrite ahh_2_eq|]; ring. }
  rewrite C. destruct k as [|[|k]].
  - cbn [Nat.eqb Nat.leb]. destruct (Nat.ltb_spec (0 + 1) N); destruct (Nat.ltb_spec (0 + 2) N); try lia;
      cbn [Nat.add]; cbn [INR]; replace (0 / 2) with 0 by field; rewrite sqrt_0; ring.
  - cbn [Nat.eqb Nat.leb]. replace (1 - 1)%nat with 0%nat by lia. cbn [Nat.eqb]. replace (Nat.ltb 0 N) with true by (symmetry; apply Nat.ltb_lt; lia).
    replace (Nat.ltb (0 + 1) N) with true by (symmetry; apply Nat.ltb_lt; lia). cbn [Nat.add].
    destruct (Nat.ltb_spec 2 N); destruct (Nat.ltb_spec 3 N); try lia; ring.
  - cbn [Nat.eqb]. replace (Nat.leb 2 (S (S k))) with true by (symmetry; apply Nat.leb_le; lia).
    replace (S (S k) - 1)%nat with (S k) by lia. replace (S k - 1)%nat with k by lia. replace (S (S k) - 2)%nat with k by lia. cbn [Nat.eqb].
    replace (Nat.ltb (S k) N) with true by (symmetry; apply Nat.ltb_lt; lia). replace (S k + 1)%nat with (S (S k)) by lia.
    replace (Nat.ltb (S (S k)) N) with true by (symmetry; apply Nat.ltb_lt; lia).
    rewrite (ahh_2_eq k). replace (k + 1)%nat with (S k) by lia. replace (k + 2)%nat with (S (S k)) by lia.
    destruct (Nat.ltb_spec (S (S k) + 1) N); destruct (Nat.ltb_spec (S (S k) + 2) N); try lia; ring.
Qed.
Lemma sqrt_half_pos k : (0 < k)%nat -> 0 < sqrt (INR k / 2).
Proof. intros H. apply sqrt_lt_R0. assert (0 < INR k) by (apply lt_0_INR, H). lra. Qed.
(** odd N: a null vector *)
Fixpoint nullv (m : nat) : R := match m with O => 1 | S p => nullv p * (sqrt (INR (2 * p + 1) / 2) / sqrt (INR (2 * p + 2) / 2)) end.
Definition null_vec (j : nat) : R := if Nat.even j then nullv (Nat.div2 j) else 0.
Lemma null_even m : null_vec (2 * m) = nullv m.
Proof. unfold null_vec. rewrite Nat.even_mul. cbn [Nat.even orb]. rewrite Nat.div2_double. reflexivity. Qed.
Lemma null_odd m : null_vec (2 * m + 1) = 0.
Proof. unfold null_vec. rewrite Nat.add_1_r, Nat.even_succ, <- Nat.negb_even, Nat.even_mul. reflexivity. Qed.
Lemma null_dcoef N j : Nat.odd N = true -> dcoef N null_vec j = 0.
Proof.
  intros O. apply Nat.odd_spec in O. destruct O as [K EK]. unfold dcoef. destruct (Nat.ltb_spec j N) as [H|H]; [|reflexivity].
  destruct (Nat.Even_or_Odd j) as [[m E]|[m E]].
  - (* j even: the neighbours are odd *)
    rewrite E. destruct m as [|m].
    + cbn [Nat.mul Nat.add Nat.eqb]. change (null_vec 1) with 0. destruct (Nat.ltb 1 N); ring.
    + replace (2 * S m - 1)%nat with (2 * m + 1)%nat by lia. rewrite !null_odd. replace (Nat.eqb (2 * S m) 0) with false by (symmetry; apply Nat.eqb_neq; lia).
      destruct (Nat.ltb (2 * S m + 1) N); ring.
  - replace (Nat.ltb (j + 1) N) with true by (symmetry; apply Nat.ltb_lt; lia). replace (Nat.eqb j 0) with false by (symmetry; apply Nat.eqb_neq; lia).
    rewrite E. replace (2 * m + 1 + 1)%nat with (2 * S m)%nat by lia. replace (2 * m + 1 - 1)%nat with (2 * m)%nat by lia. rewrite !null_even. cbn [nullv].
    replace (2 * m + 2)%nat with (2 * S m)%nat by lia. pose proof (sqrt_half_pos (2 * S m) ltac:(lia)). field. lra.
Qed.
(** even N: only the zero vector *)
Lemma even_regular N v : Nat.even N = true -> (forall k, (k < N)%nat -> ahh_matvec N 1 v k = 0) -> forall k, (k < N)%nat -> v k = 0.
Proof.
  intros EN H. apply Nat.even_spec in EN. destruct EN as [K EK].
  assert (Hd : forall k, (k < N)%nat -> (if Nat.eqb k 0 then 0 else sqrt (INR k / 2) * dcoef N v (k - 1)) = sqrt (INR (k + 1) / 2) * dcoef N v (k + 1)).
  { intros k Hk. pose proof (H k Hk) as E. rewrite (ahh_factor N v k Hk) in E. lra. }
  assert (out : forall j, (N <= j)%nat -> dcoef N v j = 0).
  { intros j Hj. unfold dcoef. replace (Nat.ltb j N) with false by (symmetry; apply Nat.ltb_ge; lia). reflexivity. }
  assert (odd : forall m, dcoef N v (2 * m + 1) = 0).
  { induction m as [|m IH].
    - destruct (Nat.le_gt_cases N 0) as [L|L]; [apply out; lia|]. pose proof (Hd 0%nat L) as E. cbn [Nat.eqb] in E. change (0 + 1)%nat with 1%nat in E.
      pose proof (sqrt_half_pos 1 ltac:(lia)). change (2 * 0 + 1)%nat with 1%nat. symmetry in E. apply Rmult_integral in E. destruct E; [lra|assumption].
    - destruct (Nat.le_gt_cases N (2 * S m)) as [L|L]; [apply out; lia|]. pose proof (Hd _ L) as E.
      replace (Nat.eqb (2 * S m) 0) with false in E by (symmetry; apply Nat.eqb_neq; lia). replace (2 * S m - 1)%nat with (2 * m + 1)%nat in E by lia.
      rewrite IH, Rmult_0_r in E. pose proof (sqrt_half_pos (2 * S m + 1) ltac:(lia)). symmetry in E. apply Rmult_integral in E. destruct E; [lra|assumption]. }
  assert (even : forall m, (m <= K)%nat -> dcoef N v (2 * (K - m)) = 0).
  { induction m as [|m IH]; intros Hm; [apply out; lia|].
    set (k := (2 * (K - S m) + 1)%nat). assert (Hk : (k < N)%nat) by (unfold k; lia). pose proof (Hd k Hk) as E.
    replace (Nat.eqb k 0) with false in E by (symmetry; apply Nat.eqb_neq; unfold k; lia).
    replace (k + 1)%nat with (2 * (K - m))%nat in E by (unfold k; lia). replace (k - 1)%nat with (2 * (K - S m))%nat in E by (unfold k; lia).
    rewrite IH, Rmult_0_r in E by lia. pose proof (sqrt_half_pos k ltac:(unfold k; lia)). apply Rmult_integral in E. destruct E; [lra|assumption]. }
  assert (all : forall j, dcoef N v j = 0).
  { intros j. destruct (Nat.le_gt_cases N j) as [L|L]; [apply out, L|]. destruct (Nat.Even_or_Odd j) as [[m E]|[m E]].
    - rewrite E. replace m with (K - (K - m))%nat by lia. apply even. lia.
    - rewrite E. apply odd. }
  assert (vodd : forall m, (2 * m + 1 < N)%nat -> v (2 * m + 1)%nat = 0).
  { induction m as [|m IH]; intros Hm.
    - pose proof (all 0%nat) as E. unfold dcoef in E. change (0 + 1)%nat with 1%nat in E. change (2 * 0 + 1)%nat with 1%nat in *. replace (Nat.ltb 0 N) with true in E by (symmetry; apply Nat.ltb_lt; lia).
      replace (Nat.ltb 1 N) with true in E by (symmetry; apply Nat.ltb_lt; lia). cbn [Nat.eqb] in E. rewrite Rminus_0_r in E.
      pose proof (sqrt_half_pos 1 ltac:(lia)). apply Rmult_integral in E. destruct E; [lra|assumption].
    - pose proof (all (2 * S m)%nat) as E. unfold dcoef in E. replace (Nat.ltb (2 * S m) N) with true in E by (symmetry; apply Nat.ltb_lt; lia).
      replace (Nat.ltb (2 * S m + 1) N) with true in E by (symmetry; apply Nat.ltb_lt; lia). replace (Nat.eqb (2 * S m) 0) with false in E by (symmetry; apply Nat.eqb_neq; lia).
      replace (2 * S m - 1)%nat with (2 * m + 1)%nat in E by lia. rewrite IH, Rmult_0_r, Rminus_0_r in E by lia.
      pose proof (sqrt_half_pos (2 * S m + 1) ltac:(lia)). apply Rmult_integral in E. destruct E; [lra|assumption]. }
  assert (veven : forall m, (1 <= m <= K)%nat -> v (2 * (K - m))%nat = 0).
  { induction m as [|m IH]; intros Hm; [lia|]. set (j := (2 * (K - S m) + 1)%nat). pose proof (all j) as E. unfold dcoef in E.
    replace (Nat.ltb j N) with true in E by (symmetry; apply Nat.ltb_lt; unfold j; lia).
    replace (Nat.eqb j 0) with false in E by (symmetry; apply Nat.eqb_neq; unfold j; lia). replace (j - 1)%nat with (2 * (K - S m))%nat in E by (unfold j; lia).
    replace (j + 1)%nat with (2 * (K - m))%nat in E by (unfold j; lia).
    assert (Z : (if Nat.ltb (2 * (K - m)) N then sqrt (INR (2 * (K - m)) / 2) * v (2 * (K - m))%nat else 0) = 0).
    { destruct (Nat.ltb_spec (2 * (K - m)) N) as [L|L]; [|reflexivity]. rewrite IH by lia. ring. }
    rewrite Z in E. pose proof (sqrt_half_pos j ltac:(unfold j; lia)). assert (E' : sqrt (INR j / 2) * v (2 * (K - S m))%nat = 0) by lra.
    apply Rmult_integral in E'. destruct E'; [lra|assumption]. }
  intros k Hk. destruct (Nat.Even_or_Odd k) as [[m E]|[m E]].
  - rewrite E. replace m with (K - (K - m))%nat by lia. apply veven. lia.
  - rewrite E. apply vodd. lia.
Qed.
