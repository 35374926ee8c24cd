(** JacobiProofs4.v -- cancelled coefficients; powers of the integration matrix; ShiftedMatrix. *)
From Coq Require Import Reals Lra Lia ZArith List Arith.
From Verif Require Import Base Fld SparseModel SparseSpec RPoly StencilProofs StencilProofs8 JacobiModel JacobiProofs JacobiProofs2 JacobiProofs3.
Import ListNotations.
Local Open Scope R_scope.

Lemma coef_a_s_band a b i j : (1 < Z.abs (i - j))%Z -> coef_a_s a b i j = 0.
Proof.
  intros H. unfold coef_a_s. destruct (Z.eqb_spec j 0) as [->|]; [dl; ring|apply coef_a_band; auto].
Qed.
Lemma coef_a_s_m1 a b : coef_a_s a b 0 (-1) = 0.
Proof. apply coef_a_m1. Qed.
Lemma xP_sum_s a b x j : -1 < a -> -1 < b ->
  x * peval (jacP a b j) x = rsum (j + 2) (fun i => coef_a_s a b (Z.of_nat i) (Z.of_nat j) * peval (jacP a b i) x).
Proof.
  intros Ha Hb. destruct j as [|q].
  - cbn [Nat.add gsum]. rewrite (xP0 a b x) by lra. unfold coef_a_s. change (Z.of_nat 0) with 0%Z. change (Z.of_nat 1) with 1%Z.
    change (0 =? 0)%Z with true. cbv iota. dl. field. lra.
  - rewrite (xP_sum a b x (S q) Ha Hb) by discriminate. apply gsum_ext_R. intros i _. unfold coef_a_s.
    destruct (Z.eqb_spec (Z.of_nat (S q)) 0); [lia|reflexivity].
Qed.
Lemma coef_a_s_raw a b i j : -1 < a -> -1 < b -> (j = 0%Z -> a + b <> 0 /\ a + b + 1 <> 0) -> (0 <= i)%Z -> coef_a_s a b i j = coef_a a b i j.
Proof.
  intros Ha Hb H Hi. unfold coef_a_s. destruct (Z.eqb_spec j 0) as [->|]; [|reflexivity]. destruct (H eq_refl) as [H1 H2].
  unfold coef_a. destruct (Z.eq_dec i 0) as [->|]; [dl; field; lra|]. destruct (Z.eq_dec i 1) as [->|]; dl; field; lra.
Qed.

Lemma coef_b_s_band a b i j : (1 < Z.abs (i - j))%Z -> coef_b_s a b i j = 0.
Proof. intros H. unfold coef_b_s. dl. ring. Qed.
Lemma bP_sum_s a b x j : -1 < a -> -1 < b ->
  peval (jacP a b j) x = rsum (j + 2) (fun i => coef_b_s a b (Z.of_nat i) (Z.of_nat j) * peval (pderiv (jacP a b i)) x).
Proof.
  intros Ha Hb. destruct j as [|q].
  - cbn [Nat.add gsum]. rewrite (D0 a b x), (D1 a b x), (P0 a b x). unfold coef_b_s. change (Z.of_nat 0) with 0%Z. change (Z.of_nat 1) with 1%Z.
    change (1 =? 1)%Z with true. cbv iota. rewrite Rmult_0_r. dl. field. lra.
  - rewrite (rsum_three _ (S q)).
    + pose proof (pos_INR q).
      assert (q = O \/ INR q + a + b + 1 <> 0) as Hq.
      { destruct q as [|q]; [left; reflexivity|right]. rewrite S_INR. pose proof (pos_INR q). lra. }
      rewrite (bP a b Ha Hb q x Hq).
      destruct q as [|q].
      * rewrite (D0 a b x), ?Rmult_0_r.
        unfold coef_b_s. destruct (Z.eqb_spec (Z.of_nat 1) 1) as [_|]; [|lia]. destruct (Z.eqb_spec (Z.of_nat 2) 1) as [|_]; [lia|].
        dl; rewrite <- !INR_IZR_INZ; simpl INR. field. lra.
      * pose proof (pos_INR q). rewrite !S_INR in *.
        unfold coef_b_s. destruct (Z.eqb_spec (Z.of_nat (S (S q))) 1) as [|_]; [lia|]. destruct (Z.eqb_spec (Z.of_nat (S (S (S q)))) 1) as [|_]; [lia|].
        destruct (Z.eqb_spec (Z.of_nat (S q)) 1) as [E1|N1].
        -- dl; rewrite <- !INR_IZR_INZ; rewrite !S_INR. field. lra.
        -- dl; rewrite <- !INR_IZR_INZ; rewrite !S_INR. field. lra.
    + lia.
    + intros i _ Hi. rewrite coef_b_s_band by lia. ring.
Qed.
Lemma coef_b_s_raw a b i j : -1 < a -> -1 < b -> (1 <= i)%Z -> (i = 1%Z -> a + b + 1 <> 0) -> (a <> b -> a + b <> 0) -> coef_b_s a b i j = coef_b a b i j.
Proof.
  intros Ha Hb Hi H1 H2. unfold coef_b_s, coef_b. assert (1 <= IZR i) as Hr by (apply IZR_le; auto).
  assert ((if (i =? 1)%Z then 2 / (a + b + 2) else 2 * (IZR i + a + b) / ((2 * IZR i + a + b) * (2 * IZR i + a + b - 1))) = 2 * (IZR i + a + b) / ((2 * IZR i + a + b) * (2 * IZR i + a + b - 1))) as ->.
  { destruct (Z.eqb_spec i 1) as [->|]; [|reflexivity]. specialize (H1 eq_refl). field. lra. }
  destruct (Req_EM_T a b) as [->|N].
  - replace (b - b) with 0 by ring. unfold Rdiv. ring.
  - specialize (H2 N). replace (2 * (a ^ 2 - b ^ 2) / ((a + b) * (2 * IZR i + a + b + 2) * (2 * IZR i + a + b))) with (2 * (a - b) / ((2 * IZR i + a + b + 2) * (2 * IZR i + a + b))) by (field; lra).
    ring.
Qed.

(** ** P_j as a combination of q'th derivatives *)
Lemma bP_dn a b x j q : -1 < a -> -1 < b ->
  deriv_at q (jacP a b j) x = rsum (j + 2) (fun i => coef_b_s a b (Z.of_nat i) (Z.of_nat j) * deriv_at (S q) (jacP a b i) x).
Proof.
  intros Ha Hb. rewrite (peq_dn q _ (pcomb (j + 2) (fun i => coef_b_s a b (Z.of_nat i) (Z.of_nat j)) (fun i => pderiv (jacP a b i)))).
  - rewrite deriv_at_pcomb. apply gsum_ext_R. intros i _. rewrite deriv_at_S. reflexivity.
  - intros y. rewrite (bP_sum_s a b y j Ha Hb). rewrite <- (deriv_at_0 (pcomb _ _ _)), deriv_at_pcomb. reflexivity.
Qed.
Lemma b_pow a b x q : -1 < a -> -1 < b -> forall j,
  peval (jacP a b j) x = rsum (j + q + 1) (fun i => pmat_b a b q i j * deriv_at q (jacP a b i) x).
Proof.
  intros Ha Hb. induction q as [|q IH]; intros j.
  - rewrite (gsum_ext_R _ _ (fun i => if Nat.eqb i j then peval (jacP a b j) x else 0)).
    + rewrite gsum_one by lia. reflexivity.
    + intros i _. unfold pmat_b. cbn [Nat.ltb Nat.leb]. unfold matpow, delta. rewrite deriv_at_0.
      destruct (Z.eq_dec _ _), (Nat.eqb_spec i j); subst; try lia; try ring. 
  - rewrite IH. set (L := (j + S q + 1)%nat).
    rewrite (gsum_ext_R _ _ (fun i => rsum L (fun l => coef_b_s a b (Z.of_nat l) (Z.of_nat i) * pmat_b a b q i j * deriv_at (S q) (jacP a b l) x))).
    + rewrite gsum_swap. apply gsum_ext_R. intros l Hl.
      rewrite (gsum_ext_R _ _ (fun i => deriv_at (S q) (jacP a b l) x * (coef_b_s a b (Z.of_nat l) (Z.of_nat i) * pmat_b a b q i j))) by (intros; ring).
      rewrite gsum_scal. unfold pmat_b at 2. destruct (Nat.ltb_spec l (S q)) as [Hlq|Hlq].
      { rewrite jac_deriv_high by (auto; lia). ring. }
      rewrite Rmult_comm. f_equal.
      rewrite <- (rsum_extend (j + q + 1) (S L)).
      * rewrite (rsum_three _ l).
        -- rewrite (matpow_S _ (coef_b_s_band a b)). unfold mat_step. destruct l as [|p]; [lia|].
           unfold pmat_b. destruct (Nat.ltb_spec p q); [lia|]. destruct (Nat.ltb_spec (S p) q); [lia|]. destruct (Nat.ltb_spec (S (S p)) q); [lia|].
           replace (Z.of_nat (S p) - 1)%Z with (Z.of_nat p) by lia. replace (Z.of_nat (S p) + 1)%Z with (Z.of_nat (S (S p))) by lia. ring.
        -- unfold L in *. lia.
        -- intros i _ Hi. rewrite coef_b_s_band by lia. ring.
      * unfold L. lia.
      * intros i Hi. unfold pmat_b. destruct (Nat.ltb_spec i q); [ring|]. rewrite (matpow_band _ (coef_b_s_band a b) q) by lia. ring.
    + intros i Hi. rewrite (bP_dn a b x i q Ha Hb). rewrite <- gsum_scal. rewrite <- (rsum_extend (i + 2) L).
      * apply gsum_ext_R. intros. ring.
      * unfold L. lia.
      * intros l Hl. rewrite coef_b_s_band by lia. ring.
Qed.

(** ** a_: multiplication of a k'th derivative by x^q *)
Lemma rf_pos x k : 0 < x -> 0 < rf x k.
Proof. intros H. induction k as [|k IH]; simpl; [lra|]. pose proof (pos_INR k). apply Rmult_lt_0_compat; lra. Qed.
Lemma psi_nz a b n k : -1 < a -> -1 < b -> (k <= n)%nat -> (k = O \/ 0 < psi a b n k).
Proof.
  intros Ha Hb H. destruct k as [|k]; [left; reflexivity|right]. unfold psi. apply Rmult_lt_0_compat.
  - apply rf_pos. destruct n as [|n]; [lia|]. rewrite S_INR. pose proof (pos_INR n). lra.
  - apply Rinv_0_lt_compat, pow_lt. lra.
Qed.
Lemma psi_nz' a b n k : -1 < a -> -1 < b -> (k <= n)%nat -> psi a b n k <> 0.
Proof.
  intros Ha Hb H. destruct (psi_nz a b n k Ha Hb H) as [->|]; [|lra]. unfold psi. simpl. lra.
Qed.
Lemma matpow_ext A B q : (forall i j, A i j = B i j) -> forall i j, matpow A q i j = matpow B q i j.
Proof.
  intros H. assert (forall m n q, (forall i j, m i j = n i j) -> forall i j, matpow_loop A m q i j = matpow_loop B n q i j) as E.
  { intros m n q0. revert m n. induction q0 as [|[|q0] IH]; intros m n Hm i j; try apply Hm. apply IH. intros. unfold mat_step. rewrite !H, !Hm. reflexivity. }
  intros i j. destruct q as [|[|q]]; [reflexivity|apply H|]. apply E. exact H.
Qed.
Lemma a_deriv a b x k q n : -1 < a -> -1 < b -> (k = O -> a + b <> 0 /\ a + b + 1 <> 0) ->
  x ^ q * deriv_at k (jacP a b (n + k)) x =
  rsum (n + q + 1) (fun i => coef_a_ k q a b (i + k) (n + k) * deriv_at k (jacP a b (i + k)) x).
Proof.
  intros Ha Hb Hk. pose proof (pos_INR k) as HK. assert (-1 < a + INR k) by lra. assert (-1 < b + INR k) by lra.
  rewrite jac_deriv by auto. rewrite (Rmult_comm (psi _ _ _ _)), <- Rmult_assoc.
  rewrite (pow_rec (coef_a (a + INR k) (b + INR k)) (coef_a_band _ _) (coef_a_m1 _ _) x (fun i => peval (jacP (a + INR k) (b + INR k) i) x)).
  - rewrite Rmult_comm, <- gsum_scal. apply gsum_ext_R. intros i Hi. rewrite jac_deriv by auto. unfold coef_a_.
    replace (Z.of_nat (i + k) - Z.of_nat k)%Z with (Z.of_nat i) by lia. replace (Z.of_nat (n + k) - Z.of_nat k)%Z with (Z.of_nat n) by lia.
    field. apply psi_nz'; auto; lia.
  - intros j. apply xP_sum; auto. intros ->. destruct k as [|k].
    + rewrite !Rplus_0_r. apply Hk. reflexivity.
    + rewrite S_INR in *. pose proof (pos_INR k). split; lra.
Qed.
