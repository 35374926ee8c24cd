(** JacobiProofs3.v -- powers of x through matrix powers; the matrices a, b, c as sums. *)
From Coq Require Import Reals Lra Lia ZArith List Arith.
From Verif Require Import Base Fld SparseModel RPoly StencilProofs StencilProofs8 JacobiModel JacobiProofs JacobiProofs2.
Import ListNotations.
Local Open Scope R_scope.
Notation rsum n f := (gsum 0 Rplus n f).

Lemma rsum_extend n m (f : nat -> R) : (n <= m)%nat -> (forall i, (n <= i < m)%nat -> f i = 0) -> rsum m f = rsum n f.
Proof.
  intros H Hz. induction m as [|m IH]; [replace n with O by lia; reflexivity|].
  destruct (Nat.eq_dec n (S m)) as [->|]; [reflexivity|]. simpl. rewrite IH, Hz by (try lia; intros; apply Hz; lia). ring.
Qed.
Lemma rsum_three n l (g : nat -> R) : (l + 2 <= n)%nat -> (forall i, (i < n)%nat -> (i + 1 < l \/ l + 1 < i)%nat -> g i = 0) ->
  rsum n g = (match l with O => 0 | S p => g p end) + g l + g (S l).
Proof.
  intros Hn Hz. rewrite (rsum_extend (l + 2) n) by (auto; intros; apply Hz; lia).
  replace (l + 2)%nat with (S (S l)) by lia. simpl. destruct l as [|p]; simpl; [ring|].
  rewrite (gsum_zero p); [ring|]. intros i Hi. apply Hz; lia.
Qed.

Section Pow.
Variable A : matfun.
Hypothesis Hband : forall i j, (1 < Z.abs (i - j))%Z -> A i j = 0.
Hypothesis H0 : A 0%Z (-1)%Z = 0.
Variables (x : R) (f : nat -> R).
Hypothesis Hrec : forall j, x * f j = rsum (j + 2) (fun i => A (Z.of_nat i) (Z.of_nat j) * f i).

Lemma pow_rec q : forall j, x ^ q * f j = rsum (j + q + 1) (fun i => matpow A q (Z.of_nat i) (Z.of_nat j) * f i).
Proof.
  induction q as [|q IH]; intros j.
  - rewrite (gsum_ext_R _ _ (fun i => if Nat.eqb i j then f j else 0)).
    + rewrite gsum_one by lia. simpl. ring.
    + intros i _. unfold matpow, delta. destruct (Z.eq_dec _ _), (Nat.eqb_spec i j); subst; try lia; ring.
  - change (x ^ S q) with (x * x ^ q). rewrite Rmult_assoc, IH. rewrite <- gsum_scal.
    set (L := (j + S q + 1)%nat).
    rewrite (gsum_ext_R _ _ (fun i => rsum L (fun l => A (Z.of_nat l) (Z.of_nat i) * matpow A q (Z.of_nat i) (Z.of_nat j) * f l))).
    + rewrite gsum_swap. apply gsum_ext_R. intros l Hl.
      rewrite (gsum_ext_R _ _ (fun i => f l * (A (Z.of_nat l) (Z.of_nat i) * matpow A q (Z.of_nat i) (Z.of_nat j)))) by (intros; ring).
      rewrite gsum_scal. rewrite Rmult_comm. f_equal.
      rewrite <- (rsum_extend (j + q + 1) (S L)) by
        (unfold L; try lia; intros i Hi; rewrite (matpow_band A Hband q) by lia; ring).
      rewrite (rsum_three _ l).
      * rewrite matpow_S by auto. unfold mat_step. destruct l as [|p].
        -- change (Z.of_nat 0) with 0%Z. change (0 - 1)%Z with (-1)%Z. rewrite H0. change (Z.of_nat 1) with (0 + 1)%Z. ring.
        -- replace (Z.of_nat (S p) - 1)%Z with (Z.of_nat p) by lia. replace (Z.of_nat (S p) + 1)%Z with (Z.of_nat (S (S p))) by lia. ring.
      * unfold L in *. lia.
      * intros i _ Hi. rewrite Hband by lia. ring.
    + intros i Hi.
      replace (x * (matpow A q (Z.of_nat i) (Z.of_nat j) * f i)) with (matpow A q (Z.of_nat i) (Z.of_nat j) * (x * f i)) by ring.
      rewrite Hrec. rewrite <- gsum_scal. rewrite <- (rsum_extend (i + 2) L).
      * apply gsum_ext_R. intros. ring.
      * unfold L. lia.
      * intros l Hl. rewrite Hband by lia. ring.
Qed.
End Pow.

(** ** the matrix of multiplication by x *)
Lemma coef_a_band a b i j : (1 < Z.abs (i - j))%Z -> coef_a a b i j = 0.
Proof.
  intros H. unfold coef_a, delta. destruct (Z.eq_dec (i + 1) j), (Z.eq_dec i j), (Z.eq_dec (i - 1) j); try lia. ring.
Qed.
Lemma coef_a_m1 a b : coef_a a b 0 (-1) = 0.
Proof. unfold coef_a, delta. simpl. unfold Rdiv. ring. Qed.
Lemma delta_same i : delta i i = 1. Proof. unfold delta. destruct (Z.eq_dec i i); [reflexivity|lia]. Qed.
Lemma delta_diff i j : i <> j -> delta i j = 0. Proof. intros H. unfold delta. destruct (Z.eq_dec i j); [lia|reflexivity]. Qed.
Lemma delta_eq i j : i = j -> delta i j = 1. Proof. intros ->. apply delta_same. Qed.
Ltac dl := repeat match goal with |- context [delta ?i ?j] => (rewrite (delta_diff i j) by lia) || (rewrite (delta_eq i j) by lia) end; rewrite ?Rmult_0_r.

Lemma xP_sum a b x j : -1 < a -> -1 < b -> (j = O -> a + b <> 0 /\ a + b + 1 <> 0) ->
  x * peval (jacP a b j) x = rsum (j + 2) (fun i => coef_a a b (Z.of_nat i) (Z.of_nat j) * peval (jacP a b i) x).
Proof.
  intros Ha Hb H. destruct j as [|q].
  - destruct (H eq_refl) as [H1 H2]. cbn [Nat.add gsum].
    rewrite (xP0 a b x) by lra.
    assert (E0 : coef_a a b 0 0 = (b - a) / (a + b + 2)).
    { unfold coef_a. rewrite (delta_diff (0 + 1) 0), (delta_diff (0 - 1) 0), delta_same by lia. rewrite !Rmult_0_r. field. lra. }
    assert (E1 : coef_a a b 1 0 = 2 / (a + b + 2)).
    { unfold coef_a. rewrite (delta_diff (1 + 1) 0), (delta_diff 1 0) by lia. change (1 - 1)%Z with 0%Z. rewrite delta_same, !Rmult_0_r. field. lra. }
    change (Z.of_nat 0) with 0%Z. change (Z.of_nat 1) with 1%Z. rewrite E0, E1. ring.
  - rewrite (rsum_three _ (S q)) by (try lia; intros i _ Hi; rewrite coef_a_band by lia; ring).
    rewrite (xPS a b x Ha Hb q). unfold coef_a. dl. rewrite <- !INR_IZR_INZ. rewrite !S_INR. pose proof (pos_INR q).
    field. lra.
Qed.
Lemma cP_sum a b x j : -1 < a -> -1 < b ->
  (1 - x ^ 2) * peval (pderiv (jacP a b j)) x = rsum (j + 2) (fun i => coef_c a b (Z.of_nat i) (Z.of_nat j) * peval (jacP a b i) x).
Proof.
  intros Ha Hb. destruct j as [|q].
  - cbn [Nat.add gsum]. rewrite (D0 a b x). unfold coef_c. destruct (Req_EM_T a b); dl; change (IZR (Z.of_nat 0)) with 0; change (IZR (Z.of_nat 1)) with 1; unfold Rdiv; ring.
  - rewrite (rsum_three _ (S q)).
    + rewrite (cP a b x Ha Hb q). pose proof (pos_INR q). unfold coef_c. destruct (Req_EM_T a b) as [->|]; dl; rewrite <- !INR_IZR_INZ; rewrite !S_INR; field; lra.
    + lia.
    + intros i _ Hi. unfold coef_c. destruct (Req_EM_T a b); dl; ring.
Qed.
Lemma bP_sum a b x j : -1 < a -> -1 < b -> (a <> b -> a + b <> 0) -> (j = O -> a + b + 1 <> 0) ->
  peval (jacP a b j) x = rsum (j + 2) (fun i => coef_b a b (Z.of_nat i) (Z.of_nat j) * peval (pderiv (jacP a b i)) x).
Proof.
  intros Ha Hb Hab H. destruct j as [|q].
  - cbn [Nat.add gsum]. rewrite (D0 a b x), (D1 a b x), (P0 a b x). specialize (H eq_refl).
    unfold coef_b. destruct (Req_EM_T a b) as [<-|N]; dl; change (IZR (Z.of_nat 1)) with 1; change (IZR (Z.of_nat 0)) with 0.
    + field. split; lra.
    + specialize (Hab N). field. repeat split; lra.
  - rewrite (rsum_three _ (S q)).
    + pose proof (pos_INR q).
      assert (q = O \/ INR q + a + b + 1 <> 0) as Hq.
      { destruct q as [|q]; [left; reflexivity|right]. rewrite S_INR. pose proof (pos_INR q). lra. }
      rewrite (bP a b Ha Hb q x Hq).
      destruct q as [|q].
      * rewrite (D0 a b x), ?Rmult_0_r.
        unfold coef_b. destruct (Req_EM_T a b) as [->|N]; dl; rewrite <- !INR_IZR_INZ; simpl INR.
        -- field. lra.
        -- specialize (Hab N). field. lra.
      * pose proof (pos_INR q). rewrite !S_INR in *.
        unfold coef_b. destruct (Req_EM_T a b) as [->|N]; dl; rewrite <- !INR_IZR_INZ; rewrite !S_INR.
        -- field. lra.
        -- specialize (Hab N). field. lra.
    + lia.
    + intros i _ Hi. unfold coef_b. destruct (Req_EM_T a b); dl; ring.
Qed.
