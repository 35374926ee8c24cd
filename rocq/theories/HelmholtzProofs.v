(** HelmholtzProofs.v -- row sums of the matrices and correctness of the substitution loops. *)
From Coq Require Import Reals ZArith List Arith Bool Lia Lra.
From Verif Require Import Base Fld SparseModel RPoly StencilModel StencilModel2 LegMatrixModel HelmholtzModel.
Import ListNotations.
Local Open Scope R_scope.
Notation rsum := (gsum 0 Rplus).

(** sum of u over the indices a <= j < M with j = a (mod 2) *)
Definition tail (M a : nat) (u : nat -> R) : R :=
  rsum M (fun j => if (Nat.leb a j && Nat.even (j - a))%bool then u j else 0).

Lemma rsum_ext n f g : (forall i, (i < n)%nat -> f i = g i) -> rsum n f = rsum n g.
Proof. induction n as [|n IH]; intros H; cbn; auto. rewrite IH by (intros; apply H; lia). now rewrite H by lia. Qed.
Lemma rsum_zero n f : (forall i, (i < n)%nat -> f i = 0) -> rsum n f = 0.
Proof. induction n as [|n IH]; intros H; cbn; auto. rewrite IH by (intros; apply H; lia). rewrite H by lia. ring. Qed.
Lemma rsum_add n f g : rsum n (fun i => f i + g i) = rsum n f + rsum n g.
Proof. induction n as [|n IH]; cbn; [ring | rewrite IH; ring]. Qed.
Lemma rsum_scal n c f : rsum n (fun i => c * f i) = c * rsum n f.
Proof. induction n as [|n IH]; cbn; [ring | rewrite IH; ring]. Qed.
Lemma rsum_one n c f : rsum n (fun i => if Nat.eqb i c then f i else 0) = if Nat.ltb c n then f c else 0.
Proof.
  induction n as [|n IH]; [reflexivity|]. cbn [gsum]. rewrite IH.
  destruct (Nat.eqb_spec n c) as [->|Hne].
  - rewrite Nat.ltb_irrefl. replace (Nat.ltb c (S c)) with true by (symmetry; apply Nat.ltb_lt; lia). ring.
  - destruct (Nat.ltb_spec c n); destruct (Nat.ltb_spec c (S n)); try lia; ring.
Qed.

Lemma tail_ext M a u v : (forall j, (a <= j < M)%nat -> u j = v j) -> tail M a u = tail M a v.
Proof.
  intros H. apply rsum_ext. intros i Hi. destruct (Nat.leb_spec a i); simpl; auto.
  destruct (Nat.even (i - a)); auto.
Qed.
Lemma tail_ge M a u : (M <= a)%nat -> tail M a u = 0.
Proof. intros H. apply rsum_zero. intros i Hi. destruct (Nat.leb_spec a i); simpl; auto; lia. Qed.
Lemma tail_step M a u : (a < M)%nat -> tail M a u = u a + tail M (a + 2) u.
Proof.
  intros H. unfold tail.
  rewrite (rsum_ext M _ (fun j => (if Nat.eqb j a then u j else 0)
             + (if (Nat.leb (a + 2) j && Nat.even (j - (a + 2)))%bool then u j else 0))).
  - rewrite rsum_add, rsum_one. destruct (Nat.ltb_spec a M); [reflexivity|lia].
  - intros i Hi. destruct (Nat.eqb_spec i a) as [->|Hne].
    + rewrite Nat.leb_refl, Nat.sub_diag. simpl.
      replace (Nat.leb (a + 2) a) with false by (symmetry; apply Nat.leb_gt; lia). simpl. ring.
    + destruct (Nat.leb_spec a i); destruct (Nat.leb_spec (a + 2) i); simpl; try lia.
      * replace (i - a)%nat with (S (S (i - (a + 2)))) by lia. rewrite !Nat.even_succ, Nat.odd_succ. ring.
      * replace (i - a)%nat with 1%nat by lia. simpl. ring.
      * ring.
Qed.

(** ** rows of a matrix whose far entries are constant *)
(** entries k-2 (lo), k (di), k+2 (up) and k+4, k+6, ... (far) *)
Definition brow (lo di up far : R) (k j : nat) : R :=
  if Nat.eqb j k then di
  else if Nat.eqb j (k + 2) then up
  else if (Nat.leb (k + 4) j && Nat.even (j - k))%bool then far
  else if Nat.eqb (j + 2) k then lo else 0.

Lemma brow_sum M lo di up far k u : (k < M)%nat ->
  rsum M (fun j => brow lo di up far k j * u j)
  = (if Nat.leb 2 k then lo * u (k - 2)%nat else 0) + di * u k
    + (if Nat.ltb (k + 2) M then up * u (k + 2)%nat else 0) + far * tail M (k + 4) u.
Proof.
  intros Hk. unfold tail. rewrite <- rsum_scal.
  rewrite (rsum_ext M _ (fun j => (((if Nat.eqb j (k - 2) then (if Nat.leb 2 k then lo * u j else 0) else 0)
      + (if Nat.eqb j k then di * u j else 0)) + (if Nat.eqb j (k + 2) then up * u j else 0))
      + far * (if (Nat.leb (k + 4) j && Nat.even (j - (k + 4)))%bool then u j else 0))).
  - rewrite !rsum_add, !(rsum_one M).
    replace (Nat.ltb (k - 2) M) with true by (symmetry; apply Nat.ltb_lt; lia).
    replace (Nat.ltb k M) with true by (symmetry; apply Nat.ltb_lt; lia). reflexivity.
  - intros j Hj. unfold brow.
    destruct (Nat.eqb_spec j k) as [->|H1].
    + replace (Nat.eqb k (k + 2)) with false by (symmetry; apply Nat.eqb_neq; lia).
      replace (Nat.leb (k + 4) k) with false by (symmetry; apply Nat.leb_gt; lia). cbn [andb].
      destruct (Nat.eqb_spec k (k - 2)); destruct (Nat.leb_spec 2 k); try lia; ring.
    + destruct (Nat.eqb_spec j (k + 2)) as [->|H2].
      * replace (Nat.leb (k + 4) (k + 2)) with false by (symmetry; apply Nat.leb_gt; lia). cbn [andb].
        destruct (Nat.eqb_spec (k + 2) (k - 2)); try lia; ring.
      * destruct (Nat.leb_spec (k + 4) j); cbn [andb].
        -- replace (j - k)%nat with (S (S (S (S (j - (k + 4)))))) by lia.
           rewrite !Nat.even_succ, !Nat.odd_succ, !Nat.even_succ, !Nat.odd_succ.
           replace (Nat.eqb j (k - 2)) with false by (symmetry; apply Nat.eqb_neq; lia).
           replace (Nat.eqb (j + 2) k) with false by (symmetry; apply Nat.eqb_neq; lia).
           destruct (Nat.even (j - (k + 4))); ring.
        -- destruct (Nat.eqb_spec (j + 2) k); destruct (Nat.eqb_spec j (k - 2)); destruct (Nat.leb_spec 2 k); try lia; ring.
Qed.

(** ** Poisson *)
Lemma add_subst_spec alias M d d1 b u :
  (2 <= M)%nat -> (alias = true -> forall k, u k = b k) ->
  (forall k, (k < M)%nat -> d k <> 0) ->
  let r := add_subst alias M d d1 b u in
  (forall k, (k < M)%nat -> d k * r k + d1 k * tail M (k + 2) r = b k) /\
  (forall k, (M <= k)%nat -> r k = u k).
Proof.
  intros HM Ha Hd. unfold add_subst.
  set (u1 := upd u (M - 1) _). set (u2 := upd u1 (M - 2) _).
  set (P := fun (k : nat) (s : (nat -> R) * R * R) =>
    let '(w, se, so) := s in
    (forall j, (j < k)%nat -> w j = u j) /\ (forall j, (M <= j)%nat -> w j = u j) /\
    (forall j, (k <= j < M)%nat -> d j * w j + d1 j * tail M (j + 2) w = b j) /\
    se = tail M (if Nat.even k then k + 2 else k + 3)%nat w /\
    so = tail M (if Nat.even k then k + 3 else k + 2)%nat w).
  assert (H : P 0%nat (for_down (M - 2) (add_step alias d d1 b) (u2, 0, 0))).
  { apply for_down_inv.
    - unfold P. repeat split.
      + intros j Hj. unfold u2, u1. upds. reflexivity.
      + intros j Hj. unfold u2, u1. upds. reflexivity.
      + intros j Hj. rewrite tail_ge by lia. unfold u2.
        destruct (Nat.eq_dec j (M - 2)) as [->|].
        * upds. unfold rd, u1. destruct alias; upds; try rewrite Ha by auto; field; apply Hd; lia.
        * upds. unfold u1. replace j with (M - 1)%nat by lia. upds. unfold rd.
          destruct alias; try rewrite Ha by auto; field; apply Hd; lia.
      + destruct (Nat.even (M - 2)); rewrite tail_ge by lia; reflexivity.
      + destruct (Nat.even (M - 2)); rewrite tail_ge by lia; reflexivity.
    - intros k [[w se] so] Hk (H1 & H2 & H3 & H4 & H5). rewrite Nat.even_succ, <- Nat.negb_even in H4, H5.
      unfold add_step. destruct (Nat.even k) eqn:Ek; simpl in H4, H5.
      + replace (S (k + 2)) with (k + 3)%nat in H5 by lia. replace (S (k + 3)) with (k + 4)%nat in H4 by lia.
        unfold P. rewrite Ek.
        match goal with |- context [upd (upd w k ?x) k ?y] => set (v := y); set (w' := upd (upd w k x) k v) end.
        assert (Hw : forall j, j <> k -> w' j = w j) by (intros j Hj; unfold w'; upds; reflexivity).
        assert (Hv : w' k = (b k - d1 k * (se + w (k + 2)%nat)) / d k).
        { unfold w', v. upds. unfold rd. destruct alias; auto. rewrite H1 by lia. rewrite Ha by auto. reflexivity. }
        assert (Ht : forall a, (k < a)%nat -> tail M a w' = tail M a w) by (intros a Hlt; apply tail_ext; intros; apply Hw; lia).
        assert (Hs : tail M (k + 2) w = se + w (k + 2)%nat).
        { rewrite tail_step by lia. rewrite H4. replace (k + 2 + 2)%nat with (k + 4)%nat by lia. ring. }
        repeat split.
        * intros j Hj. rewrite Hw by lia. apply H1; lia.
        * intros j Hj. rewrite Hw by lia. apply H2; lia.
        * intros j Hj. rewrite Ht by lia. destruct (Nat.eq_dec j k) as [->|].
          -- rewrite Hv, Hs. field. apply Hd; lia.
          -- rewrite Hw by lia. apply H3; lia.
        * rewrite Ht by lia. symmetry. exact Hs.
        * rewrite Ht by lia. exact H5.
      + replace (S (k + 2)) with (k + 3)%nat in H4 by lia. replace (S (k + 3)) with (k + 4)%nat in H5 by lia.
        unfold P. rewrite Ek.
        match goal with |- context [upd (upd w k ?x) k ?y] => set (v := y); set (w' := upd (upd w k x) k v) end.
        assert (Hw : forall j, j <> k -> w' j = w j) by (intros j Hj; unfold w'; upds; reflexivity).
        assert (Hv : w' k = (b k - d1 k * (so + w (k + 2)%nat)) / d k).
        { unfold w', v. upds. unfold rd. destruct alias; auto. rewrite H1 by lia. rewrite Ha by auto. reflexivity. }
        assert (Ht : forall a, (k < a)%nat -> tail M a w' = tail M a w) by (intros a Hlt; apply tail_ext; intros; apply Hw; lia).
        assert (Hs : tail M (k + 2) w = so + w (k + 2)%nat).
        { rewrite tail_step by lia. rewrite H5. replace (k + 2 + 2)%nat with (k + 4)%nat by lia. ring. }
        repeat split.
        * intros j Hj. rewrite Hw by lia. apply H1; lia.
        * intros j Hj. rewrite Hw by lia. apply H2; lia.
        * intros j Hj. rewrite Ht by lia. destruct (Nat.eq_dec j k) as [->|].
          -- rewrite Hv, Hs. field. apply Hd; lia.
          -- rewrite Hw by lia. apply H3; lia.
        * rewrite Ht by lia. exact H4.
        * rewrite Ht by lia. symmetry. exact Hs. }
  destruct (for_down (M - 2) (add_step alias d d1 b) (u2, 0, 0)) as [[w se] so].
  destruct H as (H1 & H2 & H3 & _). split.
  - intros k Hk. apply H3; lia.
  - exact H2.
Qed.

Lemma for_up_pointwise n start (g : nat -> R -> R) u k :
  for_up n start (fun k u => upd u k (g k (u k))) u k
  = if (Nat.leb start k && Nat.ltb k (start + n))%bool then g k (u k) else u k.
Proof.
  revert start u. induction n as [|n IH]; intros start u; simpl.
  - destruct (Nat.leb_spec start k); destruct (Nat.ltb_spec k (start + 0)); simpl; auto; lia.
  - rewrite IH. destruct (Nat.eq_dec k start) as [->|Hne].
    + upds. replace (Nat.leb (S start) start) with false by (symmetry; apply Nat.leb_gt; lia).
      rewrite Nat.leb_refl. replace (Nat.ltb start (start + S n)) with true by (symmetry; apply Nat.ltb_lt; lia). reflexivity.
    + upds. destruct (Nat.leb_spec (S start) k); destruct (Nat.leb_spec start k); try lia;
        replace (S start + n)%nat with (start + S n)%nat by lia; reflexivity.
Qed.

Lemma tail_scal M a c u : tail M a (fun j => c * u j) = c * tail M a u.
Proof.
  unfold tail. rewrite <- rsum_scal. apply rsum_ext. intros i Hi.
  destruct (Nat.leb a i && Nat.even (i - a))%bool; ring.
Qed.

(** ** Helmholtz: the substitution with the two arrays d1 and d2 *)
Lemma forward_spec M L f y0 :
  (2 <= M)%nat -> let y := forward M L f y0 in
  y 0%nat = f 0%nat /\ y 1%nat = f 1%nat /\
  (forall i, (2 <= i < M)%nat -> y i + L (i - 2)%nat * y (i - 2)%nat = f i).
Proof.
  intros HM. unfold forward.
  set (y1 := upd (upd y0 0 (f 0%nat)) 1 (f 1%nat)).
  set (P := fun (i : nat) (y : nat -> R) => y 0%nat = f 0%nat /\ y 1%nat = f 1%nat /\
     forall k, (2 <= k < i)%nat -> y k + L (k - 2)%nat * y (k - 2)%nat = f k).
  assert (H : P (2 + (M - 2))%nat (for_up (M - 2) 2 (fun i y => upd y i (f i - L (i - 2)%nat * y (i - 2)%nat)) y1)).
  { apply for_up_inv.
    - unfold P, y1. split; [upds; reflexivity|split; [upds; reflexivity|lia]].
    - intros i y Hi (H0 & H1 & H2). split; [upds; exact H0|split; [upds; exact H1|]].
      intros k Hk. destruct (Nat.eq_dec k i) as [->|].
      + rewrite upd_same, upd_other by lia. ring.
      + rewrite !upd_other by lia. apply H2; lia. }
  replace (2 + (M - 2))%nat with M in H by lia. destruct H as (H0 & H1 & H2). auto.
Qed.

Lemma backward_spec M s y u :
  (4 <= M)%nat -> (forall k, (k < M)%nat -> l_d0 s k <> 0) ->
  let r := backward M s y u in
  (forall k, (k < M)%nat -> l_d0 s k * r k + (if Nat.ltb (k + 2) M then l_d1 s k * r (k + 2)%nat else 0)
                            + l_d2 s k * tail M (k + 4) r = y k) /\
  (forall k, (M <= k)%nat -> r k = u k).
Proof.
  intros HM Hd. unfold backward.
  set (u1 := upd u (M - 1) _). set (u2 := upd u1 (M - 2) _). set (u3 := upd u2 (M - 3) _). set (u4 := upd u3 (M - 4) _).
  set (row := fun (w : nat -> R) j => l_d0 s j * w j + (if Nat.ltb (j + 2) M then l_d1 s j * w (j + 2)%nat else 0)
                            + l_d2 s j * tail M (j + 4) w).
  set (P := fun (k : nat) (st : (nat -> R) * R * R) =>
    let '(w, se, so) := st in
    (forall j, (M <= j)%nat -> w j = u j) /\
    (forall j, (k <= j < M)%nat -> row w j = y j) /\
    se = tail M (if Nat.even k then k + 4 else k + 5)%nat w /\
    so = tail M (if Nat.even k then k + 5 else k + 4)%nat w).
  assert (Hext : forall w w' j k, (k < j)%nat -> (forall i, i <> k -> w' i = w i) -> row w' j = row w j).
  { intros w w' j k Hj Hw. unfold row. rewrite !Hw by lia.
    rewrite (tail_ext M (j + 4) w' w) by (intros; apply Hw; lia). reflexivity. }
  assert (H : P 0%nat (for_down (M - 4) (back_step s y) (u4, 0, 0))).
  { apply for_down_inv.
    - assert (E4 : u4 (M - 4)%nat = (y (M - 4)%nat - l_d1 s (M - 4)%nat * u2 (M - 2)%nat) / l_d0 s (M - 4)%nat)
        by (unfold u4; rewrite upd_same; unfold u3; rewrite upd_other by lia; reflexivity).
      assert (E3 : u4 (M - 3)%nat = (y (M - 3)%nat - l_d1 s (M - 3)%nat * u1 (M - 1)%nat) / l_d0 s (M - 3)%nat)
        by (unfold u4; rewrite upd_other by lia; unfold u3; rewrite upd_same; unfold u2; rewrite upd_other by lia; reflexivity).
      assert (E2 : u2 (M - 2)%nat = y (M - 2)%nat / l_d0 s (M - 2)%nat) by (unfold u2; apply upd_same).
      assert (E1 : u1 (M - 1)%nat = y (M - 1)%nat / l_d0 s (M - 1)%nat) by (unfold u1; apply upd_same).
      assert (E2' : u4 (M - 2)%nat = u2 (M - 2)%nat) by (unfold u4, u3; rewrite !upd_other by lia; reflexivity).
      assert (E1' : u4 (M - 1)%nat = u1 (M - 1)%nat) by (unfold u4, u3, u2; rewrite !upd_other by lia; reflexivity).
      split; [|split; [|split]].
      + intros j Hj. unfold u4, u3, u2, u1. upds. reflexivity.
      + intros j Hj. unfold row. rewrite tail_ge by lia.
        assert (Hc : (j = M - 4 \/ j = M - 3 \/ j = M - 2 \/ j = M - 1)%nat) by lia.
        destruct Hc as [->|[->|[->| ->]]].
        * replace (Nat.ltb (M - 4 + 2) M) with true by (symmetry; apply Nat.ltb_lt; lia).
          replace (M - 4 + 2)%nat with (M - 2)%nat by lia. rewrite E2', E4. field. apply Hd; lia.
        * replace (Nat.ltb (M - 3 + 2) M) with true by (symmetry; apply Nat.ltb_lt; lia).
          replace (M - 3 + 2)%nat with (M - 1)%nat by lia. rewrite E1', E3. field. apply Hd; lia.
        * replace (Nat.ltb (M - 2 + 2) M) with false by (symmetry; apply Nat.ltb_ge; lia).
          rewrite E2', E2. field. apply Hd; lia.
        * replace (Nat.ltb (M - 1 + 2) M) with false by (symmetry; apply Nat.ltb_ge; lia).
          rewrite E1', E1. field. apply Hd; lia.
      + destruct (Nat.even (M - 4)); rewrite tail_ge by lia; reflexivity.
      + destruct (Nat.even (M - 4)); rewrite tail_ge by lia; reflexivity.
    - intros k [[w se] so] Hk (H2 & H3 & H4 & H5). rewrite Nat.even_succ, <- Nat.negb_even in H4, H5.
      unfold back_step. rewrite (upd_other w k _ (k + 4)) by lia.
      destruct (Nat.even k) eqn:Ek; simpl in H4, H5; unfold P; rewrite Ek.
      + replace (S (k + 4)) with (k + 5)%nat in H5 by lia. replace (S (k + 5)) with (k + 6)%nat in H4 by lia.
        match goal with |- context [upd (upd (upd w k ?x) k ?z) k ?t] => set (w' := upd (upd (upd w k x) k z) k t) end.
        assert (Hw : forall j, j <> k -> w' j = w j) by (intros j Hj; unfold w'; upds; reflexivity).
        assert (Hv : w' k = (y k - l_d1 s k * w (k + 2)%nat - l_d2 s k * (se + w (k + 4)%nat)) / l_d0 s k)
          by (unfold w'; rewrite !upd_same; reflexivity).
        assert (Ht : forall a, (k < a)%nat -> tail M a w' = tail M a w) by (intros a Hlt; apply tail_ext; intros; apply Hw; lia).
        assert (Hs : tail M (k + 4) w = se + w (k + 4)%nat).
        { rewrite tail_step by lia. rewrite H4. replace (k + 4 + 2)%nat with (k + 6)%nat by lia. ring. }
        split; [|split; [|split]].
        * intros j Hj. rewrite Hw by lia. apply H2; lia.
        * intros j Hj. destruct (Nat.eq_dec j k) as [->|].
          -- unfold row. replace (Nat.ltb (k + 2) M) with true by (symmetry; apply Nat.ltb_lt; lia).
             rewrite Ht, Hs, Hv, Hw by lia. field. apply Hd; lia.
          -- rewrite (Hext w w' j k) by (lia || exact Hw). apply H3; lia.
        * rewrite Ht by lia. symmetry. exact Hs.
        * rewrite Ht by lia. exact H5.
      + replace (S (k + 4)) with (k + 5)%nat in H4 by lia. replace (S (k + 5)) with (k + 6)%nat in H5 by lia.
        match goal with |- context [upd (upd (upd w k ?x) k ?z) k ?t] => set (w' := upd (upd (upd w k x) k z) k t) end.
        assert (Hw : forall j, j <> k -> w' j = w j) by (intros j Hj; unfold w'; upds; reflexivity).
        assert (Hv : w' k = (y k - l_d1 s k * w (k + 2)%nat - l_d2 s k * (so + w (k + 4)%nat)) / l_d0 s k)
          by (unfold w'; rewrite !upd_same; reflexivity).
        assert (Ht : forall a, (k < a)%nat -> tail M a w' = tail M a w) by (intros a Hlt; apply tail_ext; intros; apply Hw; lia).
        assert (Hs : tail M (k + 4) w = so + w (k + 4)%nat).
        { rewrite tail_step by lia. rewrite H5. replace (k + 4 + 2)%nat with (k + 6)%nat by lia. ring. }
        split; [|split; [|split]].
        * intros j Hj. rewrite Hw by lia. apply H2; lia.
        * intros j Hj. destruct (Nat.eq_dec j k) as [->|].
          -- unfold row. replace (Nat.ltb (k + 2) M) with true by (symmetry; apply Nat.ltb_lt; lia).
             rewrite Ht, Hs, Hv, Hw by lia. field. apply Hd; lia.
          -- rewrite (Hext w w' j k) by (lia || exact Hw). apply H3; lia.
        * rewrite Ht by lia. exact H4.
        * rewrite Ht by lia. symmetry. exact Hs. }
  destruct (for_down (M - 4) (back_step s y) (u4, 0, 0)) as [[w se] so].
  destruct H as (H2 & H3 & _). split; [|exact H2]. intros k Hk. apply H3. lia.
Qed.
