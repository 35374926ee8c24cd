(** BiharmonicProofs2.v -- the substitutions of one half, and the solution of its system. *)
From Coq Require Import Reals ZArith List Arith Bool Lia Lra.
From Verif Require Import Base Fld SparseModel RPoly StencilModel StencilModel2 LegMatrixModel HelmholtzModel HelmholtzProofs BiharmonicModel BiharmonicProofs.
Import ListNotations.
Local Open Scope R_scope.

(** sum of g over lo <= j < M *)
Definition from (M lo : nat) (g : nat -> R) : R := rsum M (fun j => if Nat.leb lo j then g j else 0).
Lemma from_ext M lo g g' : (forall j, (lo <= j < M)%nat -> g j = g' j) -> from M lo g = from M lo g'.
Proof. intros H. apply rsum_ext. intros j Hj. destruct (Nat.leb_spec lo j); [apply H; lia|reflexivity]. Qed.
Lemma from_ge M lo g : (M <= lo)%nat -> from M lo g = 0.
Proof. intros H. apply rsum_zero. intros j Hj. destruct (Nat.leb_spec lo j); [lia|reflexivity]. Qed.
Lemma from_step M lo g : (lo < M)%nat -> from M lo g = g lo + from M (lo + 1) g.
Proof.
  intros H. unfold from. rewrite (rsum_ext M _ (fun j => (if Nat.eqb j lo then g j else 0) + (if Nat.leb (lo + 1) j then g j else 0))).
  - rewrite rsum_add, rsum_one. apply Nat.ltb_lt in H. rewrite H. reflexivity.
  - intros j Hj. destruct (Nat.eqb_spec j lo) as [E|E]; destruct (Nat.leb_spec lo j); destruct (Nat.leb_spec (lo + 1) j); try lia; ring.
Qed.
Lemma from_lin M lo a b g g' : from M lo (fun j => a * g j + b * g' j) = a * from M lo g + b * from M lo g'.
Proof.
  unfold from. rewrite <- !rsum_scal, <- rsum_add. apply rsum_ext. intros j Hj. destruct (Nat.leb lo j); ring.
Qed.

Lemma bh_factor_spec L odd l0 l1 : (4 <= L)%nat -> let '(x, y) := bh_factor L odd l0 l1 in
  (forall r, (r < L - 2)%nat -> x r = pr_a odd r - (if Nat.leb 1 r then l0 (r - 1)%nat * x (r - 1)%nat else 0) - (if Nat.leb 2 r then l1 (r - 2)%nat * x (r - 2)%nat else 0)) /\
  (forall r, (r < L - 2)%nat -> y r = pr_b odd r - (if Nat.leb 1 r then l0 (r - 1)%nat * y (r - 1)%nat else 0) - (if Nat.leb 2 r then l1 (r - 2)%nat * y (r - 2)%nat else 0)).
Proof.
  intros HL. unfold bh_factor.
  match goal with |- context [for_up _ _ _ (?x0, ?y0)] => set (x1 := x0); set (y1 := y0) end.
  set (P := fun (k : nat) (s : (nat -> R) * (nat -> R)) => let '(x, y) := s in
    (forall r, (r < k)%nat -> x r = pr_a odd r - (if Nat.leb 1 r then l0 (r - 1)%nat * x (r - 1)%nat else 0) - (if Nat.leb 2 r then l1 (r - 2)%nat * x (r - 2)%nat else 0)) /\
    (forall r, (r < k)%nat -> y r = pr_b odd r - (if Nat.leb 1 r then l0 (r - 1)%nat * y (r - 1)%nat else 0) - (if Nat.leb 2 r then l1 (r - 2)%nat * y (r - 2)%nat else 0))).
  assert (H : P (2 + (L + 1 - 3 - 2))%nat (for_up (L + 1 - 3 - 2) 2 (pr_step odd l0 l1) (x1, y1))).
  { apply for_up_inv.
    - split; intros r Hr; (assert (Hc : (r = 0 \/ r = 1)%nat) by lia); destruct Hc as [->| ->]; unfold x1, y1; cbn [Nat.leb Nat.sub]; upds; ring.
    - intros k [x y] Hk (Hx & Hy). unfold pr_step, P. split; intros r Hr; (destruct (Nat.eq_dec r k) as [->|Hne]).
      + rewrite upd_same, !upd_other by lia. destruct (Nat.leb_spec 1 k); [|lia]. destruct (Nat.leb_spec 2 k); [|lia]. ring.
      + rewrite upd_other by exact Hne. rewrite Hx by lia.
        destruct (Nat.leb 1 r); [rewrite upd_other by lia|]; (destruct (Nat.leb 2 r); [rewrite upd_other by lia|]); reflexivity.
      + rewrite upd_same, !upd_other by lia. destruct (Nat.leb_spec 1 k); [|lia]. destruct (Nat.leb_spec 2 k); [|lia]. ring.
      + rewrite upd_other by exact Hne. rewrite Hy by lia.
        destruct (Nat.leb 1 r); [rewrite upd_other by lia|]; (destruct (Nat.leb 2 r); [rewrite upd_other by lia|]); reflexivity. }
  destruct (for_up (L + 1 - 3 - 2) 2 (pr_step odd l0 l1) (x1, y1)) as [x y]. unfold P in H.
  replace (2 + (L + 1 - 3 - 2))%nat with (L - 2)%nat in H by lia. exact H.
Qed.

Lemma bh_forward_spec M l0 l1 f : (2 <= M)%nat -> let y := bh_forward M l0 l1 f in
  forall r, (r < M)%nat -> y r + (if Nat.leb 1 r then l0 (r - 1)%nat * y (r - 1)%nat else 0) + (if Nat.leb 2 r then l1 (r - 2)%nat * y (r - 2)%nat else 0) = f r.
Proof.
  intros HM. unfold bh_forward.
  match goal with |- context [for_up _ _ _ ?x] => set (y1 := x) end.
  set (P := fun (k : nat) (y : nat -> R) => forall r, (r < k)%nat ->
    y r + (if Nat.leb 1 r then l0 (r - 1)%nat * y (r - 1)%nat else 0) + (if Nat.leb 2 r then l1 (r - 2)%nat * y (r - 2)%nat else 0) = f r).
  match goal with |- context [for_up (M - 2) 2 ?g y1] => assert (H : P (2 + (M - 2))%nat (for_up (M - 2) 2 g y1)) end.
  { apply for_up_inv.
    - intros r Hr. assert (Hc : (r = 0 \/ r = 1)%nat) by lia. destruct Hc as [->| ->]; unfold y1; cbn [Nat.leb Nat.sub]; upds; ring.
    - intros k y Hk Hy r Hr. destruct (Nat.eq_dec r k) as [->|Hne].
      + rewrite upd_same, !upd_other by lia. destruct (Nat.leb_spec 1 k); [|lia]. destruct (Nat.leb_spec 2 k); [|lia]. ring.
      + rewrite <- (Hy r) by lia. rewrite upd_other by exact Hne.
        destruct (Nat.leb 1 r); [rewrite upd_other by lia|]; (destruct (Nat.leb 2 r); [rewrite upd_other by lia|]); reflexivity. }
  replace (2 + (M - 2))%nat with M in H by lia. exact H.
Qed.

Definition w1 (odd : nat) (u : nat -> R) (j : nat) : R := u j / (INR (2 * j + odd) + 3).
Definition w2 (odd : nat) (u : nat -> R) (j : nat) : R := u j / (INR (2 * j + odd) + 3) * ((INR (2 * j + odd) + 2) * (INR (2 * j + odd) + 2)).
Lemma bh_backward_spec M odd f u u0 u1 u2 a b ac : (4 <= M)%nat -> (forall k, (k < M)%nat -> u0 k <> 0) ->
  let r := bh_backward M odd f u u0 u1 u2 a b ac in
  forall k, (k < M)%nat ->
    u0 k * r k + (if Nat.ltb (k + 1) M then u1 k * r (k + 1)%nat else 0) + (if Nat.ltb (k + 2) M then u2 k * r (k + 2)%nat else 0)
    + ac * (a k * from M (k + 3) (w1 odd r) + b k * from M (k + 3) (w2 odd r)) = f k.
Proof.
  intros HM Hd. unfold bh_backward.
  set (x1 := upd u (M - 1) _). set (x2 := upd x1 (M - 2) _). set (x3 := upd x2 (M - 3) _).
  set (row := fun (w : nat -> R) k => u0 k * w k + (if Nat.ltb (k + 1) M then u1 k * w (k + 1)%nat else 0) + (if Nat.ltb (k + 2) M then u2 k * w (k + 2)%nat else 0)
    + ac * (a k * from M (k + 3) (w1 odd w) + b k * from M (k + 3) (w2 odd w))).
  set (P := fun (k : nat) (st : (nat -> R) * R * R) => let '(w, s1, s2) := st in
    (forall j, (k <= j < M)%nat -> row w j = f j) /\ s1 = from M (k + 3) (w1 odd w) /\ s2 = from M (k + 3) (w2 odd w)).
  assert (Hext : forall w w' j k, (k < j)%nat -> (forall i, i <> k -> w' i = w i) -> row w' j = row w j).
  { intros w w' j k Hj Hw. unfold row. rewrite !Hw by lia.
    rewrite (from_ext M (j + 3) (w1 odd w') (w1 odd w)) by (intros i Hi; unfold w1; rewrite Hw by lia; reflexivity).
    rewrite (from_ext M (j + 3) (w2 odd w') (w2 odd w)) by (intros i Hi; unfold w2; rewrite Hw by lia; reflexivity). reflexivity. }
  assert (H : P 0%nat (for_down (M - 3) (bh_back_step odd f u0 u1 u2 a b ac) (x3, 0, 0))).
  { apply for_down_inv.
    - assert (E3 : x3 (M - 3)%nat = (f (M - 3)%nat - u1 (M - 3)%nat * x2 (M - 2)%nat - u2 (M - 3)%nat * x2 (M - 1)%nat) / u0 (M - 3)%nat) by (unfold x3; apply upd_same).
      assert (E2 : x2 (M - 2)%nat = (f (M - 2)%nat - u1 (M - 2)%nat * x1 (M - 1)%nat) / u0 (M - 2)%nat) by (unfold x2; apply upd_same).
      assert (E1 : x1 (M - 1)%nat = f (M - 1)%nat / u0 (M - 1)%nat) by (unfold x1; apply upd_same).
      assert (F2 : x3 (M - 2)%nat = x2 (M - 2)%nat) by (unfold x3; apply upd_other; lia).
      assert (F1 : x3 (M - 1)%nat = x1 (M - 1)%nat) by (unfold x3, x2; rewrite !upd_other by lia; reflexivity).
      assert (G1 : x2 (M - 1)%nat = x1 (M - 1)%nat) by (unfold x2; apply upd_other; lia).
      split; [|split].
      + intros j Hj. unfold row. rewrite !from_ge by lia.
        assert (Hc : (j = M - 3 \/ j = M - 2 \/ j = M - 1)%nat) by lia.
        destruct Hc as [->|[->| ->]].
        * replace (Nat.ltb (M - 3 + 1) M) with true by (symmetry; apply Nat.ltb_lt; lia).
          replace (Nat.ltb (M - 3 + 2) M) with true by (symmetry; apply Nat.ltb_lt; lia).
          replace (M - 3 + 1)%nat with (M - 2)%nat by lia. replace (M - 3 + 2)%nat with (M - 1)%nat by lia.
          rewrite E3, F2, F1, G1. field. apply Hd; lia.
        * replace (Nat.ltb (M - 2 + 1) M) with true by (symmetry; apply Nat.ltb_lt; lia).
          replace (Nat.ltb (M - 2 + 2) M) with false by (symmetry; apply Nat.ltb_ge; lia).
          replace (M - 2 + 1)%nat with (M - 1)%nat by lia. rewrite F2, F1, E2. field. apply Hd; lia.
        * replace (Nat.ltb (M - 1 + 1) M) with false by (symmetry; apply Nat.ltb_ge; lia).
          replace (Nat.ltb (M - 1 + 2) M) with false by (symmetry; apply Nat.ltb_ge; lia).
          rewrite F1, E1. field. apply Hd; lia.
      + rewrite from_ge by lia. reflexivity.
      + rewrite from_ge by lia. reflexivity.
    - intros k [[w s1] s2] Hk (H1 & H2 & H3). unfold bh_back_step, P.
      match goal with |- context [upd w k ?x] => set (w' := upd w k x) end.
      assert (Hw : forall j, j <> k -> w' j = w j) by (intros j Hj; unfold w'; apply upd_other; exact Hj).
      assert (EJ : INR (2 * k + odd + 6) = INR (2 * (k + 3) + odd)) by (f_equal; lia).
      assert (S1 : s1 + w (k + 3)%nat / (INR (2 * k + odd + 6) + 3) = from M (k + 3) (w1 odd w)).
      { rewrite from_step by lia. unfold w1 at 1. rewrite EJ, H2. replace (k + 3 + 1)%nat with (S k + 3)%nat by lia. ring. }
      assert (S2 : s2 + w (k + 3)%nat / (INR (2 * k + odd + 6) + 3) * ((INR (2 * k + odd + 6) + 2) * (INR (2 * k + odd + 6) + 2)) = from M (k + 3) (w2 odd w)).
      { rewrite from_step by lia. unfold w2 at 1. rewrite EJ, H3. replace (k + 3 + 1)%nat with (S k + 3)%nat by lia. ring. }
      assert (T1 : from M (k + 3) (w1 odd w') = from M (k + 3) (w1 odd w)) by (apply from_ext; intros j Hj; unfold w1; rewrite Hw by lia; reflexivity).
      assert (T2 : from M (k + 3) (w2 odd w') = from M (k + 3) (w2 odd w)) by (apply from_ext; intros j Hj; unfold w2; rewrite Hw by lia; reflexivity).
      split; [|split].
      + intros j Hj. destruct (Nat.eq_dec j k) as [->|].
        * unfold row. replace (Nat.ltb (k + 1) M) with true by (symmetry; apply Nat.ltb_lt; lia).
          replace (Nat.ltb (k + 2) M) with true by (symmetry; apply Nat.ltb_lt; lia).
          rewrite T1, T2, (Hw (k + 1)%nat), (Hw (k + 2)%nat) by lia.
          unfold w'. rewrite upd_same, S1, S2. field. apply Hd; lia.
        * rewrite (Hext w w' j k) by (lia || exact Hw). apply H1; lia.
      + rewrite S1, T1. reflexivity.
      + rewrite S2, T2. reflexivity. }
  destruct (for_down (M - 3) (bh_back_step odd f u0 u1 u2 a b ac) (x3, 0, 0)) as [[w s1] s2].
  destruct H as (H1 & _). intros k Hk. apply H1. lia.
Qed.

Lemma far_pr a odd k j : far a odd k j = a * (pr_a odd k * / (INR (2 * j + odd) + 3) + pr_b odd k * (/ (INR (2 * j + odd) + 3) * ((INR (2 * j + odd) + 2) * (INR (2 * j + odd) + 2)))).
Proof. unfold far, pr_a, pr_b, Rdiv. ring. Qed.

(** the half system is solved *)
Lemma half_solved M odd a b c D f u : (5 <= M)%nat ->
  let s := bh_lu M odd a b c D in
  (forall k, (k < M)%nat -> v0 s k <> 0) ->
  let '(x, y) := bh_factor M odd (m0 s) (m1 s) in
  let r := bh_backward M odd (bh_forward M (m0 s) (m1 s) f) u (v0 s) (v1 s) (v2 s) x y a in
  forall k, (k < M)%nat -> rsum M (fun j => Hb odd a b c D k j * r j) = f k.
Proof.
  intros HM s Hp. destruct (lu_inv M odd a b c D HM) as (U & I0 & I1 & I2 & I3 & I4 & _). fold s in I1, I2, I3, I4.
  pose proof (bh_factor_spec M odd (m0 s) (m1 s) ltac:(lia)) as HF.
  destruct (bh_factor M odd (m0 s) (m1 s)) as [x y]. destruct HF as (Fx & Fy). intros r.
  pose proof (bh_forward_spec M (m0 s) (m1 s) f ltac:(lia)) as HY. cbv zeta in HY.
  set (g := bh_forward M (m0 s) (m1 s) f) in *.
  pose proof (bh_backward_spec M odd g u (v0 s) (v1 s) (v2 s) x y a ltac:(lia) Hp) as HB. cbv zeta in HB. fold r in HB.
  set (W := fun j => (INR (2 * j + odd) + 2) * (INR (2 * j + odd) + 2)).
  set (Q := fun j => / (INR (2 * j + odd) + 3)).
  (* the far entries of U *)
  assert (UF : forall k j, (k + 3 <= j < M)%nat -> U k j = a * (x k * Q j + y k * (Q j * W j))).
  { intros k. induction k as [k IH] using lt_wf_ind. intros j Hj.
    assert (EH : Hb odd a b c D k j = a * (pr_a odd k * Q j + pr_b odd k * (Q j * W j))).
    { unfold Hb. destruct (Nat.eqb_spec j k); [lia|]. destruct (Nat.eqb_spec j (k + 1)); [lia|]. destruct (Nat.eqb_spec j (k + 2)); [lia|].
      destruct (Nat.leb_spec (k + 3) j); [|lia]. rewrite far_pr. reflexivity. }
    rewrite Fx, Fy by lia. destruct (Nat.eq_dec k 0) as [->|Hk0].
    - rewrite I0 by lia. rewrite EH. cbn [Nat.leb]. ring.
    - rewrite I1 by lia. rewrite EH, (IH (k - 1)%nat) by lia. unfold lower0.
      destruct (Nat.leb_spec 1 k); [|lia]. destruct (Nat.leb_spec 2 k); [rewrite (IH (k - 2)%nat) by lia|]; ring. }
  (* a row of U applied to r *)
  assert (UR : forall k, (k < M)%nat -> from M k (fun j => U k j * r j) = g k).
  { intros k Hk. rewrite <- (HB k Hk). destruct (I4 k Hk) as (E0 & E1 & E2).
    assert (EF : from M (k + 3) (fun j => U k j * r j) = a * (x k * from M (k + 3) (w1 odd r) + y k * from M (k + 3) (w2 odd r))).
    { rewrite <- from_lin. rewrite (from_ext _ _ _ (fun j => a * (x k * w1 odd r j + y k * w2 odd r j) + 0 * 0)).
      - rewrite (from_lin M (k + 3) a 0 _ (fun _ => 0)). ring.
      - intros j Hj. rewrite UF by exact Hj. unfold w1, w2, Q, W, Rdiv. ring. }
    rewrite from_step by exact Hk. rewrite E0. rewrite Rplus_assoc, Rplus_assoc. f_equal.
    destruct (Nat.ltb_spec (k + 1) M) as [H1|H1].
    - rewrite from_step by exact H1. rewrite E1 by exact H1. f_equal. replace (k + 1 + 1)%nat with (k + 2)%nat by lia.
      destruct (Nat.ltb_spec (k + 2) M) as [H2|H2].
      + rewrite from_step by exact H2. rewrite E2 by exact H2. f_equal. replace (k + 2 + 1)%nat with (k + 3)%nat by lia. exact EF.
      + rewrite !from_ge by lia. ring.
    - destruct (Nat.ltb_spec (k + 2) M); [lia|]. rewrite !from_ge by lia. ring. }
  intros k Hk. rewrite <- (HY k Hk).
  rewrite (rsum_ext M _ (fun j => (if Nat.leb k j then U k j * r j else 0)
     + (if Nat.leb 1 k then m0 s (k - 1)%nat * (if Nat.leb (k - 1) j then U (k - 1)%nat j * r j else 0) else 0)
     + (if Nat.leb 2 k then m1 s (k - 2)%nat * (if Nat.leb (k - 2) j then U (k - 2)%nat j * r j else 0) else 0))).
  - rewrite !rsum_add. f_equal; [f_equal|].
    + apply UR. exact Hk.
    + destruct (Nat.leb_spec 1 k); [|apply rsum_zero; reflexivity]. rewrite rsum_scal. f_equal. apply (UR (k - 1)%nat). lia.
    + destruct (Nat.leb_spec 2 k); [|apply rsum_zero; reflexivity]. rewrite rsum_scal. f_equal. apply (UR (k - 2)%nat). lia.
  - intros j Hj. destruct (Nat.eq_dec k 0) as [->|Hk0].
    { cbn [Nat.leb]. rewrite I0 by lia. ring. }
    destruct (Nat.leb_spec 1 k); [|lia].
    destruct (Nat.leb_spec k j) as [Hkj|Hkj].
    + destruct (Nat.leb_spec (k - 1) j); [|lia]. rewrite (I1 k j) by lia. unfold lower0.
      destruct (Nat.leb_spec 2 k); [destruct (Nat.leb_spec (k - 2) j); [|lia]|]; ring.
    + destruct (Nat.leb_spec (k - 1) j) as [Hj1|Hj1].
      * assert (j = (k - 1)%nat) as -> by lia. pose proof (I2 k ltac:(lia)) as E. destruct (I4 (k - 1)%nat ltac:(lia)) as (Ev & _).
        pose proof (Hp (k - 1)%nat ltac:(lia)) as Hne. rewrite Ev in E, Hne.
        assert (E' : Hb odd a b c D k (k - 1)%nat = m0 s (k - 1)%nat * U (k - 1)%nat (k - 1)%nat + lower0 (m1 s) U k (k - 1)%nat) by (rewrite E; field; exact Hne).
        rewrite E'. unfold lower0. destruct (Nat.leb_spec 2 k); [destruct (Nat.leb_spec (k - 2) (k - 1)); [|lia]|]; ring.
      * destruct (Nat.leb_spec 2 k) as [H2|H2]; [|lia].
        destruct (Nat.leb_spec (k - 2) j) as [Hj2|Hj2].
        -- assert (j = (k - 2)%nat) as -> by lia. pose proof (I3 k ltac:(lia) ltac:(lia)) as E. destruct (I4 (k - 2)%nat ltac:(lia)) as (Ev & _).
           pose proof (Hp (k - 2)%nat ltac:(lia)) as Hne. rewrite Ev in E, Hne.
           assert (E' : Hb odd a b c D k (k - 2)%nat = m1 s (k - 2)%nat * U (k - 2)%nat (k - 2)%nat) by (rewrite E; field; exact Hne).
           rewrite E'. ring.
        -- unfold Hb. repeat match goal with
             | |- context [Nat.eqb ?x ?y] => destruct (Nat.eqb_spec x y); try lia
             | |- context [Nat.leb ?x ?y] => destruct (Nat.leb_spec x y); try lia
             end. ring.
Qed.
