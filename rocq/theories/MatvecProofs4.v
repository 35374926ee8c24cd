(** MatvecProofs4.v -- the kernels with running sums. *)
From Coq Require Import Reals ZArith List Arith Bool Lia Lra.
From Verif Require Import Base Fld SparseModel SparseSpec SparseProofs RPoly StencilModel StencilModel2 LegMatrixModel
  LegMatrixProofs5 LegMatrixProofs6 ChebMatrixModel ChebMatrixProofs2 HelmholtzModel HelmholtzProofs HelmholtzProofs3 HelmholtzProofs4
  BiharmonicModel BiharmonicProofs3 MatvecModel MatvecSpec MatvecProofs MatvecProofs2.
Import ListNotations.
Local Open Scope R_scope.

Lemma tail_shift a n k w : tail n k (fun j => w (j + a)%nat) = tail (n + a) (k + a) w.
Proof.
  remember (n - k)%nat as d eqn:E. revert k E. induction d as [d IH] using lt_wf_ind. intros k E.
  destruct (Nat.le_gt_cases n k) as [H|H].
  - rewrite !tail_ge by lia. reflexivity.
  - rewrite (tail_step n k), (tail_step (n + a) (k + a)) by lia. rewrite (IH (n - (k + 2))%nat) by lia.
    replace (k + 2 + a)%nat with (k + a + 2)%nat by lia. reflexivity.
Qed.

(** ** one running sum per parity *)
Section Loop1.
  Variables (p : nat -> bool) (w : nat -> R) (g : nat -> R -> R).
  Hypothesis Hp : forall k, p (S k) = negb (p k).
  Variable step : nat -> (nat -> R) * R * R -> (nat -> R) * R * R.
  Variable n : nat.
  Hypothesis Hstep : forall k b s1 s2, (k < n)%nat -> exists b', (forall j, b' j = upd b k (g k (if p k then s1 + w k else s2 + w k)) j) /\
    step k (b, s1, s2) = if p k then (b', s1 + w k, s2) else (b', s1, s2 + w k).
  Lemma loop1 b0 : forall k, fst (fst (for_down n step (b0, 0, 0))) k = if Nat.ltb k n then g k (tail n k w) else b0 k.
  Proof.
    set (P := fun (i : nat) (st : (nat -> R) * R * R) => let '(b, s1, s2) := st in
      (forall j, (j < i \/ n <= j)%nat -> b j = b0 j) /\ (forall j, (i <= j < n)%nat -> b j = g j (tail n j w)) /\
      s1 = tail n (if p i then i else i + 1)%nat w /\ s2 = tail n (if p i then i + 1 else i)%nat w).
    assert (H : P 0%nat (for_down n step (b0, 0, 0))).
    { apply for_down_inv.
      - unfold P. repeat split; [intros; lia| |]; destruct (p n); rewrite tail_ge by lia; reflexivity.
      - intros i [[b s1] s2] Hi (H1 & H2 & H3 & H4). destruct (Hstep i b s1 s2 Hi) as (b' & Hb & ->).
        rewrite Hp in H3, H4. unfold P. destruct (p i) eqn:Ep; cbn [negb] in H3, H4.
        + replace (S i + 1)%nat with (i + 2)%nat in H3 by lia.
          assert (E : s1 + w i = tail n i w) by (rewrite H3, (tail_step n i) by lia; ring).
          repeat split.
          * intros j Hj. rewrite Hb. upds. apply H1. lia.
          * intros j Hj. rewrite Hb. destruct (Nat.eq_dec j i) as [->|].
            -- upds. rewrite E. reflexivity.
            -- upds. apply H2. lia.
          * exact E.
          * rewrite H4. f_equal; lia.
        + replace (S i + 1)%nat with (i + 2)%nat in H4 by lia.
          assert (E : s2 + w i = tail n i w) by (rewrite H4, (tail_step n i) by lia; ring).
          repeat split.
          * intros j Hj. rewrite Hb. upds. apply H1. lia.
          * intros j Hj. rewrite Hb. destruct (Nat.eq_dec j i) as [->|].
            -- upds. rewrite E. reflexivity.
            -- upds. apply H2. lia.
          * rewrite H3. f_equal; lia.
          * exact E. }
    intros k. destruct (for_down n step (b0, 0, 0)) as [[b s1] s2]. cbn [fst]. destruct H as (H1 & H2 & _).
    destruct (Nat.ltb_spec k n); [apply H2|apply H1]; lia.
  Qed.
End Loop1.
(** ** two running sums per parity *)
Section Loop2.
  Variables (p : nat -> bool) (w z : nat -> R) (g : nat -> R -> R -> R).
  Hypothesis Hp : forall k, p (S k) = negb (p k).
  Variable step : nat -> (nat -> R) * (R * R) * (R * R) -> (nat -> R) * (R * R) * (R * R).
  Variable n : nat.
  Hypothesis Hstep : forall k b s1 z1 s2 z2, (k < n)%nat -> exists b',
    (forall j, b' j = upd b k (if p k then g k (s1 + w k) (z1 + z k) else g k (s2 + w k) (z2 + z k)) j) /\
    step k (b, (s1, z1), (s2, z2)) = if p k then (b', (s1 + w k, z1 + z k), (s2, z2)) else (b', (s1, z1), (s2 + w k, z2 + z k)).
  Lemma loop2 b0 : forall k, fst (fst (for_down n step (b0, (0, 0), (0, 0)))) k = if Nat.ltb k n then g k (tail n k w) (tail n k z) else b0 k.
  Proof.
    set (P := fun (i : nat) (st : (nat -> R) * (R * R) * (R * R)) => let '(b, (s1, z1), (s2, z2)) := st in
      (forall j, (j < i \/ n <= j)%nat -> b j = b0 j) /\ (forall j, (i <= j < n)%nat -> b j = g j (tail n j w) (tail n j z)) /\
      (s1 = tail n (if p i then i else i + 1)%nat w /\ z1 = tail n (if p i then i else i + 1)%nat z) /\
      (s2 = tail n (if p i then i + 1 else i)%nat w /\ z2 = tail n (if p i then i + 1 else i)%nat z)).
    assert (H : P 0%nat (for_down n step (b0, (0, 0), (0, 0)))).
    { apply for_down_inv.
      - unfold P. repeat split; [intros; lia| | | |]; destruct (p n); rewrite tail_ge by lia; reflexivity.
      - intros i [[b [s1 z1]] [s2 z2]] Hi (H1 & H2 & (H3 & H3') & (H4 & H4')). destruct (Hstep i b s1 z1 s2 z2 Hi) as (b' & Hb & ->).
        rewrite Hp in H3, H4, H3', H4'. unfold P. destruct (p i) eqn:Ep; cbn [negb] in H3, H4, H3', H4'.
        + replace (S i + 1)%nat with (i + 2)%nat in H3, H3' by lia.
          assert (E : s1 + w i = tail n i w) by (rewrite H3, (tail_step n i) by lia; ring).
          assert (E' : z1 + z i = tail n i z) by (rewrite H3', (tail_step n i) by lia; ring).
          repeat split.
          * intros j Hj. rewrite Hb. upds. apply H1. lia.
          * intros j Hj. rewrite Hb. destruct (Nat.eq_dec j i) as [->|].
            -- upds. rewrite E, E'. reflexivity.
            -- upds. apply H2. lia.
          * exact E.
          * exact E'.
          * rewrite H4. f_equal; lia.
          * rewrite H4'. f_equal; lia.
        + replace (S i + 1)%nat with (i + 2)%nat in H4, H4' by lia.
          assert (E : s2 + w i = tail n i w) by (rewrite H4, (tail_step n i) by lia; ring).
          assert (E' : z2 + z i = tail n i z) by (rewrite H4', (tail_step n i) by lia; ring).
          repeat split.
          * intros j Hj. rewrite Hb. upds. apply H1. lia.
          * intros j Hj. rewrite Hb. destruct (Nat.eq_dec j i) as [->|].
            -- upds. rewrite E, E'. reflexivity.
            -- upds. apply H2. lia.
          * rewrite H3. f_equal; lia.
          * rewrite H3'. f_equal; lia.
          * exact E.
          * exact E'. }
    intros k. destruct (for_down n step (b0, (0, 0), (0, 0))) as [[b [s1 z1]] [s2 z2]]. cbn [fst]. destruct H as (H1 & H2 & _).
    destruct (Nat.ltb_spec k n); [apply H2|apply H1]; lia.
  Qed.
End Loop2.

Lemma even_S k : Nat.even (S k) = negb (Nat.even k).
Proof. now rewrite Nat.even_succ, <- Nat.negb_even. Qed.
Lemma even_1 k : Nat.even (k + 1) = negb (Nat.even k).
Proof. replace (k + 1)%nat with (S k) by lia. apply even_S. Qed.
Lemma even_2 k : Nat.even (k + 2) = Nat.even k.
Proof. replace (k + 2)%nat with (S (S k)) by lia. rewrite !even_S. destruct (Nat.even k); reflexivity. Qed.

Lemma wrap32_id z : (- 2 ^ 31 <= z < 2 ^ 31)%Z -> wrap32 z = z.
Proof. intros H. unfold wrap32. rewrite Z.mod_small by lia. lia. Qed.
Ltac par := intros; cbv beta; rewrite ?even_2, ?even_1; rewrite ?even_S; rewrite ?negb_involutive; reflexivity.
Ltac onestep f := let b := fresh in intros; cbv beta; unfold f;
  match goal with |- context [if Nat.even ?m then _ else _] => destruct (Nat.even m) end; eexists; (split; [|reflexivity]; reflexivity).

Lemma ADD_spec M dd v : (2 <= M)%nat -> exists b, ADD_matvec M dd v = Some b /\
  forall k, b k = if Nat.ltb k M then dd k * v k + -4 * INR (k + 1) * PI * tail M (k + 2) v else 0.
Proof.
  intros H. unfold ADD_matvec. destruct (Nat.ltb_spec M 2); [lia|]. cbv zeta.
  set (b0 := upd (upd zeros _ _) _ _).
  pose proof (loop1 (fun k => Nat.even (k + 2)) (fun k => v (k + 2)%nat) (fun k t => dd k * v k + -4 * INR (k + 1) * PI * t)
    ltac:(par) (ADD_step dd v) (M - 2) ltac:(onestep ADD_step) b0) as L.
  destruct (for_down (M - 2) (ADD_step dd v) (b0, 0, 0)) as [[b s1] s2] eqn:E. exists b. split; [reflexivity|].
  intros k. specialize (L k). cbn [fst] in L. rewrite L, tail_shift. replace (M - 2 + 2)%nat with M by lia.
  unfold b0, upd, zeros. cases; try reflexivity; subst; rewrite tail_ge by lia; ring.
Qed.
Lemma CLL_spec N v : (1 <= N)%nat -> exists b, CLL_matvec N v = Some b /\
  forall k, b k = if Nat.ltb k N then 2 * tail N (k + 1) v else 0.
Proof.
  intros H. unfold CLL_matvec. destruct (Nat.ltb_spec N 1); [lia|]. cbv zeta.
  set (b0 := upd zeros _ _).
  pose proof (loop1 (fun k => Nat.even (k + 1)) (fun k => v (k + 1)%nat) (fun k t => 2 * t)
    ltac:(par) (CLL_step v) (N - 1) ltac:(onestep CLL_step) b0) as L.
  destruct (for_down (N - 1) (CLL_step v) (b0, 0, 0)) as [[b s1] s2] eqn:E. exists b. split; [reflexivity|].
  intros k. specialize (L k). cbn [fst] in L. rewrite L, tail_shift. replace (N - 1 + 1)%nat with N by lia.
  unfold b0, upd, zeros. cases; try reflexivity; subst; rewrite tail_ge by lia; ring.
Qed.
Lemma CTT_spec N v : (1 <= N)%nat -> exists b, CTT_matvec N v = Some b /\
  forall k, b k = if Nat.ltb k N then PI * tail N (k + 1) (fun j => INR j * v j) else 0.
Proof.
  intros H. unfold CTT_matvec. destruct (Nat.ltb_spec N 1); [lia|]. cbv zeta.
  set (b0 := upd zeros _ _).
  pose proof (loop1 (fun k => Nat.even (k + 1)) (fun k => INR (k + 1) * v (k + 1)%nat) (fun k t => PI * t)
    ltac:(par) (CTT_step v) (N - 1) ltac:(onestep CTT_step) b0) as L.
  destruct (for_down (N - 1) (CTT_step v) (b0, 0, 0)) as [[b s1] s2] eqn:E. exists b. split; [reflexivity|].
  intros k. specialize (L k). cbn [fst] in L. rewrite L, (tail_shift 1 (N - 1) k (fun j => INR j * v j)). replace (N - 1 + 1)%nat with N by lia.
  unfold b0, upd, zeros. cases; try reflexivity; subst; rewrite tail_ge by lia; ring.
Qed.
Lemma CTSD_spec N v : (4 <= N)%nat -> exists b, CTSD_matvec N v = Some b /\
  forall k, b k = if Nat.ltb k (N - 1) then (if Nat.ltb 0 k then - INR (k + 1) * PI * v (k - 1)%nat else 0) - tail (N - 2) (k + 1) v * (2 * PI) else 0.
Proof.
  intros H. unfold CTSD_matvec. destruct (Nat.ltb_spec N 4); [lia|]. cbv zeta.
  set (b0 := upd (upd (upd zeros _ _) _ _) _ _).
  pose proof (loop1 Nat.even (fun k => v (k + 1)%nat) (fun k t => (if Nat.ltb 0 k then - INR (k + 1) * PI * v (k - 1)%nat else 0) - t * (2 * PI))
    ltac:(par) (CTSD_step v) (N - 3)) as L.
  destruct (for_down (N - 3) (CTSD_step v) (b0, 0, 0)) as [[b s1] s2] eqn:E. exists b. split; [reflexivity|].
  intros k.
  assert (St : forall k b s1 s2, (k < N - 3)%nat -> exists b',
     (forall j, b' j = upd b k ((if Nat.ltb 0 k then - INR (k + 1) * PI * v (k - 1)%nat else 0) - (if Nat.even k then s1 + v (k + 1)%nat else s2 + v (k + 1)%nat) * (2 * PI)) j) /\
     CTSD_step v k (b, s1, s2) = if Nat.even k then (b', s1 + v (k + 1)%nat, s2) else (b', s1, s2 + v (k + 1)%nat)).
  { intros k1 b1 t1 t2 _. unfold CTSD_step. destruct (Nat.even k1); eexists; (split; [|reflexivity]); intros j; destruct (Nat.ltb 0 k1);
      (destruct (Nat.eq_dec j k1) as [->|]; upds; reflexivity). }
  specialize (L St b0 k). rewrite E in L. cbn [fst] in L. rewrite L, tail_shift. replace (N - 3 + 1)%nat with (N - 2)%nat by lia.
  unfold b0, upd, zeros. cases; try reflexivity; subst; try rewrite tail_ge by lia; try ring; idx; ring.
Qed.
(** entries j(j^2 - k^2) pi/2, with 32-bit powers *)
Definition att_tail (N k : nat) (v : nat -> R) : R :=
  PI / 2 * tail N (k + 2) (fun j => IZR (wrap32 (Z.of_nat j ^ 3)) * v j)
  - PI / 2 * IZR (wrap32 (Z.of_nat k ^ 2)) * tail N (k + 2) (fun j => INR j * v j).
Lemma ATT_spec N v : (2 <= N)%nat -> exists b, ATT_matvec N v = Some b /\
  forall k, b k = if Nat.ltb k N then att_tail N k v else 0.
Proof.
  intros H. unfold ATT_matvec. destruct (Nat.ltb_spec N 2); [lia|]. cbv zeta.
  set (b0 := upd (upd zeros _ _) _ _).
  pose proof (loop2 (fun k => Nat.even (k + 2)) (fun k => INR (k + 2) * v (k + 2)%nat) (fun k => IZR (wrap32 (Z.of_nat (k + 2) ^ 3)) * v (k + 2)%nat)
    (fun k s t => PI / 2 * t - PI / 2 * IZR (wrap32 (Z.of_nat k ^ 2)) * s)
    ltac:(par) (ATT_step v) (N - 2) ltac:(onestep ATT_step) b0) as L.
  destruct (for_down (N - 2) (ATT_step v) (b0, (0, 0), (0, 0))) as [[b s1] s2] eqn:E. exists b. split; [reflexivity|].
  intros k. specialize (L k). cbn [fst] in L. rewrite L. unfold att_tail.
  rewrite (tail_shift 2 (N - 2) k (fun j => INR j * v j)), (tail_shift 2 (N - 2) k (fun j => IZR (wrap32 (Z.of_nat j ^ 3)) * v j)).
  replace (N - 2 + 2)%nat with N by lia.
  unfold b0, upd, zeros. cases; try reflexivity; subst; rewrite !tail_ge by lia; ring.
Qed.
Definition sbb_tail (M k : nat) (d : R) (v : nat -> R) : R :=
  INR k * d / INR (k + 1) * tail M (k + 2) (fun j => v j / (INR j + 3))
  + IZR (wrap32 (24 * (Z.of_nat k + 1) * (Z.of_nat k + 2))) * PI * tail M (k + 2) (fun j => IZR (wrap32 ((Z.of_nat j + 2) * (Z.of_nat j + 2))) * (v j / (INR j + 3))).
Lemma SBB_spec M dd v : (2 <= M)%nat -> exists b, SBB_matvec M dd v = Some b /\
  forall k, b k = if Nat.ltb k M then dd k * v k + sbb_tail M k (dd k) v else 0.
Proof.
  intros H. unfold SBB_matvec. destruct (Nat.ltb_spec M 2); [lia|]. cbv zeta.
  set (b0 := upd (upd zeros _ _) _ _).
  pose proof (loop2 Nat.even (fun k => v (k + 2)%nat / (INR (k + 2) + 3)) (fun k => IZR (wrap32 ((Z.of_nat (k + 2) + 2) * (Z.of_nat (k + 2) + 2))) * (v (k + 2)%nat / (INR (k + 2) + 3)))
    (fun k s t => dd k * v k + INR k * dd k / INR (k + 1) * s + IZR (wrap32 (24 * (Z.of_nat k + 1) * (Z.of_nat k + 2))) * PI * t)
    ltac:(par) (SBB_step dd v) (M - 2) ltac:(onestep SBB_step) b0) as L.
  destruct (for_down (M - 2) (SBB_step dd v) (b0, (0, 0), (0, 0))) as [[b s1] s2] eqn:E. exists b. split; [reflexivity|].
  intros k. specialize (L k). cbn [fst] in L. rewrite L. unfold sbb_tail.
  rewrite (tail_shift 2 (M - 2) k (fun j => v j / (INR j + 3))), (tail_shift 2 (M - 2) k (fun j => IZR (wrap32 ((Z.of_nat j + 2) * (Z.of_nat j + 2))) * (v j / (INR j + 3)))).
  replace (M - 2 + 2)%nat with M by lia.
  unfold b0, upd, zeros. cases; try ring; subst; rewrite !tail_ge by lia; ring.
Qed.
