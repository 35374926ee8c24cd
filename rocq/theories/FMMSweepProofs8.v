(** FMMSweepProofs8.v -- FMMcheb, and the transforms with it. *)
From Coq Require Import Reals List Arith Bool Lia Lra.
From Verif Require Import Base RPoly HelmholtzProofs StencilProofs8 Leg2ChebModel Leg2ChebProofs Leg2ChebProofs2 Leg2ChebProofs3 FMMModel FMMProofs FMMProofs2 FMMProofs3 FMMProofs4
  FMMSweepModel FMMSweepSpec FMMSweepProofs FMMSweepProofs2 FMMSweepProofs3 FMMSweepProofs4 FMMSweepProofs5 FMMSweepProofs6 FMMSweepProofs7.
Import ListNotations.
Local Open Scope R_scope.

Lemma ns_ext {X} (f g : nat -> X -> R) ik l : (forall n x, f n x = g n x) -> numbered_sum f ik l = numbered_sum g ik l.
Proof. intros H. revert ik. induction l as [|x l IH]; intros ik; cbn [numbered_sum]; [reflexivity|]. rewrite H, IH. reflexivity. Qed.
Section Whole.
  Variables (N : nat) (D : list nat) (s diags : nat) (Mmin Nk : nat -> nat) (A : nat -> nat -> nat -> R).
  Hypothesis HD : Forall (fun d => (0 < d)%nat) D.
  Hypothesis HL : D <> [].
  Hypothesis Hs : (0 < s)%nat.
  Hypothesis Hok : sizes_ok D Mmin Nk.
  Lemma sweepT_low_rank odd cia j :
    sweepT D s diags Mmin Nk A (TT_at s odd) (Th_at D (fold_right Nat.max 0%nat (map Mmin (seq 0 (List.length D))))) cia j
    = product_T (fun ik h => low_rank odd h (Nk ik) (A ik)) (submatrices D s diags) cia j.
  Proof.
    exact (sweepT_product D s diags HD Hs Mmin Nk A (TT_at s odd) _ cia (fun h x k => peval (chebT k) (node odd h x)) (HL' D s Mmin Nk HD HL Hs Hok)
      (fun x k _ _ => eq_refl) (HTh' D s Mmin HD Hs odd) (proj1 Hok) (proj2 Hok) j).
  Qed.
  Lemma FMMcheb_val trans u r : (r < N)%nat -> FMMcheb N D s diags Mmin Nk A trans u r
    = (if trans then product_T else product) (fun ik h => low_rank (r mod 2) h (Nk ik) (A ik)) (submatrices D s diags) (fun j => if Nat.ltb (2 * j + r mod 2) N then u (2 * j + r mod 2)%nat else 0) (r / 2)%nat.
  Proof.
    intros Hr. unfold FMMcheb. cbv zeta. destruct (Nat.ltb_spec r N); [|lia]. set (odd := (r mod 2)%nat). assert (Ho : (odd < 2)%nat) by (apply Nat.mod_upper_bound; lia).
    assert (E : forall j, (if Nat.ltb j (N / 2 + (N mod 2) * (1 - odd)) then u (2 * j + odd)%nat else 0) = (if Nat.ltb (2 * j + odd) N then u (2 * j + odd)%nat else 0)) by (intros j; rewrite (cia_eq N D s diags u Hs) by exact Ho; reflexivity).
    destruct trans.
    - rewrite sweepT_low_rank. unfold product_T. apply ns_ext. intros n [[a b] h].
      destruct (_ && _)%bool; [|reflexivity]. apply rsum_ext. intros x Hx. rewrite E. reflexivity.
    - rewrite (sweep_low_rank D s diags Mmin Nk A HD HL Hs Hok odd). unfold product. apply ns_ext. intros n [[a b] h].
      destruct (_ && _)%bool; [|reflexivity]. apply rsum_ext. intros x Hx. rewrite E. reflexivity.
  Qed.
End Whole.
(** ** the error *)
Lemma ns_bound {X} (f : nat -> X -> R) (g e : X -> R) l ik : (forall n x, nth_error l n = Some x -> Rabs (f (ik + n)%nat x - g x) <= e x) ->
  Rabs (numbered_sum f ik l - fold_right Rplus 0 (map g l)) <= fold_right Rplus 0 (map e l).
Proof.
  revert ik. induction l as [|x l IH]; intros ik H; cbn [numbered_sum map fold_right]; [rewrite Rminus_0_r, Rabs_R0; lra|].
  pose proof (H 0%nat x eq_refl) as H0. rewrite Nat.add_0_r in H0. specialize (IH (S ik)). assert (H1 : Rabs (numbered_sum f (S ik) l - fold_right Rplus 0 (map g l)) <= fold_right Rplus 0 (map e l)).
  { apply IH. intros n y Hn. specialize (H (S n) y Hn). rewrite <- plus_n_Sm in H. exact H. }
  replace (f ik x + numbered_sum f (S ik) l - (g x + fold_right Rplus 0 (map g l))) with ((f ik x - g x) + (numbered_sum f (S ik) l - fold_right Rplus 0 (map g l))) by ring.
  eapply Rle_trans; [apply Rabs_triang|]. lra.
Qed.
Lemma rsum_bound n (f g e : nat -> R) : (forall i, (i < n)%nat -> Rabs (f i - g i) <= e i) -> Rabs (rsum n f - rsum n g) <= rsum n e.
Proof.
  induction n as [|n IH]; intros H; [cbn; rewrite Rminus_0_r, Rabs_R0; lra|]. rewrite !rsum_last. specialize (IH ltac:(intros; apply H; lia)). specialize (H n ltac:(lia)).
  replace (rsum n f + f n - (rsum n g + g n)) with ((rsum n f - rsum n g) + (f n - g n)) by ring. eapply Rle_trans; [apply Rabs_triang|]. lra.
Qed.
Lemma rsum_le' n (f g : nat -> R) : (forall i, (i < n)%nat -> f i <= g i) -> rsum n f <= rsum n g.
Proof. induction n as [|n IH]; intros H; [cbn; lra|]. rewrite !rsum_last. specialize (IH ltac:(intros; apply H; lia)). specialize (H n ltac:(lia)). lra. Qed.
Lemma rsum_nonneg n (f : nat -> R) : (forall i, 0 <= f i) -> 0 <= rsum n f.
Proof. intros H. induction n as [|n IH]; [cbn; lra|]. rewrite rsum_last. specialize (H n). lra. Qed.
Lemma parity_le N odd B (f : nat -> R) : (odd < 2)%nat -> (forall i, 0 <= f i) -> rsum B (fun j => guard (Nat.ltb (2 * j + odd) N) (f (2 * j + odd)%nat)) <= rsum N f.
Proof.
  intros Ho Hf. apply (Rle_trans _ (rsum (2 * B) (fun k => guard (Nat.ltb k N) (f k)))).
  - induction B as [|B IH]; [cbn; lra|]. replace (2 * S B)%nat with (S (S (2 * B))) by lia. rewrite !rsum_last.
    assert (P : forall k, 0 <= guard (Nat.ltb k N) (f k)) by (intros k; unfold guard; destruct (Nat.ltb k N); [apply Hf|lra]).
    pose proof (P (2 * B)%nat) as P0. pose proof (P (S (2 * B))) as P1.
    assert (E : odd = 0%nat \/ odd = 1%nat) by lia. destruct E as [-> | ->]; [rewrite Nat.add_0_r|rewrite Nat.add_1_r]; lra.
  - generalize (2 * B)%nat. intros M. induction M as [|M IH]; [cbn; apply rsum_nonneg; exact Hf|]. destruct (Nat.ltb_spec M N) as [H|H].
    + apply (Rle_trans _ (rsum (S M) f)); [apply rsum_le'; intros i Hi; unfold guard; destruct (Nat.ltb i N); [lra|apply Hf]|].
      assert (Q : forall d, rsum (S M) f <= rsum (S M + d) f).
      { induction d as [|d IHd]; [rewrite Nat.add_0_r; lra|]. rewrite <- plus_n_Sm, (rsum_last (S M + d)). specialize (Hf (S M + d)%nat). lra. }
      specialize (Q (N - S M)%nat). replace (S M + (N - S M))%nat with N in Q by lia. exact Q.
    + rewrite rsum_last. destruct (Nat.ltb_spec M N); [lia|]. cbn [guard]. lra.
Qed.
Section Bound.
  Variables (N : nat) (D : list nat) (s diags : nat) (Mmin Nk : nat -> nat) (A : nat -> nat -> nat -> R) (K : nat -> nat -> R) (eps : R).
  Hypothesis HD : Forall (fun d => (0 < d)%nat) D.
  Hypothesis HL : D <> [].
  Hypothesis Hs : (0 < s)%nat.
  Hypothesis Hok : sizes_ok D Mmin Nk.
  Hypothesis Heps : 0 <= eps.
  Hypothesis Hacc : accurate N (submatrices D s diags) Nk A K eps.
  Lemma cia_abs (u : nat -> R) odd j : cia N (fun k => Rabs (u k)) odd j = Rabs (if Nat.ltb (2 * j + odd) N then u (2 * j + odd)%nat else 0).
  Proof. unfold cia, guard. destruct (Nat.ltb _ N); [reflexivity|]. symmetry. apply Rabs_R0. Qed.
  Lemma FMMcheb_error u r : (r < N)%nat -> Rabs (FMMcheb N D s diags Mmin Nk A false u r - fmm_cheb N D s diags K u r) <= eps * rsum N (fun k => Rabs (u k)).
  Proof.
    intros Hr. rewrite (FMMcheb_val N D s diags Mmin Nk A HD HL Hs Hok) by exact Hr. unfold fmm_cheb. destruct (Nat.ltb_spec r N); [|lia]. set (odd := (r mod 2)%nat). set (i := (r / 2)%nat).
    assert (Ho : (odd < 2)%nat) by (apply Nat.mod_upper_bound; lia). assert (Er : r = (2 * i + odd)%nat) by (apply Nat.div_mod; lia).
    apply (Rle_trans _ (fmm_half N D s diags (fun _ _ => eps) (fun k => Rabs (u k)) odd i)).
    - unfold fmm_half, product. cbv zeta. apply ns_bound. intros n [[r0 c] h] Hn. cbn [Nat.add].
      destruct (Nat.leb_spec r0 i) as [H1|H1]; cbn [andb]; [|rewrite Rminus_0_r, Rabs_R0; lra]. destruct (Nat.ltb_spec i (r0 + h)) as [H2|H2]; [|rewrite Rminus_0_r, Rabs_R0; lra].
      apply rsum_bound. intros y Hy. rewrite (cia_eq N D s diags u Hs) by exact Ho. pose proof (cia_eq N D s diags (fun k => Rabs (u k)) Hs) as CE. cbv beta in CE. rewrite CE by exact Ho. clear CE. rewrite cia_abs. unfold cia, guard. destruct (Nat.ltb_spec (2 * (c + y) + odd) N) as [Hc|Hc]; [|rewrite !Rmult_0_r, Rminus_0_r, Rabs_R0; lra].
      rewrite <- Rmult_minus_distr_r, Rabs_mult. apply Rmult_le_compat_r; [apply Rabs_pos|]. pose proof (Hacc n r0 c h (i - r0)%nat y odd Hn ltac:(lia) Hy Ho) as X. replace (r0 + (i - r0))%nat with i in X by lia. apply X; lia.
    - rewrite (half_sum N D s diags _ _ HD Hs) by exact Ho. rewrite <- (rsum_scal N eps). set (B := (diags + _)%nat).
      apply (Rle_trans _ (rsum B (fun j => guard (Nat.ltb (2 * j + odd) N) (eps * Rabs (u (2 * j + odd)%nat))))).
      + apply rsum_le'. intros j Hj. unfold cia, guard. pose proof (Rabs_pos (u (2 * j + odd)%nat)). assert (0 <= eps * Rabs (u (2 * j + odd)%nat)) by (apply Rmult_le_pos; assumption). destruct (farb _ _ _ _ _); destruct (Nat.ltb _ N); lra.
      + apply (parity_le N odd B (fun k => eps * Rabs (u k)) Ho). intros k. apply Rmult_le_pos; [exact Heps|apply Rabs_pos].
  Qed.
  Lemma FMMcheb_T_error u r : (r < N)%nat -> Rabs (FMMcheb N D s diags Mmin Nk A true u r - fmm_cheb_T N D s diags K u r) <= eps * rsum N (fun k => Rabs (u k)).
  Proof.
    intros Hr. rewrite (FMMcheb_val N D s diags Mmin Nk A HD HL Hs Hok) by exact Hr. unfold fmm_cheb_T. destruct (Nat.ltb_spec r N); [|lia]. set (odd := (r mod 2)%nat). set (i := (r / 2)%nat).
    assert (Ho : (odd < 2)%nat) by (apply Nat.mod_upper_bound; lia). assert (Er : r = (2 * i + odd)%nat) by (apply Nat.div_mod; lia).
    apply (Rle_trans _ (fmm_half_T N D s diags (fun _ _ => eps) (fun k => Rabs (u k)) odd i)).
    - unfold fmm_half_T, product_T. cbv zeta. apply ns_bound. intros n [[r0 c] h] Hn. cbn [Nat.add].
      destruct (Nat.leb_spec c i) as [H1|H1]; cbn [andb]; [|rewrite Rminus_0_r, Rabs_R0; lra]. destruct (Nat.ltb_spec i (c + h)) as [H2|H2]; [|rewrite Rminus_0_r, Rabs_R0; lra].
      apply rsum_bound. intros x Hx. rewrite (cia_eq N D s diags u Hs) by exact Ho. pose proof (cia_eq N D s diags (fun k => Rabs (u k)) Hs) as CE. cbv beta in CE. rewrite CE by exact Ho. clear CE. rewrite cia_abs. unfold cia, guard. destruct (Nat.ltb_spec (2 * (r0 + x) + odd) N) as [Hc|Hc]; [|rewrite !Rmult_0_r, Rminus_0_r, Rabs_R0; lra].
      rewrite <- Rmult_minus_distr_r, Rabs_mult. apply Rmult_le_compat_r; [apply Rabs_pos|]. pose proof (Hacc n r0 c h x (i - c)%nat odd Hn Hx ltac:(lia) Ho) as X. replace (c + (i - c))%nat with i in X by lia. apply X; lia.
    - rewrite (half_sum_T N D s diags _ _ HD Hs) by exact Ho. rewrite <- (rsum_scal N eps). set (B := (diags + _)%nat).
      apply (Rle_trans _ (rsum B (fun j => guard (Nat.ltb (2 * j + odd) N) (eps * Rabs (u (2 * j + odd)%nat))))).
      + apply rsum_le'. intros j Hj. unfold cia, guard. pose proof (Rabs_pos (u (2 * j + odd)%nat)). assert (0 <= eps * Rabs (u (2 * j + odd)%nat)) by (apply Rmult_le_pos; assumption). destruct (farb _ _ _ _ _); destruct (Nat.ltb _ N); lra.
      + apply (parity_le N odd B (fun k => eps * Rabs (u k)) Ho). intros k. apply Rmult_le_pos; [exact Heps|apply Rabs_pos].
  Qed.
End Bound.
