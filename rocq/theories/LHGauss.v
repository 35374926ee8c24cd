(** LHGauss.v -- the Gauss-Laguerre and Gauss-Hermite rules exist for every number of points. *)
From Coq Require Import Reals List Arith Bool Lia Lra.
From Verif Require Import Base RPoly MatrixProofs BndModel BndProofs LHSpec LHProofs LHProofs2 GaussInt LHProofs3 LHProofs4 GaussRule.
Import ListNotations.
Local Open Scope R_scope.

Lemma m1_sq k : (-1) ^ k * (-1) ^ k = 1. Proof. rewrite <- Rpow_mult_distr. replace (-1 * -1) with 1 by ring. apply pow1. Qed.

(** ** Laguerre *)
Definition ga (n : nat) : R := - / (INR n + 1).
Definition gb (n : nat) : R := (2 * INR n + 1) / (INR n + 1).
Definition gc (n : nat) : R := INR n / (INR n + 1).
Lemma INR1 n : 0 < INR n + 1. Proof. pose proof (pos_INR n). lra. Qed.
Lemma lagg0 x : peval (lagL 0) x = 1. Proof. cbn. ring. Qed.
Lemma lagg1 x : peval (lagL 1) x = ga 0 * x + gb 0. Proof. unfold ga, gb. cbn. field. Qed.
Lemma laggS n x : peval (lagL (S (S n))) x = (ga (S n) * x + gb (S n)) * peval (lagL (S n)) x - gc (S n) * peval (lagL n) x.
Proof. pose proof (pos_INR n). pose proof (lag_rec n x) as E. apply (Rmult_eq_reg_l (INR n + 2)); [|lra]. rewrite E. unfold ga, gb, gc. rewrite !S_INR. field. lra. Qed.
Lemma ga_neq n : ga n <> 0. Proof. unfold ga. pose proof (Rinv_0_lt_compat _ (INR1 n)). lra. Qed.
Lemma one_pos (n : nat) : 0 < (fun _ : nat => 1) n. Proof. lra. Qed.
Lemma gac n : gc (S n) * (ga n * 1) = ga (S n) * 1.
Proof. unfold ga, gc. rewrite !S_INR. pose proof (INR1 n). field. lra. Qed.
(** the polynomial p(-x) *)
Fixpoint pflip (p : poly) : poly := match p with [] => [] | r :: q => r :: pscale (-1) (pflip q) end.
Lemma peval_pflip p x : peval (pflip p) x = peval p (- x).
Proof. induction p as [|r p IH]; [reflexivity|]. cbn [pflip peval]. rewrite peval_pscale, IH. ring. Qed.
Definition lagF (n : nat) : poly := pflip (lagL n).
Definition fa (n : nat) : R := / (INR n + 1).
Lemma lagF0 x : peval (lagF 0) x = 1. Proof. unfold lagF. rewrite peval_pflip. apply lagg0. Qed.
Lemma lagF1 x : peval (lagF 1) x = fa 0 * x + gb 0. Proof. unfold lagF. rewrite peval_pflip, lagg1. unfold ga, fa. ring. Qed.
Lemma lagFS n x : peval (lagF (S (S n))) x = (fa (S n) * x + gb (S n)) * peval (lagF (S n)) x - gc (S n) * peval (lagF n) x.
Proof. unfold lagF. rewrite !peval_pflip, laggS. unfold ga, fa. ring. Qed.
Lemma fa_pos n : 0 < fa n. Proof. apply Rinv_0_lt_compat, INR1. Qed.
Lemma gfac n : gc (S n) * (fa n * 1) = fa (S n) * 1.
Proof. unfold fa, gc. rewrite !S_INR. pose proof (INR1 n). field. lra. Qed.
Lemma gc_nonneg n : 0 <= gc (S n). Proof. unfold gc. apply Rmult_le_pos; [apply pos_INR|]. apply Rlt_le, Rinv_0_lt_compat, INR1. Qed.
Lemma lag_zeros N : exists x, distinct_pts (S N) x /\ forall i, (i < S N)%nat -> 0 < x i /\ peval (lagL (S N)) (x i) = 0.
Proof.
  destruct (grow (fun k x => (-1) ^ k * peval (lagF k) (- x)) fa (fun n => - gb n) gc) with (n := S N) as [B HB].
  - intros x. cbv beta. rewrite lagF0. cbn. ring.
  - intros x. cbv beta. rewrite lagF1. cbn [pow]. ring.
  - intros n x. cbv beta. rewrite lagFS. cbn [pow]. ring.
  - apply fa_pos.
  - apply gc_nonneg.
  - set (lo := - (Rmax B 1)). pose proof (Rmax_l B 1). pose proof (Rmax_r B 1).
    destruct (zeros lagF fa gb gc (fun _ => 1) lagF0 lagF1 lagFS one_pos gfac fa_pos lo 0 N ltac:(unfold lo; lra)) with (n := N) as (z & I & H1).
    + intros k _. unfold lagF. rewrite peval_pflip, Ropp_0, lag_at_0. lra.
    + intros k Hk. destruct (HB (Rmax B 1) ltac:(lra) k Hk) as [P _]. exact P.
    + lia.
    + exists (fun i => - z i). split.
      * intros i j Hi Hj N'. pose proof (increasing_distinct _ _ I i j Hi Hj N'). lra.
      * intros i Hi. destruct (H1 i Hi) as (L & Z & _). split; [lra|]. unfold lagF in Z. rewrite peval_pflip in Z. exact Z.
Qed.
Definition lag_gauss_w (N : nat) (x : nat -> R) : nat -> R := gauss_weight lagL ga (fun _ => 1) N x.
Lemma lag_gauss_of_zeros N x : distinct_pts (S N) x -> (forall i, (i < S N)%nat -> peval (lagL (S N)) (x i) = 0) ->
  laguerre_gauss (S N) x (lag_gauss_w N x) /\ forall i, (i < S N)%nat -> 0 < lag_gauss_w N x i.
Proof.
  intros D Z. split.
  - intros p v L I. refine (half_unique _ _ _ _ I).
    refine (rule_exact lagL ga gb gc (fun _ => 1) lagg0 lagg1 laggS ga_neq (fun p v => integral_half (fun t => peval p t * exp (- t)) v) _ _ _ _ (S N) (S N) x (lag_gauss_w N x) _ p L).
    + intros p0 q u E H. apply (half_ext (fun t => peval p0 t * exp (- t))); [intros t; rewrite E; reflexivity|exact H].
    + intros p0 q u u' A B. apply (half_ext (fun t => peval p0 t * exp (- t) + peval q t * exp (- t))); [intros t; rewrite peval_padd; ring|apply half_add; assumption].
    + intros r p0 u A. apply (half_ext (fun t => r * (peval p0 t * exp (- t)))); [intros t; rewrite peval_pscale; ring|apply half_scal; assumption].
    + intros k l. apply (half_ext (fun t => peval (lagL k) t * peval (lagL l) t * exp (- t))); [intros t; rewrite peval_pmul; reflexivity|]. exact (lag_int k l).
    + intros k l Hk Hl. apply (gauss_orth' lagL ga gb gc (fun _ => 1) lagg0 lagg1 laggS ga_neq one_pos gac N x D Z); assumption.
  - intros i Hi. apply (gauss_weight_pos lagL ga gb gc (fun _ => 1) lagg0 lagg1 laggS ga_neq one_pos gac N x Z i Hi).
Qed.

(** ** Hermite *)
Definition ha (n : nat) : R := 2.
Definition hc (n : nat) : R := 2 * INR n.
Lemma hg0 x : peval (hermP 0) x = 1. Proof. cbn. ring. Qed.
Lemma hg1 x : peval (hermP 1) x = ha 0 * x + 0. Proof. unfold ha. cbn. ring. Qed.
Lemma hgS n x : peval (hermP (S (S n))) x = (ha (S n) * x + 0) * peval (hermP (S n)) x - hc (S n) * peval (hermP n) x.
Proof. rewrite herm_rec. unfold ha, hc. rewrite S_INR. ring. Qed.
Lemma ha_pos n : 0 < ha n. Proof. unfold ha. lra. Qed.
Lemma ha_neq n : ha n <> 0. Proof. unfold ha. lra. Qed.
Lemma hn_pos n : 0 < hnorm n.
Proof. unfold hnorm. apply Rmult_lt_0_compat; [apply sPI_pos|]. apply Rmult_lt_0_compat; [apply pow_lt; lra|apply fact_INR_pos]. Qed.
Lemma hac n : hc (S n) * (ha n * hnorm n) = ha (S n) * hnorm (S n).
Proof. unfold ha, hc, hnorm. rewrite fact_simpl, mult_INR. cbn [pow]. ring. Qed.
Lemma herm_zeros N : exists x, increasing_pts (S N) x /\ forall i, (i < S N)%nat -> peval (hermP (S N)) (x i) = 0.
Proof.
  destruct (grow (fun k x => peval (hermP k) x) ha (fun _ => 0) hc) with (n := S N) as [B HB]; [apply hg0|apply hg1|intros n x; apply hgS|apply ha_pos|intros n; unfold hc; pose proof (pos_INR (S n)); lra|].
  destruct (grow (fun k x => (-1) ^ k * peval (hermP k) (- x)) ha (fun _ => 0) hc) with (n := S N) as [B' HB'].
  - intros x. cbv beta. rewrite hg0. cbn. ring.
  - intros x. cbv beta. rewrite hg1. cbn [pow]. ring.
  - intros n x. cbv beta. rewrite hgS. cbn [pow]. ring.
  - apply ha_pos.
  - intros n; unfold hc; pose proof (pos_INR (S n)); lra.
  - pose proof (Rmax_l B 1). pose proof (Rmax_r B 1). pose proof (Rmax_l B' 1). pose proof (Rmax_r B' 1).
    destruct (zeros hermP ha (fun _ => 0) hc hnorm hg0 hg1 hgS hn_pos hac ha_pos (- Rmax B' 1) (Rmax B 1) N ltac:(lra)) with (n := N) as (z & I & H3).
    + intros k Hk. apply HB; [lra|exact Hk].
    + intros k Hk. destruct (HB' (Rmax B' 1) ltac:(lra) k Hk) as [P _]. exact P.
    + lia.
    + exists z. split; [exact I|]. intros i Hi. apply H3, Hi.
Qed.
Definition herm_gauss_w (N : nat) (x : nat -> R) : nat -> R := gauss_weight hermP ha hnorm N x.
Lemma herm_gauss_of_zeros N x : distinct_pts (S N) x -> (forall i, (i < S N)%nat -> peval (hermP (S N)) (x i) = 0) ->
  hermite_gauss (S N) x (herm_gauss_w N x) /\ forall i, (i < S N)%nat -> 0 < herm_gauss_w N x i.
Proof.
  intros D Z. split.
  - intros p v L I. refine (line_unique _ _ _ _ I).
    refine (rule_exact hermP ha (fun _ => 0) hc hnorm hg0 hg1 hgS ha_neq (fun p v => integral_line (fun t => peval p t * exp (- t ^ 2)) v) _ _ _ _ (S N) (S N) x (herm_gauss_w N x) _ p L).
    + intros p0 q u E H. apply (line_ext (fun t => peval p0 t * exp (- t ^ 2))); [intros t; rewrite E; reflexivity|exact H].
    + intros p0 q u u' A B. apply (line_ext (fun t => peval p0 t * exp (- t ^ 2) + peval q t * exp (- t ^ 2))); [intros t; rewrite peval_padd; ring|apply line_add; assumption].
    + intros r p0 u A. apply (line_ext (fun t => r * (peval p0 t * exp (- t ^ 2)))); [intros t; rewrite peval_pscale; ring|apply line_scal; assumption].
    + intros k l. apply (line_ext (fun t => peval (hermP k) t * peval (hermP l) t * exp (- t ^ 2))); [intros t; rewrite peval_pmul; reflexivity|].
      pose proof (herm_int k l) as Q. unfold kron in Q. destruct (Nat.eqb k l); [rewrite Rmult_1_l in Q|rewrite Rmult_0_l in Q]; exact Q.
    + intros k l Hk Hl. apply (gauss_orth' hermP ha (fun _ => 0) hc hnorm hg0 hg1 hgS ha_neq hn_pos hac N x D Z); assumption.
  - intros i Hi. apply (gauss_weight_pos hermP ha (fun _ => 0) hc hnorm hg0 hg1 hgS ha_neq hn_pos hac N x Z i Hi).
Qed.
