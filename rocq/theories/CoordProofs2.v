(** CoordProofs2.v -- the values of what Coordinates computes. *)
From Coq Require Import Reals ZArith List Bool Arith Lia Lra.
From Verif Require Import FormsModel FormsSpec FormsProofs FormsProofs2 FormsProofs3 CoordModel CoordSpec CoordProofs.
Import ListNotations.
Local Open Scope R_scope.

Section P.
Context {S : SymS} (L : SymSLaws S) (n m : nat) (rv : nat -> S).
Notation ev := (ev L). Notation good := (good L).
Notation B := (tangent L rv). Notation gram := (gram L m rv). Notation regular := (regular L n m rv).
Implicit Types (x y z : pt).
Hypothesis Hn : (1 <= n <= 3)%nat.

Lemma ssum_ok k (f : nat -> S) y : dom L y -> (forall i, (i < k)%nat -> good (f i) y) ->
  good (ssum k f) y /\ ev (ssum k f) y = rsum k (fun i => ev (f i) y).
Proof.
  intros HD. induction k as [|k IH]; intros H; cbn [ssum rsum].
  - split; [apply (good_int _ L), HD|apply (ev_int _ L)].
  - destruct IH as [A E]; [intros; apply H; lia|]. split; [apply (good_add _ L); [exact A|apply H; lia]|].
    rewrite (ev_add _ L), E. reflexivity.
Qed.
Lemma sign_ok k y : dom L y -> good (sign k) y /\ ev (sign k) y = rsign k.
Proof.
  intros HD. unfold sign, rsign. split; [apply (good_int _ L), HD|]. rewrite (ev_int _ L). destruct (Nat.even k); reflexivity.
Qed.
Lemma det_ok y : dom L y -> forall k M, (forall i j, (i < k)%nat -> (j < k)%nat -> good (M i j) y) ->
  good (det k M) y /\ ev (det k M) y = rdet k (fun i j => ev (M i j) y).
Proof.
  intros HD. induction k as [|k IH]; intros M H.
  - cbn. split; [apply (good_int _ L), HD|apply (ev_int _ L)].
  - cbn [det rdet].
    assert (T : forall j, (j < k + 1)%nat ->
      good (s_mul (s_mul (sign j) (M 0%nat j)) (det k (fun p q => M (p + 1)%nat (skipi j q)))) y /\
      ev (s_mul (s_mul (sign j) (M 0%nat j)) (det k (fun p q => M (p + 1)%nat (skipi j q)))) y =
      rsign j * ev (M 0%nat j) y * rdet k (fun p q => ev (M (p + 1)%nat (skipi j q)) y)).
    { intros j Hj. destruct (IH (fun p q => M (p + 1)%nat (skipi j q))) as [A E].
      { intros p q Hp Hq. apply H; [lia|]. unfold skipi. destruct (_ <? _)%nat; lia. }
      destruct (sign_ok j y HD) as [A1 E1]. split.
      - apply (good_mul _ L); [|exact A]. apply (good_mul _ L); [exact A1|apply H; lia].
      - rewrite !(ev_mul _ L), E, E1. reflexivity. }
    destruct (ssum_ok (k + 1) _ y HD (fun j Hj => proj1 (T j Hj))) as [A E]. split; [exact A|].
    etransitivity; [exact E|]. apply rsum_ext. intros j Hj. apply (T j Hj).
Qed.
Lemma inv_ok y k M i j : dom L y -> (1 <= k)%nat -> (i < k)%nat -> (j < k)%nat -> (forall i j, (i < k)%nat -> (j < k)%nat -> good (M i j) y) ->
  rdet k (fun i j => ev (M i j) y) <> 0 ->
  good (inv k M i j) y /\ ev (inv k M i j) y = radj k (fun i j => ev (M i j) y) i j / rdet k (fun i j => ev (M i j) y).
Proof.
  intros HD Hk Hi Hj H Hd. unfold inv.
  destruct (det_ok y HD k M H) as [A E].
  destruct (det_ok y HD (k - 1) (fun p q => M (skipi j p) (skipi i q))) as [A1 E1].
  { intros p q Hp Hq. apply H; unfold skipi; destruct (_ <? _)%nat; lia. }
  destruct (sign_ok (i + j) y HD) as [A2 E2]. split.
  - apply (good_mul _ L); [apply (good_mul _ L); assumption|]. apply (good_inv _ L); [exact A|]. rewrite E. exact Hd.
  - rewrite !(ev_mul _ L), (ev_inv _ L), E, E1, E2. reflexivity.
Qed.

Lemma rs_ok a y : good a y -> good (s_refine (s_simplify a)) y /\ ev (s_refine (s_simplify a)) y = ev a y.
Proof. apply good_rs. Qed.
Lemma sr_ok a y : good a y -> good (s_simplify (s_refine a)) y /\ ev (s_simplify (s_refine a)) y = ev a y.
Proof.
  intros H. pose proof (good_refine _ L _ y H) as G. split; [apply (good_simplify _ L), G|].
  rewrite (ev_simplify _ L) by exact G. apply (ev_refine _ L), H.
Qed.
Lemma s_ok a y : good a y -> good (s_simplify a) y /\ ev (s_simplify a) y = ev a y.
Proof. intros H. split; [apply (good_simplify _ L), H|apply (ev_simplify _ L), H]. Qed.
Lemma r_ok a y : good a y -> good (s_refine a) y /\ ev (s_refine a) y = ev a y.
Proof. intros H. split; [apply (good_refine _ L), H|apply (ev_refine _ L), H]. Qed.
Lemma sqrt_ok a y : good a y -> 0 < ev a y -> good (s_sqrt a) y /\ ev (s_sqrt a) y = sqrt (ev a y).
Proof. intros H P. split; [apply good_sqrt; assumption|apply ev_sqrt]. Qed.

(** *** the covariant basis and metric, where the position is smooth *)
Definition rv_good y := dom L y /\ forall a, (a < m)%nat -> good (rv a) y.
Lemma regular_rv y : regular y -> rv_good y. Proof. intros (A & B & _). split; assumption. Qed.
Lemma basis_ok y i a : rv_good y -> (a < m)%nat -> good (cov_basis rv i a) y /\ ev (cov_basis rv i a) y = B y i a.
Proof. intros [_ H] Ha. unfold cov_basis. apply rs_ok, (good_diff _ L), H, Ha. Qed.
Lemma basis_dot_ok y i j : rv_good y ->
  good (ssum m (fun a => s_mul (cov_basis rv i a) (cov_basis rv j a))) y /\
  ev (ssum m (fun a => s_mul (cov_basis rv i a) (cov_basis rv j a))) y = gram y i j.
Proof.
  intros H.
  destruct (ssum_ok m (fun a => s_mul (cov_basis rv i a) (cov_basis rv j a)) y (proj1 H)) as [A E].
  { intros a Ha. apply (good_mul _ L); apply basis_ok; assumption. }
  split; [exact A|]. rewrite E. apply rsum_ext. intros a Ha. rewrite (ev_mul _ L).
  rewrite !(fun i => proj2 (basis_ok y i a H Ha)). reflexivity.
Qed.
Lemma metric_ok y i j : rv_good y -> good (cov_metric m rv i j) y /\ ev (cov_metric m rv i j) y = gram y i j.
Proof.
  intros H. destruct (basis_dot_ok y i j H) as [A E]. destruct (rs_ok _ y A) as [A1 E1]. split; [exact A1|].
  unfold cov_metric. rewrite E1. exact E.
Qed.
Lemma gram_sym y i j : gram y i j = gram y j i. Proof. apply dot_sym. Qed.
Lemma gdet_ok y : rv_good y -> good (det n (cov_metric m rv)) y /\ ev (det n (cov_metric m rv)) y = rdet n (gram y).
Proof.
  intros H. destruct (det_ok y (proj1 H) n (cov_metric m rv)) as [A E]; [intros; apply metric_ok, H|].
  split; [exact A|]. rewrite E. apply rdet_ext. intros. apply metric_ok, H.
Qed.

(** *** regular points form an open set *)
Lemma pos_near a y i : good a y -> 0 < ev a y -> near i y (fun z => 0 < ev a z).
Proof.
  intros G P. assert (C : continuity_pt (fun h => ev a (shift y i h)) 0).
  { apply derivable_continuous_pt. exists (ev (s_diff i a) y). apply (ev_diff _ L), G. }
  destruct (C (ev a y) P) as (d & Hd & K). exists d. split; [exact Hd|]. intros h Hh.
  destruct (Req_dec h 0) as [->|Hz]; [rewrite shift_0; exact P|].
  specialize (K h). unfold dist in K. cbn in K. unfold R_dist in K. rewrite shift_0 in K.
  assert (Q : Rabs (ev a (shift y i h) - ev a y) < ev a y).
  { apply K. split; [split; [exact I|auto]|]. rewrite Rminus_0_r. exact Hh. }
  apply Rabs_def2 in Q. lra.
Qed.
Lemma near_forall k y i (P : nat -> pt -> Prop) : (forall a, (a < k)%nat -> near i y (P a)) -> near i y (fun z => forall a, (a < k)%nat -> P a z).
Proof.
  induction k as [|k IH]; intros H; [apply near_all; intros; lia|].
  eapply near_imp; [|apply near_and; [apply IH; intros a Ha; apply H; lia|apply (H k); lia]].
  intros z [A C] a Ha. destruct (Nat.eq_dec a k) as [->|]; [exact C|apply A; lia].
Qed.
Lemma rv_near y i : rv_good y -> near i y rv_good.
Proof.
  intros [D H]. apply near_and.
  - eapply near_imp; [apply (good_dom _ L)|exact (good_near L (s_int 0) y i (good_int _ L _ y D))].
  - apply near_forall. intros a Ha. apply good_near, H, Ha.
Qed.
Lemma regular_near y i : regular y -> near i y regular.
Proof.
  intros H. pose proof (regular_rv y H) as HR. destruct (gdet_ok y HR) as [A E].
  assert (P : near i y (fun z => 0 < ev (det n (cov_metric m rv)) z)) by (apply pos_near; [exact A|rewrite E; apply H]).
  eapply near_imp; [|exact (near_and _ _ _ _ (rv_near y i HR) P)]. intros z [[D R] Q].
  split; [exact R|]. split; [exact D|]. rewrite <- (proj2 (gdet_ok z (conj D R))). exact Q.
Qed.

(** *** what needs a regular point *)
Definition rgt y i j := radj n (gram y) i j / rdet n (gram y).
Definition rsg y := sqrt (rdet n (gram y)).
Definition rhi y i := sqrt (dot m (B y i) (B y i)).
Definition rbt y i a := rsum n (fun j => rgt y i j * B y j a).
Definition B2 y j i a := ev (s_diff j (s_diff i (rv a))) y.
Definition rct y k i j := rsum m (fun a => B2 y j i a * rbt y k a).

Lemma gt_ok y i j : regular y -> (i < n)%nat -> (j < n)%nat ->
  good (contra_metric n m rv i j) y /\ ev (contra_metric n m rv i j) y = rgt y i j.
Proof.
  intros H Hi Hj. pose proof (regular_rv y H) as HR.
  assert (E0 : forall p q, ev (cov_metric m rv p q) y = gram y p q) by (intros; apply metric_ok, HR).
  destruct (inv_ok y n (cov_metric m rv) i j (proj1 HR)) as [A E]; try lia; [intros; apply metric_ok, HR| |].
  { rewrite (rdet_ext n _ (gram y)) by (intros; apply E0). pose proof (proj2 (proj2 H)). lra. }
  destruct (s_ok _ y A) as [A1 E1]. split; [exact A1|]. unfold contra_metric. rewrite E1, E. unfold rgt.
  rewrite (rdet_ext n _ (gram y)) by (intros; apply E0). f_equal. unfold radj. f_equal.
  apply rdet_ext. intros. apply E0.
Qed.
Lemma sg_ok y : regular y -> good (sqrt_det_g n m rv) y /\ ev (sqrt_det_g n m rv) y = rsg y /\ 0 < rsg y.
Proof.
  intros H. pose proof (regular_rv y H) as HR. destruct (gdet_ok y HR) as [A E]. pose proof (proj2 (proj2 H)) as P.
  destruct (sr_ok _ y A) as [A1 E1]. fold (det_g n m rv) in A1, E1.
  destruct (sqrt_ok _ y A1) as [A2 E2]; [rewrite E1, E; exact P|].
  destruct (rs_ok _ y A2) as [A3 E3]. split; [exact A3|]. split; [|apply sqrt_lt_R0, P].
  unfold sqrt_det_g. rewrite E3, E2, E1, E. reflexivity.
Qed.
Lemma dot_self_nonneg k u : 0 <= dot k u u.
Proof. apply rsum_nonneg. intros a _. nra. Qed.
Lemma dot_self_zero k u : dot k u u = 0 -> forall a, (a < k)%nat -> u a = 0.
Proof.
  intros H a Ha. assert (u a * u a <= 0).
  { rewrite <- H. apply (rsum_term k (fun a => u a * u a) a); [intros; nra|exact Ha]. }
  nra.
Qed.
Lemma tangent_pos y i : regular y -> (i < n)%nat -> 0 < dot m (B y i) (B y i).
Proof.
  intros H Hi. destruct (Req_dec (dot m (B y i) (B y i)) 0) as [E|E].
  - exfalso. pose proof (dot_self_zero _ _ E) as Z. pose proof (proj2 (proj2 H)) as P.
    rewrite (det_zero_row n (gram y) i Hn Hi) in P; [lra|]. intros k _. unfold CoordSpec.gram, dot.
    rewrite (rsum_ext m _ (fun _ => 0)); [apply rsum_0|]. intros a Ha. rewrite Z by exact Ha. ring.
  - pose proof (dot_self_nonneg m (B y i)). lra.
Qed.
Lemma hi_ok y i : regular y -> (i < n)%nat -> good (scaling m rv i) y /\ ev (scaling m rv i) y = rhi y i /\ 0 < rhi y i.
Proof.
  intros H Hi. pose proof (regular_rv y H) as HR. destruct (basis_dot_ok y i i HR) as [A E]. pose proof (tangent_pos y i H Hi) as P.
  destruct (rs_ok _ y A) as [A1 E1]. destruct (sqrt_ok _ y A1) as [A2 E2]; [rewrite E1, E; exact P|].
  destruct (r_ok _ y A2) as [A3 E3]. split; [exact A3|]. split; [|apply sqrt_lt_R0, P].
  unfold scaling. rewrite E3, E2, E1, E. reflexivity.
Qed.
Lemma normal_ok y i a : regular y -> (i < n)%nat -> (a < m)%nat ->
  good (normal_basis m rv i a) y /\ ev (normal_basis m rv i a) y = B y i a / rhi y i.
Proof.
  intros H Hi Ha. pose proof (regular_rv y H) as HR. destruct (basis_dot_ok y i i HR) as [A E]. pose proof (tangent_pos y i H Hi) as P.
  destruct (s_ok _ y A) as [A1 E1]. destruct (sqrt_ok _ y A1) as [A2 E2]; [rewrite E1, E; exact P|].
  destruct (r_ok _ y A2) as [A3 E3]. destruct (basis_ok y i a HR Ha) as [A0 E0].
  assert (Q : 0 < sqrt (gram y i i)) by (apply sqrt_lt_R0, P).
  split.
  - apply (good_mul _ L); [exact A0|]. apply (good_inv _ L); [exact A3|]. rewrite E3, E2, E1, E. lra.
  - unfold normal_basis. rewrite (ev_mul _ L), (ev_inv _ L), E3, E2, E1, E, E0. reflexivity.
Qed.
Lemma bt_ok y i a : regular y -> (i < n)%nat -> (a < m)%nat -> good (contra_basis n m rv i a) y /\ ev (contra_basis n m rv i a) y = rbt y i a.
Proof.
  intros H Hi Ha. pose proof (regular_rv y H) as HR.
  destruct (ssum_ok n (fun j => s_mul (contra_metric n m rv i j) (cov_basis rv j a)) y (proj1 HR)) as [A E].
  { intros j Hj. apply (good_mul _ L); [apply gt_ok; assumption|apply basis_ok; assumption]. }
  assert (E' : ev (ssum n (fun j => s_mul (contra_metric n m rv i j) (cov_basis rv j a))) y = rbt y i a).
  { rewrite E. apply rsum_ext. intros j Hj. rewrite (ev_mul _ L), (proj2 (gt_ok y i j H Hi Hj)), (proj2 (basis_ok y j a HR Ha)). reflexivity. }
  unfold contra_basis. cbv zeta. destruct (a <? n)%nat; [|split; [exact A|exact E']].
  destruct (s_ok _ y A) as [A1 E1]. split; [exact A1|]. rewrite E1. exact E'.
Qed.

(** second derivatives of the position *)
Lemma diff_basis_ok y j i a : rv_good y -> (a < m)%nat -> good (s_diff j (cov_basis rv i a)) y /\ ev (s_diff j (cov_basis rv i a)) y = B2 y j i a.
Proof.
  intros H Ha. split; [apply (good_diff _ L), basis_ok; assumption|].
  apply (diff_local L); [apply basis_ok; assumption|apply (good_diff _ L), H, Ha|].
  eapply near_imp; [|exact (rv_near y j H)]. intros z Hz. apply (basis_ok z i a Hz Ha).
Qed.
Lemma B2_sym y i j a : rv_good y -> (a < m)%nat -> B2 y i j a = B2 y j i a.
Proof. intros H Ha. apply (ev_diff_swap _ L), H, Ha. Qed.
Lemma pos_partial y i a : rv_good y -> (a < m)%nat -> partial i (fun z => pos L rv z a) y (B y i a).
Proof. intros H Ha. apply (ev_diff _ L), H, Ha. Qed.
Lemma B_partial y j i a : rv_good y -> (a < m)%nat -> partial j (fun z => B z i a) y (B2 y j i a).
Proof. intros H Ha. apply (ev_diff _ L), (good_diff _ L), H, Ha. Qed.
Lemma ct_ok y k i j : regular y -> (k < n)%nat -> good (christoffel n m rv k i j) y /\ ev (christoffel n m rv k i j) y = rct y k i j.
Proof.
  intros H Hk. pose proof (regular_rv y H) as HR.
  destruct (ssum_ok m (fun a => s_mul (s_diff j (cov_basis rv i a)) (contra_basis n m rv k a)) y (proj1 HR)) as [A E].
  { intros a Ha. apply (good_mul _ L); [apply diff_basis_ok; assumption|apply bt_ok; assumption]. }
  destruct (s_ok _ y A) as [A1 E1]. split; [exact A1|]. unfold christoffel. rewrite E1, E. apply rsum_ext. intros a Ha.
  rewrite (ev_mul _ L), (proj2 (bt_ok y k a H Hk Ha)), (proj2 (diff_basis_ok y j i a HR Ha)). reflexivity.
Qed.

(** *** the inverse metric and the reciprocal basis *)
Section At.
Variable y : pt.
Hypothesis Hy : regular y.
Lemma gdet_pos : 0 < rdet n (gram y). Proof. apply Hy. Qed.
Lemma gt_g i k : (i < n)%nat -> (k < n)%nat -> rsum n (fun j => rgt y i j * gram y j k) = delta i k.
Proof.
  intros Hi Hk. pose proof gdet_pos. unfold rgt.
  rewrite (rsum_ext n _ (fun j => radj n (gram y) i j * gram y j k * / rdet n (gram y))) by (intros; unfold Rdiv; ring).
  rewrite rsum_scal_r, (adj_left n (gram y) i k Hn Hi Hk). field. lra.
Qed.
Lemma gt_sym i k : (i < n)%nat -> (k < n)%nat -> rgt y i k = rgt y k i.
Proof. intros Hi Hk. unfold rgt. rewrite (adj_sym n (gram y) i k Hn Hi Hk) by (intros; apply gram_sym). reflexivity. Qed.
Lemma gt_g' i k : (i < n)%nat -> (k < n)%nat -> rsum n (fun j => rgt y j i * gram y j k) = delta i k.
Proof. intros Hi Hk. rewrite <- (gt_g i k Hi Hk). apply rsum_ext. intros j Hj. rewrite (gt_sym j i) by assumption. reflexivity. Qed.
Lemma bt_B i k : (i < n)%nat -> (k < n)%nat -> dot m (rbt y i) (B y k) = delta i k.
Proof.
  intros Hi Hk. unfold rbt. rewrite (dot_sum_l m n (fun j a => rgt y i j * B y j a)). rewrite <- (gt_g i k Hi Hk).
  apply rsum_ext. intros j _. apply dot_scal_l.
Qed.
(** sum_i b^i (b_i . b_k) = b_k *)
Lemma bt_g a k : (k < n)%nat -> rsum n (fun i => rbt y i a * gram y i k) = B y k a.
Proof.
  intros Hk. unfold rbt.
  rewrite (rsum_ext n _ (fun i => rsum n (fun j => rgt y i j * gram y i k * B y j a))).
  2: { intros i _. rewrite <- rsum_scal_r. apply rsum_ext. intros. ring. }
  rewrite rsum_swap. rewrite (rsum_ext n _ (fun j => delta k j * B y j a)).
  2: { intros j Hj. rewrite rsum_scal_r, gt_g' by assumption. rewrite delta_sym. reflexivity. }
  apply (rsum_delta n k (fun j => B y j a) Hk).
Qed.
(** two vectors with the same products with b_0, ..., b_(n-1) are equal when n = m *)
Lemma tests_eq u v : n = m -> (forall k, (k < n)%nat -> dot m u (B y k) = dot m v (B y k)) -> forall a, (a < m)%nat -> u a = v a.
Proof.
  intros E H a Ha. assert (D : rdet n (B y) <> 0).
  { intros Z. pose proof gdet_pos as P. rewrite (rdet_ext n _ (fun i j => dot n (B y i) (B y j))) in P.
    - rewrite det_gram, Z in P by exact Hn. lra.
    - intros. unfold CoordSpec.gram. rewrite E. reflexivity. }
  assert (Z : rdet n (B y) * (u a - v a) = 0).
  { transitivity (rsum n (fun k => radj n (B y) a k * (dot m u (B y k) - dot m v (B y k)))).
    - rewrite (rsum_ext n _ (fun k => rsum n (fun c => radj n (B y) a k * B y k c * (u c - v c)))).
      + rewrite rsum_swap. rewrite (rsum_ext n _ (fun c => rdet n (B y) * (delta a c * (u c - v c)))).
        * rewrite rsum_scal, (rsum_delta n a (fun c => u c - v c)) by lia. reflexivity.
        * intros c Hc. rewrite rsum_scal_r, (adj_left n (B y) a c Hn) by lia. ring.
      + intros k _. rewrite <- E. unfold dot. rewrite <- rsum_minus, <- rsum_scal. apply rsum_ext. intros. ring.
    - rewrite (rsum_ext n _ (fun _ => 0)); [apply rsum_0|]. intros k Hk. rewrite H by exact Hk. ring. }
  apply Rmult_integral in Z. destruct Z as [Z|Z]; [contradiction|]. lra.
Qed.
Lemma bt_complete a c : n = m -> (a < m)%nat -> (c < m)%nat -> rsum n (fun i => rbt y i a * B y i c) = delta a c.
Proof.
  intros E Ha Hc. apply (tests_eq (fun c => rsum n (fun i => rbt y i a * B y i c)) (fun c => delta a c) E); [|exact Hc].
  intros k Hk. rewrite (dot_sum_l m n (fun i c => rbt y i a * B y i c)).
  rewrite (rsum_ext n _ (fun i => rbt y i a * gram y i k)) by (intros; apply dot_scal_l).
  rewrite bt_g by exact Hk. symmetry. apply (rsum_delta m a (B y k) Ha).
Qed.
(** the derivative of the volume element *)
Lemma sg_partial k : (k < n)%nat -> partial k rsg y (rsg y * rsum n (fun i => rct y i i k)).
Proof.
  intros Hk. pose proof gdet_pos as P. pose proof (regular_rv y Hy) as HR.
  assert (HG : forall p q, (p < n)%nat -> (q < n)%nat -> partial k (fun z => gram z p q) y (dot m (B2 y k p) (B y q) + dot m (B y p) (B2 y k q))).
  { intros p q _ _. unfold CoordSpec.gram, dot. rewrite <- rsum_plus. apply (rsum_partial k m (fun a z => B z p a * B z q a)).
    intros a Ha. apply (partial_mult k (fun z => B z p a) (fun z => B z q a)); apply B_partial; assumption. }
  pose proof (det_deriv n k (fun p q z => gram z p q) y _ Hn HG) as D.
  set (dd := rsum n _) in D.
  assert (Ed : dd = 2 * rdet n (gram y) * rsum n (fun i => rct y i i k)).
  { assert (Eadj : forall p q, radj n (gram y) q p = rdet n (gram y) * rgt y q p) by (intros; unfold rgt; field; lra).
    unfold dd. cbv beta.
    rewrite (rsum_ext n _ (fun p => rdet n (gram y) * rct y p p k + rdet n (gram y) * rsum n (fun q => rgt y q p * dot m (B y p) (B2 y k q)))).
    2: { intros p Hp. rewrite <- rsum_scal. unfold rct.
      replace (rsum m (fun a => B2 y k p a * rbt y p a)) with (rsum n (fun q => rgt y q p * dot m (B2 y k p) (B y q))).
      - rewrite <- rsum_scal, <- rsum_plus. apply rsum_ext. intros q _. change (fun p0 q0 => gram y p0 q0) with (gram y). rewrite Eadj. ring.
      - unfold rbt. rewrite (rsum_ext m _ (fun a => rsum n (fun q => rgt y q p * (B2 y k p a * B y q a)))).
        + rewrite rsum_swap. apply rsum_ext. intros q _. unfold dot. rewrite rsum_scal. reflexivity.
        + intros a _. rewrite <- rsum_scal. apply rsum_ext. intros q Hq. rewrite (gt_sym p q) by assumption. ring. }
    rewrite rsum_plus, !rsum_scal, rsum_swap.
    replace (rsum n (fun j => rsum n (fun i => rgt y j i * dot m (B y i) (B2 y k j)))) with (rsum n (fun i => rct y i i k)); [ring|].
    apply rsum_ext. intros q Hq. unfold rct, rbt.
    rewrite (rsum_ext m _ (fun a => rsum n (fun p => rgt y q p * (B y p a * B2 y k q a)))).
    - rewrite rsum_swap. apply rsum_ext. intros p _. unfold dot. rewrite rsum_scal. reflexivity.
    - intros a _. rewrite <- rsum_scal. apply rsum_ext. intros p _. ring. }
  pose proof (derivable_pt_lim_comp (fun h => rdet n (gram (shift y k h))) sqrt 0 dd (/ (2 * sqrt (rdet n (gram (shift y k 0))))) D) as C.
  cbv beta in C. rewrite !shift_0 in C. specialize (C (derivable_pt_lim_sqrt _ P)).
  unfold partial, rsg. replace (sqrt (rdet n (gram y)) * rsum n (fun i => rct y i i k)) with (/ (2 * sqrt (rdet n (gram y))) * dd); [exact C|].
  rewrite Ed. assert (Q : 0 < sqrt (rdet n (gram y))) by (apply sqrt_lt_R0, P).
  assert (T : rdet n (gram y) = sqrt (rdet n (gram y)) * sqrt (rdet n (gram y))) by (symmetry; apply sqrt_sqrt; lra).
  rewrite T at 2. field. lra.
Qed.
End At.
End P.
