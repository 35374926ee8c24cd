(** IntProofs.v -- the unweighted weights integrate polynomials. *)
From Coq Require Import Reals Lra Lia List Arith Bool.
From Verif Require Import Base RPoly MatrixSpec MatrixProofs LegMatrixModel LegMatrixSpec ChebMatrixModel ChebMatrixSpec ChebMatrixProofs ChebQuadModel ChebQuadProofs ChebTransModel ChebTransProofs ChebTransProofs2 ChebTransProofs3
  StencilProofs StencilProofs8 FMMSweepProofs5 UTransModel UTransProofs UTransProofs2 IntModel IntSpec.
Import ListNotations.
Local Open Scope R_scope.

(** ** interpolatory weights *)
Lemma interp_weights (P : nat -> R -> R) (x w h v : nat -> R) n N m :
  (forall k l, (k < N)%nat -> (l < N)%nat -> rsum n (fun j => w j * (P k (x j) * P l (x j))) = if Nat.eqb k l then h k else 0) ->
  (forall k, (k < N)%nat -> h k <> 0) -> (m < N)%nat ->
  rsum n (fun j => (rsum N (fun k => P k (x j) / h k * v k) * w j) * P m (x j)) = v m.
Proof.
  intros O Hh Hm.
  rewrite (gsum_ext_R n _ (fun j => rsum N (fun k => v k / h k * (w j * (P k (x j) * P m (x j)))))).
  - rewrite gsum_swap. rewrite (gsum_ext_R N _ (fun k => if Nat.eqb k m then v m else 0)); [apply gsum_one, Hm|].
    intros k Hk. rewrite gsum_scal, O by assumption. destruct (Nat.eqb_spec k m) as [->|]; [field; apply Hh, Hm|ring].
  - intros j Hj. rewrite Rmult_assoc, rsum_mul. apply gsum_ext_R. intros k Hk. unfold Rdiv. ring.
Qed.

(** ** integrals of the polynomials *)
Lemma T_end k : peval (chebT k) 1 = 1 /\ peval (chebT k) (-1) = (-1) ^ k.
Proof.
  split; [rewrite <- cos_0 at 1|rewrite <- cos_PI at 1]; rewrite chebT_cos; [rewrite Rmult_0_r; apply cos_0|apply cos_k_PI].
Qed.
Lemma U_pint k : pint (chebU k) = fejer2_d k.
Proof.
  pose proof (pos_INR k) as HK.
  rewrite (pint_deriv (chebU k) (pscale (/ (INR k + 1)) (chebT (S k)))).
  - rewrite !peval_pscale. destruct (T_end (S k)) as [-> ->]. unfold fejer2_d. rewrite <- tech_pow_Rmult, even_pow.
    destruct (Nat.even k); field; lra.
  - intros x. rewrite pderiv_pscale, T_deriv. field. lra.
Qed.
Definition intT (k : nat) : R := if Nat.even k then 2 / (if Nat.eqb k 0 then 1 else 1 - INR k * INR k) else 0.
Lemma T_pint k : pint (chebT k) = intT k.
Proof.
  destruct k as [|[|k]].
  - rewrite (pint_ext (chebT 0) (chebU 0)) by reflexivity. rewrite U_pint. unfold fejer2_d, intT. cbn. field.
  - rewrite (pint_ext (chebT 1) (pscale (/ 2) (chebU 1))) by (intros x; rewrite peval_pscale; simpl; field). rewrite pint_pscale, U_pint. unfold fejer2_d, intT. cbn. ring.
  - rewrite (pint_ext (chebT (S (S k))) (pscale (/ 2) (padd (chebU (S (S k))) (pscale (-1) (chebU k))))).
    + rewrite pint_pscale, pint_padd, pint_pscale, !U_pint. unfold fejer2_d, intT. cbn [Nat.even Nat.eqb]. rewrite !S_INR. pose proof (pos_INR k).
      destruct (Nat.even k); [|ring]. field. repeat split; try lra. nra.
    + intros x. rewrite peval_pscale, peval_padd, peval_pscale. pose proof (TU k x). lra.
Qed.
Lemma fejer_intT m k : m <> 0 -> fejer_d m k = intT k / m.
Proof.
  intros Hm. unfold fejer_d, intT. destruct (Nat.even k) eqn:E; [|unfold Rdiv; ring]. destruct (Nat.eqb_spec k 0); [field; exact Hm|].
  assert (H2 : (2 <= k)%nat) by (destruct k as [|[|k]]; [lia|discriminate|lia]). apply le_INR in H2. cbn [INR] in H2. field. split; [nra|exact Hm].
Qed.

(** ** the DCT formulas are the interpolatory weights *)
Lemma cheb_unweighted_interp q N j : (match q with GL => 2 | LG => 1 end <= N)%nat -> (j < N)%nat ->
  cheb_unweighted q N j = rsum N (fun k => peval (chebT k) (cheb_point q N j) / cheb_norm_sq true q N k * intT k) * cheb_weight q N j.
Proof.
  intros HN Hj. pose proof PI_RGT_0 as HP. unfold Rgt in HP.
  rewrite (gsum_ext_R N _ (fun k => / cheb_norm_sq true q N k * intT k * cos (INR k * theta q N j))) by (intros; rewrite T_point by exact HN; unfold Rdiv; ring).
  unfold cheb_unweighted. destruct q.
  - assert (H0 : 0 < INR N) by (apply lt_0_INR; lia). destruct N as [|M]; [lia|]. rewrite gsum_first. unfold dct3. replace (S M - 1)%nat with M by lia.
    rewrite (gsum_ext_R M (fun i => fejer_d (INR (S M)) (S i) * _) (fun i => / INR (S M) * (intT (S i) * cos (INR (S i) * theta LG (S M) j)))).
    + rewrite (gsum_ext_R M (fun i => / cheb_norm_sq true LG (S M) (S i) * intT (S i) * cos (INR (S i) * theta LG (S M) j)) (fun i => 2 / PI * (intT (S i) * cos (INR (S i) * theta LG (S M) j)))).
      * rewrite !gsum_scal. rewrite fejer_intT by lra. unfold cheb_norm_sq, cheb_l2_norm_sq. cbn [Nat.eqb cheb_weight]. change (INR 0) with 0. rewrite Rmult_0_l, cos_0.
        field. lra.
      * intros i Hi. unfold cheb_norm_sq, cheb_l2_norm_sq. cbn [Nat.eqb]. field. lra.
    + intros i Hi. rewrite fejer_intT by lra. unfold theta. replace (PI * INR (S i) * (INR j + 1 / 2) / INR (S M)) with (INR (S i) * (PI * (INR j + 1 / 2) / INR (S M))) by (field; lra). unfold Rdiv. ring.
  - destruct N as [|[|M]]; [lia|lia|]. replace (S (S M) - 1)%nat with (S M) by lia. assert (H0 : 0 < INR (S M)) by (apply lt_0_INR; lia).
    rewrite gsum_last, gsum_first. unfold dct1. replace (S (S M) - 1)%nat with (S M) by lia. replace (S (S M) - 2)%nat with M by lia.
    rewrite (gsum_ext_R M (fun i => fejer_d (INR (S M)) (S i) * _) (fun i => / INR (S M) * (intT (S i) * cos (INR (S i) * theta GL (S (S M)) j)))).
    + rewrite (gsum_ext_R M (fun i => / cheb_norm_sq true GL (S (S M)) (S i) * intT (S i) * cos (INR (S i) * theta GL (S (S M)) j)) (fun i => 2 / PI * (intT (S i) * cos (INR (S i) * theta GL (S (S M)) j)))).
      * rewrite !gsum_scal, !fejer_intT by lra. set (s := rsum M _).
        unfold theta. replace (S (S M) - 1)%nat with (S M) by lia. replace (INR (S M) * (INR j * PI / INR (S M))) with (INR j * PI) by (field; lra). rewrite cos_k_PI.
        change (INR 0) with 0. rewrite Rmult_0_l, cos_0.
        unfold cheb_norm_sq, cheb_l2_norm_sq, cheb_weight. cbv zeta. replace (S (S M) - 1)%nat with (S M) by lia. cbn [Nat.eqb]. rewrite Nat.eqb_refl.
        destruct (Nat.eqb_spec j (S M)), (Nat.eqb_spec j 0); try lia; field; lra.
      * intros i Hi. unfold cheb_norm_sq, cheb_l2_norm_sq. cbv zeta. replace (S (S M) - 1)%nat with (S M) by lia. destruct (Nat.eqb_spec (S i) (S M)); [lia|]. cbn [Nat.eqb]. field. lra.
    + intros i Hi. rewrite fejer_intT by lra. unfold theta. replace (S (S M) - 1)%nat with (S M) by lia.
      replace (PI * INR (S i) * INR j / INR (S M)) with (INR (S i) * (INR j * PI / INR (S M))) by (field; lra). unfold Rdiv. ring.
Qed.
Lemma gu_unweighted_interp N j : (j < N)%nat ->
  gu_unweighted N j = rsum N (fun k => peval (chebU k) (u_point GU N j) / u_l2_norm_sq GU N k * fejer2_d k) * u_weight GU N j.
Proof.
  intros Hj. pose proof PI_RGT_0 as HP. unfold Rgt in HP. assert (H0 : 0 < INR N) by (apply lt_0_INR; lia). pose proof (sin_utheta GU N j Hj) as Hs.
  unfold gu_unweighted, dst1.
  rewrite (gsum_ext_R N (fun k => peval (chebU k) (u_point GU N j) / u_l2_norm_sq GU N k * fejer2_d k) (fun k => 2 / (PI * sin (utheta GU N j)) * (fejer2_d k * sin (PI * (INR k + 1) * (INR j + 1) / (INR N + 1))))).
  - rewrite gsum_scal, u_weight_theta. change (sin ((INR j + 1) * PI / (INR N + 1))) with (sin (utheta GU N j)). field. repeat split; lra.
  - intros k Hk. rewrite U_quot by exact Hj. unfold u_l2_norm_sq, utheta. rewrite plus_INR. cbn [INR].
    replace ((INR k + 1) * ((INR j + 1) * PI / (INR N + 1))) with (PI * (INR k + 1) * (INR j + 1) / (INR N + 1)) by (field; lra).
    change (sin ((INR j + 1) * PI / (INR N + 1))) with (sin (utheta GU N j)). field. split; lra.
Qed.

(** ** exactness on the reference domain *)
Definition exact_ref (n N : nat) (x w : nat -> R) : Prop := forall m, (m < N)%nat -> rsum n (fun j => w j * peval (chebT m) (x j)) = pint (chebT m).
Lemma cheb_exact_ref q N : (match q with GL => 2 | LG => 1 end <= N)%nat -> exact_ref N N (cheb_point q N) (cheb_unweighted q N).
Proof.
  intros HN m Hm. rewrite T_pint.
  rewrite (gsum_ext_R N _ (fun j => (rsum N (fun k => peval (chebT k) (cheb_point q N j) / cheb_norm_sq true q N k * intT k) * cheb_weight q N j) * peval (chebT m) (cheb_point q N j)))
    by (intros; rewrite cheb_unweighted_interp by assumption; reflexivity).
  apply (interp_weights (fun k => peval (chebT k)) (cheb_point q N) (cheb_weight q N) (cheb_norm_sq true q N) intT N N m); [|intros; apply norm_ne0|exact Hm].
  intros k l Hk Hl. apply quad_TT; assumption.
Qed.
Lemma gu_exact_U N m : (m < N)%nat -> rsum N (fun j => gu_unweighted N j * peval (chebU m) (u_point GU N j)) = pint (chebU m).
Proof.
  intros Hm. rewrite U_pint.
  rewrite (gsum_ext_R N _ (fun j => (rsum N (fun k => peval (chebU k) (u_point GU N j) / u_l2_norm_sq GU N k * fejer2_d k) * u_weight GU N j) * peval (chebU m) (u_point GU N j)))
    by (intros; rewrite gu_unweighted_interp by assumption; reflexivity).
  apply (interp_weights (fun k => peval (chebU k)) (u_point GU N) (u_weight GU N) (u_l2_norm_sq GU N) fejer2_d N N m); [|intros k _; pose proof (u_norm_pos GU N k); lra|exact Hm].
  intros k l Hk Hl. apply u_quad_orth; assumption.
Qed.
Lemma gu_exact_ref N : exact_ref N N (u_point GU N) (gu_unweighted N).
Proof.
  intros m Hm. destruct m as [|[|m]].
  - exact (gu_exact_U N 0 Hm).
  - rewrite (pint_ext (chebT 1) (pscale (/ 2) (chebU 1))) by (intros x; rewrite peval_pscale; simpl; field). rewrite pint_pscale, <- (gu_exact_U N 1 Hm), <- gsum_scal.
    apply gsum_ext_R. intros j _. change (chebU 1) with [0; 2]. change (chebT 1) with [0; 1]. cbn [peval]. field.
  - rewrite (pint_ext (chebT (S (S m))) (pscale (/ 2) (padd (chebU (S (S m))) (pscale (-1) (chebU m))))).
    + rewrite pint_pscale, pint_padd, pint_pscale, <- (gu_exact_U N (S (S m)) Hm), <- (gu_exact_U N m ltac:(lia)), <- gsum_scal, <- gsum_add, <- gsum_scal.
      apply gsum_ext_R. intros j _. pose proof (TU m (u_point GU N j)) as E.
      replace (peval (chebT (S (S m))) (u_point GU N j)) with ((peval (chebU (S (S m))) (u_point GU N j) - peval (chebU m) (u_point GU N j)) / 2) by lra. field.
    + intros x. rewrite peval_pscale, peval_padd, peval_pscale. pose proof (TU m x). lra.
Qed.
(** ** any polynomial, any domain *)
Lemma poly_span p : in_span (length p - 1) (peval p).
Proof.
  induction p as [|a p IH]; [exists (fun _ => 0); intros y; cbn; ring|].
  destruct p as [|b p].
  - exists (fun _ => a). intros y. cbn. ring.
  - cbn [length] in *. replace (S (S (length p)) - 1)%nat with (S (length p)) by lia. replace (S (length p) - 1)%nat with (length p) in IH by lia.
    apply span_ext with (f := fun y => a * 1 + 1 * (y * peval (b :: p) y)); [intros y; cbn [peval]; ring|].
    apply (span_lin (S (length p)) (fun _ => 1) (fun y => y * peval (b :: p) y) a 1).
    + apply span_ext with (f := fun y => peval (chebT 0) y); [intros y; cbn; ring|]. apply span_T. lia.
    + apply span_mul, IH.
Qed.
Lemma exact_span n N x w k f : exact_ref n N x w -> (k < N)%nat -> in_span k f -> newton f (-1) 1 (rsum n (fun j => w j * f (x j))).
Proof.
  intros H Hk [a Ha].
  assert (G : forall r, (r <= N)%nat -> newton (fun y => rsum r (fun l => a l * peval (chebT l) y)) (-1) 1 (rsum n (fun j => w j * rsum r (fun l => a l * peval (chebT l) (x j))))).
  { induction r as [|r IH]; intros Hr.
    - replace (rsum n _) with 0 by (symmetry; apply gsum_zero; intros; cbn; ring). apply newton_0.
    - replace (rsum n (fun j => w j * rsum (S r) (fun l => a l * peval (chebT l) (x j)))) with
        (rsum n (fun j => w j * rsum r (fun l => a l * peval (chebT l) (x j))) + a r * pint (chebT r)).
      + apply (newton_add (fun y => rsum r (fun l => a l * peval (chebT l) y)) (fun y => a r * peval (chebT r) y)); [apply IH; lia|]. apply newton_scal, pint_newton.
      + rewrite <- (H r) by lia. rewrite <- gsum_scal, <- gsum_add. apply gsum_ext_R. intros j _. rewrite gsum_last. ring. }
  rewrite (gsum_ext_R n _ (fun j => w j * rsum (S k) (fun l => a l * peval (chebT l) (x j)))) by (intros; rewrite Ha; reflexivity).
  apply newton_ext with (f := fun y => rsum (S k) (fun l => a l * peval (chebT l) y)); [intros; symmetry; apply Ha|]. apply G. lia.
Qed.
(** substitution x = al y + be *)
Lemma newton_affine f al be c d v : al <> 0 -> newton (fun y => f (al * y + be)) c d v -> newton f (al * c + be) (al * d + be) (al * v).
Proof.
  intros Ha (F & HF & <-). exists (fun x => al * F (/ al * x + - (be / al))). split.
  - intros x. replace (f x) with (al * (f (al * (/ al * x + - (be / al)) + be) * (/ al * 1 + 0))).
    + apply (derivable_pt_lim_scal (fun x => F (/ al * x + - (be / al)))).
      apply (derivable_pt_lim_comp (fun x => / al * x + - (be / al)) F); [|apply HF].
      apply (derivable_pt_lim_plus (fun x => / al * x) (fun _ => - (be / al))); [apply (derivable_pt_lim_scal (fun x => x)), derivable_pt_lim_id|apply derivable_pt_lim_const].
    + replace (al * (/ al * x + - (be / al)) + be) with x by (field; exact Ha). field. exact Ha.
  - replace (/ al * (al * d + be) + - (be / al)) with d by (field; exact Ha). replace (/ al * (al * c + be) + - (be / al)) with c by (field; exact Ha). ring.
Qed.
Lemma span_affine al be p : in_span (length p - 1) (fun y => peval p (al * y + be)).
Proof.
  induction p as [|a p IH]; [exists (fun _ => 0); intros y; cbn; ring|].
  destruct p as [|b p].
  - exists (fun _ => a). intros y. cbn. ring.
  - cbn [length] in *. replace (S (S (length p)) - 1)%nat with (S (length p)) by lia. replace (S (length p) - 1)%nat with (length p) in IH by lia.
    set (g := fun y => peval (b :: p) (al * y + be)) in *.
    apply span_ext with (f := fun y => 1 * (a * 1 + be * g y) + al * (y * g y)); [intros y; unfold g; cbn [peval]; ring|].
    apply (span_lin (S (length p)) (fun y => a * 1 + be * g y) (fun y => y * g y) 1 al).
    + apply (span_lin (S (length p)) (fun _ => 1) g a be); [|apply (span_up (length p)); [lia|exact IH]].
      apply span_ext with (f := fun y => peval (chebT 0) y); [intros y; cbn; ring|]. apply span_T. lia.
    + apply span_mul, IH.
Qed.
Lemma exact_domain n N x w a b p : exact_ref n N x w -> (0 < N)%nat -> a < b -> degree_below N p ->
  integral (peval p) a b (/ domain_factor (b - a) 2 * rsum n (fun j => w j * peval p (map_true a (-1) (domain_factor (b - a) 2) (x j)))).
Proof.
  intros H HN Hab Hp. apply newton_integral; [lra|apply continuity_peval|]. unfold domain_factor, map_true, degree_below in *.
  replace (/ (2 / (b - a))) with ((b - a) / 2) by (field; lra).
  set (al := (b - a) / 2). set (be := (b + a) / 2).
  assert (Hal : al <> 0) by (unfold al; lra).
  replace a with (al * (-1) + be) at 1 by (unfold al, be; field). replace b with (al * 1 + be) at 1 by (unfold al, be; field).
  apply newton_affine; [exact Hal|].
  rewrite (gsum_ext_R n _ (fun j => w j * peval p (al * x j + be))).
  - apply (exact_span n N x w (length p - 1) (fun y => peval p (al * y + be)) H ltac:(lia)). apply span_affine.
  - intros j _. do 2 f_equal. unfold al, be. field. lra.
Qed.
