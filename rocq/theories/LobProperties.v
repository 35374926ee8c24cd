(** LobProperties.v -- C61: Gauss and Gauss-Lobatto points, weights and transforms of the Legendre family;
    C59: the Gauss rules of the Laguerre and Hermite families exist. *)
From Coq Require Import Reals List Arith Bool Lia Lra.
From Verif Require Import Base RPoly MatrixSpec MatrixProofs LegMatrixModel LegMatrixSpec BndModel BndProofs LHSpec LHModel LHProofs LHProofs4 GaussRule LobModel LobSpec LobProofs LobProofs2 LHGauss.
Import ListNotations.
Local Open Scope R_scope.

(** ** the Gauss-Lobatto rule *)
(** [lobatto_half N y] says that y lists the N/2 - 1 zeros of the derivative of L_(N-1) in (-1, 0), in order.  From them the function
    builds N increasing, symmetric points with positive, symmetric weights, exact for every polynomial of degree at most 2N-3. *)
Theorem C61_lobatto : forall N y, (2 <= N)%nat -> lobatto_half N y ->
  let x := lob_x N y in let w := lob_w N x in
  lobatto_points N x /\ (forall i, (i < N)%nat -> x (N - 1 - i)%nat = - x i /\ 0 < w i /\ w (N - 1 - i)%nat = w i) /\ exact_below (2 * N - 2) N x w.
Proof.
  intros N y HN HY x w. pose proof (lob_points N y HN HY) as L. split; [exact L|]. split; [|apply lob_exact; assumption].
  intros i Hi. split; [apply lob_sym; assumption|]. split; [|apply lob_w_sym; assumption].
  unfold w, lob_w. apply Rdiv_lt_0_compat; [lra|]. apply lob_den_pos; assumption.
Qed.
(** such a list exists and is the only one, for every N *)
Theorem C61_lobatto_zeros : forall N, (2 <= N)%nat -> exists y, lobatto_half N y /\ forall y', lobatto_half N y' -> y' = y.
Proof. intros N HN. destruct (half_exists N HN) as [y H]. exists y. split; [exact H|]. intros y' H'. exact (half_unique N y' y HN H' H). Qed.
(** the degree is the highest possible for these points and weights *)
Theorem C61_lobatto_sharp : forall N x, (2 <= N)%nat -> lobatto_points N x -> ~ exact_below (2 * N - 1) N x (lob_w N x).
Proof.
  intros N x HN L E.
  destruct (sum_exact_sharp (N - 1) N x (lob_w N x)) as (p & Lp & Np).
  - intros k l Hk Hl. rewrite lob_orth by (auto; lia). destruct (Nat.eqb k l); [apply lobh_lt; lia|reflexivity].
  - rewrite lob_orth, Nat.eqb_refl by (auto; lia). destruct N as [|[|m]]; try lia. replace (S (S m) - 1)%nat with (S m) by lia. rewrite lobh_last. unfold lh. rewrite S_INR. pose proof (pos_INR m).
    intros C. assert (2 / (INR m + 1) * (INR m + 1) * (2 * (INR m + 1) + 1) = 2 / (2 * (INR m + 1) + 1) * (2 * (INR m + 1) + 1) * (INR m + 1)) as Q by (rewrite C; ring).
    replace (2 / (INR m + 1) * (INR m + 1) * (2 * (INR m + 1) + 1)) with (2 * (2 * (INR m + 1) + 1)) in Q by (field; lra).
    replace (2 / (2 * (INR m + 1) + 1) * (2 * (INR m + 1) + 1) * (INR m + 1)) with (2 * (INR m + 1)) in Q by (field; lra). lra.
  - apply Np, E. lia.
Qed.
(** Newton's method: whichever way the loop ends, every point it returns is within (N-1) times the last correction of a zero *)
Theorem C61_newton : forall N tol guess y e, (3 <= N)%nat -> newton_loop 10 (N - 1) tol 1 guess = Some (y, e) ->
  length y = length guess /\ forall v, In v y -> exists z, -1 < z < 1 /\ deriv_at 1 (legL (N - 1)) z = 0 /\ Rabs (v - z) <= (INR N - 1) * e.
Proof.
  intros N tol guess y e HN H. destruct (newton_near N tol HN 9 1 guess y e H) as [A B]. split; [exact A|].
  intros v Hv. rewrite Forall_forall in B. exact (B v Hv).
Qed.
(** started at the zeros the loop stops after one step and the function returns the rule built from them *)
Theorem C61_newton_fixed : forall N tol y, (2 <= N)%nat -> 0 < tol -> lobatto_half N y -> lobatto N tol y = Some (lob_x N y, lob_w N (lob_x N y)).
Proof.
  intros N tol y HN Ht HY. pose proof (lob_points N y HN HY) as L. destruct HY as (Ly & Iy & H). unfold lobatto.
  destruct N as [|[|m]]; try lia. replace (S (S m) - 1)%nat with (S m) in * by lia.
  destruct (newton_fixed_dx m y H) as (A & B & C). cbn [newton_loop]. rewrite A. cbv zeta. rewrite B, C. destruct (Rlt_dec 0 tol) as [_|Q]; [|lra].
  assert (K : all_ok (S (S m)) (lob_x (S (S m)) y) = true); [|rewrite K; reflexivity].
  unfold all_ok. apply forallb_forall. intros i Hi. apply in_seq in Hi. pose proof (lob_den_pos (S (S m)) _ i HN L ltac:(lia)).
  destruct (Req_EM_T _ _) as [Q|_]; [lra|reflexivity].
Qed.
(** a single point: the weight divides by zero *)
Theorem C61_one_refuted : forall tol, 0 < tol -> lobatto 1 tol [] = None /\ ~ exists x, lobatto_points 1 x.
Proof.
  intros tol Ht. split.
  - unfold lobatto. cbn [newton_loop newton_dx]. unfold sub_list, norm2. cbn [combine map fold_right]. rewrite sqrt_0. destruct (Rlt_dec 0 tol) as [_|Q]; [|lra].
    unfold all_ok. cbn [seq forallb]. destruct (Req_EM_T _ _) as [_|Q]; [reflexivity|]. exfalso. apply Q. unfold lob_den. cbn [INR]. ring.
  - intros (x & _ & A & B & _). cbn in B. lra.
Qed.
(** ** the Gauss rule *)
(** the weights 2/((1-x^2) L_N'(x)^2) at the zeros of L_N are positive and exact for degree at most 2N-1, and no more *)
Theorem C61_gauss : forall N x, (0 < N)%nat -> gauss_points N x ->
  (forall i, (i < N)%nat -> 0 < lg_w N x i) /\ exact_below (2 * N) N x (lg_w N x) /\ ~ exact_below (2 * N + 1) N x (lg_w N x).
Proof.
  intros N x HN G. split; [intros i Hi; apply lg_pos; assumption|]. split; [apply lg_exact; assumption|]. intros E.
  destruct (sum_exact_sharp N N x (lg_w N x)) as (p & Lp & Np).
  - intros k l Hk Hl. apply lg_orth; assumption.
  - rewrite sum_0; [pose proof (lh_pos N); lra|]. intros i Hi. rewrite (proj2 (proj2 G i Hi)). ring.
  - apply Np, E. exact Lp.
Qed.
(** L_N has N zeros in (-1, 1), for every N, and they are the only Gauss points *)
Theorem C61_gauss_zeros : forall N, exists x, gauss_points N x /\ forall x' i, gauss_points N x' -> (i < N)%nat -> x' i = x i.
Proof.
  intros N. destruct (gauss_points_exist N) as [x G]. exists x. split; [exact G|]. intros x' i G' Hi.
  apply (roots_unique N (legL N) x' x 1 (deglt_legL N)); auto; try apply G'; try apply G.
  - rewrite legr. lra.
Qed.
(** ** mass matrices and transforms *)
(** both rules make the Legendre polynomials orthogonal with the norms of l2_norm_sq: the hypothesis of C36_legendre_mass_quadrature *)
Theorem C61_mass : forall N x,
  ((2 <= N)%nat -> lobatto_points N x -> rule_orthogonal (rule_list N x (lob_w N x)) (leg_norm_sq true GL N) N) /\
  ((0 < N)%nat -> gauss_points N x -> rule_orthogonal (rule_list N x (lg_w N x)) (leg_norm_sq true LG N) N).
Proof.
  intros N x. split; intros HN L n m Hn Hm; rewrite quad_rule.
  - apply lob_orth; assumption.
  - apply lg_orth; auto. lia.
Qed.
(** forward and backward transforms are inverses of each other *)
Theorem C61_transforms : forall N x uh u k,
  (k < N)%nat ->
  ((2 <= N)%nat -> lobatto_points N x ->
     leg_forward GL N N x (lob_w N x) (leg_backward N x uh) k = uh k /\ leg_backward N x (leg_forward GL N N x (lob_w N x) u) k = u k) /\
  (gauss_points N x ->
     leg_forward LG N N x (lg_w N x) (leg_backward N x uh) k = uh k /\ leg_backward N x (leg_forward LG N N x (lg_w N x) u) k = u k).
Proof.
  intros N x uh u k Hk. split.
  - intros HN L. split.
    + unfold leg_forward. rewrite (fwd_bwd N N x (lob_w N x) (lobh N) k uh (leg_l2_norm_sq GL N)); auto.
      * fold (lobh N k). field. apply lobh_neq; assumption.
      * intros i Hi. apply (lobh_neq N i HN Hi).
      * intros a b Ha Hb. apply lob_orth; assumption.
    + apply bwd_fwd; [|exact Hk]. intros i j Hi Hj. apply (lob_dual N x i j HN L Hi Hj).
  - intros G. assert (Hh : forall i, leg_l2_norm_sq LG N i <> 0) by (intros i; pose proof (lh_pos i); change (leg_l2_norm_sq LG N i) with (lh i); lra). split.
    + unfold leg_forward. rewrite (fwd_bwd N N x (lg_w N x) lh k uh (leg_l2_norm_sq LG N)); auto.
      * change (leg_l2_norm_sq LG N k) with (lh k). pose proof (lh_pos k). field. lra.
      * intros a b Ha Hb. apply lg_orth; auto; lia.
    + apply bwd_fwd; [|exact Hk]. intros i j Hi Hj. apply lg_dual; auto. lia.
Qed.
(** a padded space (M > N points): with Gauss points the forward transform still returns the coefficients ... *)
Theorem C61_padded_gauss : forall N M x uh k, (k < N)%nat -> (N <= M)%nat -> gauss_points M x ->
  leg_forward LG N M x (lg_w M x) (leg_backward N x uh) k = uh k.
Proof.
  intros N M x uh k Hk HM G. unfold leg_forward. rewrite (fwd_bwd N M x (lg_w M x) lh k uh (leg_l2_norm_sq LG N)); auto.
  - change (leg_l2_norm_sq LG N k) with (lh k). pose proof (lh_pos k). field. lra.
  - intros i _. pose proof (lh_pos i). change (leg_l2_norm_sq LG N i) with (lh i). lra.
  - intros a b Ha Hb. apply lg_orth; auto; lia.
Qed.
(** ... with Gauss-Lobatto points the last coefficient is multiplied by (N-1)/(2N-1), because the mass matrix keeps the norm of N points *)
Theorem C61_padded_lobatto_refuted : forall N M x uh k, (2 <= N)%nat -> (k < N)%nat -> (N < M)%nat -> lobatto_points M x ->
  leg_forward GL N M x (lob_w M x) (leg_backward N x uh) k = (if Nat.eqb k (N - 1) then (INR N - 1) / (2 * INR N - 1) else 1) * uh k.
Proof.
  intros N M x uh k HN Hk HM L. unfold leg_forward. rewrite (fwd_bwd N M x (lob_w M x) lh k uh (leg_l2_norm_sq GL N)); auto.
  - f_equal. unfold leg_l2_norm_sq, lh. assert (2 <= INR N) by (apply (le_INR 2), HN). destruct (Nat.eqb_spec k (N - 1)) as [->|].
    + rewrite minus_INR by lia. change (INR 1) with 1. field. lra.
    + pose proof (pos_INR k). field. lra.
  - intros i Hi. apply (lobh_neq N i HN Hi).
  - intros a b Ha Hb. rewrite lob_orth by (auto; lia). destruct (Nat.eqb a b); [apply lobh_lt; lia|reflexivity].
Qed.
Print Assumptions C61_lobatto.
Print Assumptions C61_lobatto_zeros.
Print Assumptions C61_lobatto_sharp.
Print Assumptions C61_newton.
Print Assumptions C61_newton_fixed.
Print Assumptions C61_one_refuted.
Print Assumptions C61_gauss.
Print Assumptions C61_gauss_zeros.
Print Assumptions C61_mass.
Print Assumptions C61_transforms.
Print Assumptions C61_padded_gauss.
Print Assumptions C61_padded_lobatto_refuted.
(** four points: the zero of L_3' in (-1, 0) is -1/sqrt 5, and the rule is exact for degree 5 *)
Lemma half_4 : lobatto_half 4 [- sqrt (1 / 5)].
Proof.
  assert (S2 : sqrt (1 / 5) * sqrt (1 / 5) = 1 / 5) by (apply sqrt_sqrt; lra). assert (0 < sqrt (1 / 5)) by (apply sqrt_lt_R0; lra).
  split; [reflexivity|]. split; [intros i j Hij Hj; cbn in Hj; lia|]. intros v [<-|[]]. split; [split; nra|].
  unfold deriv_at. cbn [dn]. change (legL (4 - 1)) with (legL 3). pose proof (leg_rec' 1 (- sqrt (1 / 5))) as E. pose proof (leg_rec' 0 (- sqrt (1 / 5))) as E0. pose proof (leg_rec 0 (- sqrt (1 / 5))) as E1.
  change (legL 1) with [0; 1] in *. change (legL 0) with [1] in *. cbn [pderiv peval INR padd pX] in *. nra.
Qed.
Example C61_ex : let x := lob_x 4 [- sqrt (1 / 5)] in
  lobatto 4 (1 / 10 ^ 16) [- sqrt (1 / 5)] = Some (x, lob_w 4 x) /\ exact_below 6 4 x (lob_w 4 x) /\ x 1%nat = - sqrt (1 / 5) /\ x 2%nat = sqrt (1 / 5) /\ x 3%nat = 1.
Proof.
  cbv zeta. split; [apply C61_newton_fixed; [lia|apply Rdiv_lt_0_compat; [lra|apply pow_lt; lra]|apply half_4]|].
  split; [apply (C61_lobatto 4 [- sqrt (1 / 5)] ltac:(lia) half_4)|]. split; [reflexivity|]. split; [cbn; ring|reflexivity].
Qed.
Example C61_ex_three : exact_below 4 3 (lob_x 3 []) (lob_w 3 (lob_x 3 [])) /\ lob_x 3 [] 1 = 0.
Proof.
  split; [|reflexivity]. apply (C61_lobatto 3 [] ltac:(lia)). split; [reflexivity|]. split; [intros i j Hij Hj; cbn in Hj; lia|intros v []].
Qed.

(** ** C59: the rules the Laguerre and Hermite transforms use exist, for every number of points *)
Theorem C59_gauss_laguerre : forall n, (0 < n)%nat -> exists x w, laguerre_gauss n x w /\ forall i, (i < n)%nat -> 0 < x i /\ 0 < w i /\ peval (lagL n) (x i) = 0.
Proof.
  intros [|n] Hn; [lia|]. destruct (lag_zeros n) as (x & D & H). destruct (lag_gauss_of_zeros n x D (fun i Hi => proj2 (H i Hi))) as [G P].
  exists x, (lag_gauss_w n x). split; [exact G|]. intros i Hi. destruct (H i Hi). auto.
Qed.
Theorem C59_gauss_hermite : forall n, (0 < n)%nat -> exists x w, hermite_gauss n x w /\ strictly_increasing n x /\ forall i, (i < n)%nat -> 0 < w i /\ peval (hermP n) (x i) = 0.
Proof.
  intros [|n] Hn; [lia|]. destruct (herm_zeros n) as (x & I & H). destruct (herm_gauss_of_zeros n x (increasing_distinct _ _ I) H) as [G P].
  exists x, (herm_gauss_w n x). split; [exact G|]. split; [exact I|]. intros i Hi. auto.
Qed.
Print Assumptions C59_gauss_laguerre.
Print Assumptions C59_gauss_hermite.
