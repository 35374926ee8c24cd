(** IntProperties.v -- C56: inner(number, array) is the integral of the array over the domain. *)
From Coq Require Import Reals Lra Lia List Arith Bool ZArith.
From Verif Require Import Base RPoly MatrixSpec MatrixProofs LegMatrixModel ChebQuadModel ChebMatrixProofs ChebTransModel ChebTransProofs ChebTransProofs3 StencilProofs StencilProofs8
  UTransModel UTransProofs UTransProofs2 IntModel IntSpec IntProofs IntProofs2.
Import ListNotations.
Local Open Scope R_scope.

(** ** one dimension: c times the integral, exactly, for every polynomial of degree below the number of points and every domain [a, b].
    1: no curvilinear measure (hi.prod() is 1) *)
Notation no_measure := (fun _ : nat => 1).
Lemma inner1_val c df n w u : inner_number1 c df n w true no_measure u = c * (/ df * rsum n (fun j => w j * u j)).
Proof. unfold inner_number1, dx1. rewrite (gsum_ext_R n _ (fun j => w j * u j)) by (intros; ring). unfold Rdiv. ring. Qed.
Theorem C56_chebyshev : forall q N a b p c, (match q with GL => 2 | LG => 1 end <= N)%nat -> a < b -> degree_below N p ->
  exists v, integral (peval p) a b v /\
    inner_number1 c (domain_factor (b - a) 2) N (cheb_unweighted q N) true no_measure
      (fun j => peval p (map_true a (-1) (domain_factor (b - a) 2) (cheb_point q N j))) = c * v.
Proof.
  intros q N a b p c HN Hab Hp. eexists. split; [apply (exact_domain N N (cheb_point q N) (cheb_unweighted q N) a b p); [apply cheb_exact_ref, HN|destruct q; lia|exact Hab|exact Hp]|].
  apply inner1_val.
Qed.
Print Assumptions C56_chebyshev.
(** the Chebyshev spaces of the second kind, and chebyshev with quad='GU' *)
Theorem C56_chebyshevu : forall q N a b p c, (0 < N)%nat -> a < b -> degree_below N p ->
  exists v, integral (peval p) a b v /\
    inner_number1 c (domain_factor (b - a) 2) N (u_unweighted q N) true no_measure
      (fun j => peval p (map_true a (-1) (domain_factor (b - a) 2) (u_point q N j))) = c * v.
Proof.
  intros q N a b p c HN Hab Hp. eexists. split; [|apply inner1_val]. destruct q.
  - apply (exact_domain N N (u_point GU N) (gu_unweighted N) a b p); [apply gu_exact_ref|exact HN|exact Hab|exact Hp].
  - apply (exact_domain N N (cheb_point LG N) (cheb_unweighted LG N) a b p); [apply cheb_exact_ref; lia|exact HN|exact Hab|exact Hp].
Qed.
Print Assumptions C56_chebyshevu.
(** Jacobi, ultraspherical, Gegenbauer: for every function of the space (N coefficients), whatever weighted rule makes the polynomials
    orthogonal with the norms h *)
Theorem C56_jacobi : forall (P : nat -> poly) h x w n N (k : nat -> R) a b c,
  P 0%nat = [1] -> (forall i, (i < N)%nat -> h i <> 0) ->
  (forall i l, (i < N)%nat -> (l < N)%nat -> rsum n (fun j => w j * (peval (P i) (x j) * peval (P l) (x j))) = if Nat.eqb i l then h i else 0) -> a < b ->
  exists v, integral (fun X => rsum N (fun i => k i * peval (P i) (2 / (b - a) * (X - a) - 1))) a b v /\
    inner_number1 c (domain_factor (b - a) 2) n (jacobi_unweighted P h x w N) true no_measure (fun j => rsum N (fun i => k i * peval (P i) (x j))) = c * v.
Proof. intros P h x w n N k a b c P0 Hh O Hab. eexists. split; [apply (jacobi_exact_fun P h x w n N k a b P0 Hh O Hab)|apply inner1_val]. Qed.
Print Assumptions C56_jacobi.
(** Fourier: trigonometric polynomials of degree below the number of points *)
Theorem C56_fourier : forall N n al be a L c, (0 < n)%nat -> (n <= N)%nat -> 0 < L ->
  exists v, integral (trig_poly n al be a L) a (a + L) v /\
    inner_number1 c (domain_factor L (2 * PI)) N (fun _ => fourier_unweighted N) true no_measure
      (fun j => trig_poly n al be a L (map_true a 0 (domain_factor L (2 * PI)) (2 * PI * INR j / INR N))) = c * v.
Proof. intros N n al be a L c Hn HN HL. eexists. split; [apply (fourier_exact N n al be a L Hn HN HL)|apply inner1_val]. Qed.
Print Assumptions C56_fourier.
(** the integral is the only one *)
Theorem C56_integral_unique : forall f a b u v, integral f a b u -> integral f a b v -> u = v.
Proof. exact integral_unique. Qed.
Print Assumptions C56_integral_unique.

(** ** several dimensions *)
(** the loop over the axes returns the sum over all points with the products of the weights -- whatever entry is read, so the same on
    every process; the measure is included unless the product of the scaling factors is 1 *)
Theorem C56_sum : forall c dfs axes hi1 m u start, length start = length axes -> (hi1 = true -> forall idx, m idx = 1) ->
  inner_number c dfs axes hi1 m u start = c / fold_right Rmult 1 dfs * msum axes (fun idx => u idx * m idx).
Proof.
  intros c dfs axes hi1 m u start Hs Hm. unfold inner_number, dx_nd. f_equal. rewrite (dx_loop_msum axes [] start _ Hs).
  apply msum_ext. intros t. unfold measured. destruct hi1; [rewrite (Hm eq_refl); cbn [app]; ring|reflexivity].
Qed.
Print Assumptions C56_sum.
(** hence exact on sums of products: if the rule of axis ax integrates every factor f r ax to v r ax, the result is c * sum_r prod_ax v r ax *)
Theorem C56_product : forall c (dfs : list R) axes xs (f : nat -> nat -> R -> R) (v : nat -> nat -> R) nr start,
  length xs = length axes -> length dfs = length axes -> length start = length axes -> Forall (fun d => d <> 0) dfs ->
  (forall r ax n w x df, (r < nr)%nat -> nth_error axes ax = Some (n, w) -> nth_error xs ax = Some x -> nth_error dfs ax = Some df ->
     / df * rsum n (fun i => w i * f r ax (x i)) = v r ax) ->
  inner_number c dfs axes true (fun _ => 1) (fun idx => rsum nr (fun r => tprod 0 xs (f r) idx)) start = c * rsum nr (fun r => vprod 0 (length axes) (v r)).
Proof.
  intros c dfs axes xs f v nr start Hx Hd Hs Hd0 H. rewrite C56_sum by (try exact Hs; reflexivity).
  rewrite (msum_ext axes _ (fun idx => rsum nr (fun r => tprod 0 xs (f r) idx))) by (intros; ring).
  rewrite (msum_sum axes nr (fun r => tprod 0 xs (f r))). unfold Rdiv. rewrite Rmult_assoc. f_equal. rewrite <- gsum_scal. apply gsum_ext_R. intros r Hr.
  set (s := fun ax => nth ax dfs 1 * v r ax).
  rewrite (msum_tprod axes 0 xs (f r) s Hx).
  - assert (G : forall l ax (sv : nat -> R), Forall (fun d => d <> 0) l -> (forall a, (a < length l)%nat -> sv (ax + a)%nat = nth a l 1 * v r (ax + a)%nat) ->
        / fold_right Rmult 1 l * vprod ax (length l) sv = vprod ax (length l) (v r)).
    { induction l as [|d l IH]; intros ax sv Hl Hv; cbn [fold_right length vprod]; [field|]. inversion Hl; subst.
      rewrite <- (IH (S ax) sv) by (try assumption; intros a Ha; specialize (Hv (S a) ltac:(cbn; lia)); cbn [nth] in Hv; replace (S ax + a)%nat with (ax + S a)%nat by lia; exact Hv).
      specialize (Hv 0%nat ltac:(cbn; lia)). cbn [nth] in Hv. rewrite Nat.add_0_r in Hv. rewrite Hv.
      assert (fold_right Rmult 1 l <> 0) by (clear - H3; induction l as [|e l IH]; cbn; [lra|]; inversion H3; subst; apply Rmult_integral_contrapositive_currified; [assumption|apply IH; assumption]).
      field. split; assumption. }
    rewrite <- Hd. apply G; [exact Hd0|]. intros a _. reflexivity.
  - intros a n w x Ha Hxa. cbn [Nat.add]. unfold s.
    assert (L : (a < length dfs)%nat) by (rewrite Hd; apply nth_error_Some; rewrite Ha; discriminate).
    assert (D : nth_error dfs a = Some (nth a dfs 1)) by (apply nth_error_nth'; exact L).
    rewrite <- (H r a n w x (nth a dfs 1) Hr Ha Hxa D). field.
    rewrite Forall_forall in Hd0. apply Hd0. apply nth_In. exact L.
Qed.
Print Assumptions C56_product.

(** ** findings *)
(** Laguerre (Hermite is the same): weighted=False removes the factor exp(x) that turns Gauss-Laguerre weights into those of the plain
    integral, so inner(1, u) is the integral with weight exp(-x).  For u = exp(-x), whose integral over [0, infinity) is 1, it is less
    than 1 for every number of points; the weights for weighted=True return 1. *)
Theorem C56_laguerre_refuted : forall N x w, (0 < N)%nat -> (forall j, (j < N)%nat -> 0 < x j /\ 0 < w j) -> rsum N w = 1 ->
  improper (fun y => exp (- y)) 1 /\
  inner_number1 1 1 N (laguerre_weights false x w) true no_measure (fun j => exp (- x j)) < 1 /\
  inner_number1 1 1 N (laguerre_weights true x w) true no_measure (fun j => exp (- x j)) = 1.
Proof.
  intros N x w HN H S. split; [exact improper_exp|]. rewrite !inner1_val. unfold laguerre_weights. split.
  - rewrite Rinv_1, !Rmult_1_l. rewrite <- S. apply rsum_le_lt; [exact HN|]. intros j Hj. destruct (H j Hj) as [H1 H2].
    assert (exp (- x j) < 1) by (rewrite <- exp_0; apply exp_increasing; lra). nra.
  - rewrite (gsum_ext_R N _ w); [rewrite S; field|]. intros j Hj. rewrite Rmult_assoc, <- exp_plus, Rplus_opp_r, exp_0. ring.
Qed.
Print Assumptions C56_laguerre_refuted.
(** the measure is skipped when the product of the scaling factors is 1, which is not its square root of the determinant for coordinates
    that are not orthogonal: the coordinates x + y cos(t), y sin(t) have unit basis vectors, and the area of the parallelogram over
    [0, L1] x [0, L2] comes out as L1 L2 instead of L1 L2 sin(t) *)
Theorem C56_skew_refuted : forall t L1 L2 n1 n2 w1 w2 start, 0 < t < PI -> t <> PI / 2 -> 0 < L1 -> 0 < L2 ->
  rsum n1 w1 = 2 -> rsum n2 w2 = 2 -> length start = 2%nat ->
  let b := fun i a => match i, a with 0%nat, 0%nat => 1 | 0%nat, _ => 0 | _, 0%nat => cos t | _, _ => sin t end in
  lin_hi b 0 * lin_hi b 1 = 1 /\ lin_sqrt_det_g b = sin t /\ sin t <> 1 /\
  inner_number 1 [domain_factor L1 2; domain_factor L2 2] [(n1, w1); (n2, w2)] true (fun _ => lin_sqrt_det_g b) (fun _ => 1) start = L1 * L2 /\
  inner_number 1 [domain_factor L1 2; domain_factor L2 2] [(n1, w1); (n2, w2)] false (fun _ => lin_sqrt_det_g b) (fun _ => 1) start = L1 * L2 * sin t.
Proof.
  intros t L1 L2 n1 n2 w1 w2 start Ht Hne H1 H2 S1 S2 Hs b.
  assert (Hsin : 0 < sin t) by (apply sin_gt_0; lra). pose proof (sin2_cos2 t) as SC. unfold Rsqr in SC.
  assert (Hh : lin_hi b 0 * lin_hi b 1 = 1).
  { unfold lin_hi, b. replace (1 * 1 + 0 * 0) with 1 by ring. replace (cos t * cos t + sin t * sin t) with 1 by lra. rewrite sqrt_1. ring. }
  assert (Hd : lin_sqrt_det_g b = sin t).
  { unfold lin_sqrt_det_g, lin_g, b. replace (_ - _) with (sin t * sin t) by (replace ((1 * 1 + 0 * 0) * (cos t * cos t + sin t * sin t) - (1 * cos t + 0 * sin t) * (cos t * 1 + sin t * 0)) with (sin t * sin t) by ring; reflexivity).
    apply sqrt_square. lra. }
  assert (N1 : sin t <> 1).
  { intros E. assert (C : cos t = 0) by nra. apply Hne. apply cos_eq_0_0 in C. destruct C as [k Hk]. rewrite Hk in Ht. pose proof PI_RGT_0.
    assert (k = 0%Z); [|subst k; lra]. assert (-1 < IZR k < 1) as [A B] by (split; nra). change (-1) with (IZR (-1)) in A. change 1 with (IZR 1) in B. apply lt_IZR in A, B. lia. }
  split; [exact Hh|]. split; [exact Hd|]. split; [exact N1|].
  assert (M : forall k, msum [(n1, w1); (n2, w2)] (fun _ => k) = 4 * k).
  { intros k. cbn [msum]. rewrite (gsum_ext_R n1 _ (fun i => (2 * k) * w1 i)); [rewrite gsum_scal, S1; ring|].
    intros i _. rewrite (gsum_ext_R n2 _ (fun j => k * w2 j)) by (intros; ring). rewrite gsum_scal, S2. ring. }
  assert (V : forall k, dx_loop 0 [(n1, w1); (n2, w2)] (fun _ => k) start = 4 * k).
  { intros k. pose proof (dx_loop_msum [(n1, w1); (n2, w2)] [] start (fun _ => k) Hs) as E. cbn [length app] in E. rewrite E. apply M. }
  unfold inner_number, dx_nd, measured, domain_factor. cbn [fold_right]. rewrite !V, Hd. split; field; lra.
Qed.
Print Assumptions C56_skew_refuted.

(** ** examples *)
(** two Lobatto points: the trapezoidal rule; x on [1, 3] integrates to 4 *)
Example C56_example : integral (peval [0; 1]) 1 3 4 /\ degree_below 2 [0; 1] /\
  inner_number1 1 (domain_factor (3 - 1) 2) 2 (cheb_unweighted GL 2) true no_measure (fun j => peval [0; 1] (map_true 1 (-1) (domain_factor (3 - 1) 2) (cheb_point GL 2 j))) = 4.
Proof.
  assert (I : integral (peval [0; 1]) 1 3 4).
  { apply newton_integral; [lra|apply continuity_peval|]. exists (fun x => x * x / 2). split; [|field]. intros x. cbn [peval].
    replace (0 + x * (1 + x * 0)) with ((1 * x + x * 1) * / 2) by field. apply (derivable_pt_lim_mult (fun x => x * x) (fun _ => / 2) x (1 * x + x * 1) 0 ) ||
    (pose proof (derivable_pt_lim_mult (fun x => x) (fun x => x) x 1 1 (derivable_pt_lim_id x) (derivable_pt_lim_id x)) as D;
     pose proof (derivable_pt_lim_scal _ (/ 2) x _ D) as D2; unfold mult_fct, mult_real_fct in D2;
     replace ((1 * x + x * 1) * / 2) with (/ 2 * (1 * x + x * 1)) by ring; intros e He; destruct (D2 e He) as [d Hd]; exists d; intros h Hh Hhd; specialize (Hd h Hh Hhd);
     replace (((x + h) * (x + h) / 2 - x * x / 2) / h) with ((/ 2 * ((x + h) * (x + h)) - / 2 * (x * x)) / h) by (unfold Rdiv; ring); exact Hd). }
  split; [exact I|]. split; [unfold degree_below; cbn; lia|].
  destruct (C56_chebyshev GL 2 1 3 [0; 1] 1 (le_n 2) ltac:(lra) ltac:(unfold degree_below; cbn; lia)) as [v [Hv E]]. rewrite E, (integral_unique _ _ _ _ _ Hv I). ring.
Qed.
(** the Gauss-Laguerre rule with one point: x = 1, w = 1 *)
Example C56_laguerre_example : rsum 1 (fun _ => 1) = 1 /\ inner_number1 1 1 1 (laguerre_weights false (fun _ => 1) (fun _ => 1)) true no_measure (fun _ => exp (- (1))) = exp (- (1)).
Proof. rewrite inner1_val. unfold laguerre_weights. cbn [gsum]. split; field. Qed.
(** the Legendre polynomials 1, x on the points -1/sqrt 3, 1/sqrt 3 *)
Example C56_jacobi_example : let P := fun i => match i with 0%nat => [1] | _ => [0; 1] end in
  let x := fun j => match j with 0%nat => - sqrt (/ 3) | _ => sqrt (/ 3) end in let h := fun i => match i with 0%nat => 2 | _ => 2 / 3 end in
  forall i l, (i < 2)%nat -> (l < 2)%nat -> rsum 2 (fun j => 1 * (peval (P i) (x j) * peval (P l) (x j))) = if Nat.eqb i l then h i else 0.
Proof.
  intros P x h i l Hi Hl. assert (S3 : sqrt (/ 3) * sqrt (/ 3) = / 3) by (apply sqrt_sqrt; lra).
  destruct i as [|[|i]]; [| |lia]; (destruct l as [|[|l]]; [| |lia]); cbn [gsum Nat.eqb P x h peval]; try ring.
  replace (0 + 1 * ((0 + - sqrt (/ 3) * (1 + - sqrt (/ 3) * 0)) * (0 + - sqrt (/ 3) * (1 + - sqrt (/ 3) * 0))) + 1 * ((0 + sqrt (/ 3) * (1 + sqrt (/ 3) * 0)) * (0 + sqrt (/ 3) * (1 + sqrt (/ 3) * 0)))) with (2 * (sqrt (/ 3) * sqrt (/ 3))) by ring.
  rewrite S3. field.
Qed.
