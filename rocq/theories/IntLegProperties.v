(** IntLegProperties.v -- C56 for the Legendre family: legendre/bases.py 121-136 with the points and
    weights of C61, no hypothesis about orthogonality. *)
From Coq Require Import Reals Lra Lia List Arith Bool ZArith.
From Verif Require Import Base RPoly MatrixSpec MatrixProofs LegMatrixModel ChebQuadModel ChebMatrixProofs ChebTransModel ChebTransProofs StencilProofs UTransModel IntModel IntSpec IntProofs IntProofs2 IntProperties
  LobModel LobSpec LobProofs LobProofs2 LHGauss LobProperties.
Import ListNotations.
Local Open Scope R_scope.

Lemma exact_below_ref d n x w : exact_below d n x w -> exact_ref n d x w.
Proof.
  intros H m Hm.
  destruct (deglt_three_term (fun _ => 2) (fun _ => 0) (fun _ => 1) [0; 1] m) as (q & Lq & Eq).
  { exists [0; 1]. split; [cbn; lia|reflexivity]. }
  fold (chebT m) in Eq. change (three_term (fun _ => 2) (fun _ => 0) (fun _ => 1) [0; 1] m) with (chebT m) in Eq.
  specialize (H q ltac:(lia)).
  assert (I : integral (peval q) (-1) 1 (pint (chebT m))).
  { apply newton_integral; [lra|apply continuity_peval|]. destruct (pint_newton (chebT m)) as (F & HF & V).
    exists F. split; [|exact V]. intros y. rewrite <- Eq. apply HF. }
  rewrite <- (integral_unique _ _ _ _ _ H I). apply gsum_ext_R. intros j _. rewrite Eq. reflexivity.
Qed.

(** inner(c, u) is c times the integral over the domain [a, b] for every polynomial of degree below 2N with N Gauss points and of degree
    below 2N-2 with N Gauss-Lobatto points *)
Theorem C56_legendre_gauss : forall N x a b p c, (0 < N)%nat -> gauss_points N x -> a < b -> degree_below (2 * N) p ->
  exists v, integral (peval p) a b v /\
    inner_number1 c (domain_factor (b - a) 2) N (lg_w N x) true (fun _ => 1)
      (fun j => peval p (map_true a (-1) (domain_factor (b - a) 2) (x j))) = c * v.
Proof.
  intros N x a b p c HN G Hab Hp. eexists. split; [|apply inner1_val].
  apply (exact_domain N (2 * N)); auto; [|lia]. apply exact_below_ref. apply lg_exact; auto.
Qed.
Print Assumptions C56_legendre_gauss.
Theorem C56_legendre_lobatto : forall N x a b p c, (2 <= N)%nat -> lobatto_points N x -> a < b -> degree_below (2 * N - 2) p ->
  exists v, integral (peval p) a b v /\
    inner_number1 c (domain_factor (b - a) 2) N (lob_w N x) true (fun _ => 1)
      (fun j => peval p (map_true a (-1) (domain_factor (b - a) 2) (x j))) = c * v.
Proof.
  intros N x a b p c HN G Hab Hp. eexists. split; [|apply inner1_val].
  apply (exact_domain N (2 * N - 2)); auto; [|lia]. apply exact_below_ref. apply lob_exact; auto.
Qed.
Print Assumptions C56_legendre_lobatto.

(** the points exist for every N; two Gauss points on [0, 3] and x^3: c * 81/4 *)
Theorem C56_legendre_points : forall N, (exists x, gauss_points N x) /\ ((2 <= N)%nat -> exists x, lobatto_points N x).
Proof.
  intros N. split.
  - destruct (C61_gauss_zeros N) as (x & G & _). exists x. exact G.
  - intros HN. destruct (C61_lobatto_zeros N HN) as (y & H & _). exists (lob_x N y). apply (C61_lobatto N y HN H).
Qed.
Print Assumptions C56_legendre_points.
Example C56_legendre_example : exists x, gauss_points 2 x /\
  inner_number1 5 (domain_factor (3 - 0) 2) 2 (lg_w 2 x) true (fun _ => 1)
    (fun j => peval [0; 0; 0; 1] (map_true 0 (-1) (domain_factor (3 - 0) 2) (x j))) = 5 * (81 / 4).
Proof.
  destruct (C56_legendre_points 2) as [[x G] _]. exists x. split; [exact G|].
  destruct (C56_legendre_gauss 2 x 0 3 [0; 0; 0; 1] 5 ltac:(lia) G ltac:(lra) ltac:(unfold degree_below; cbn; lia)) as (v & I & E).
  rewrite E. f_equal. apply (integral_unique _ _ _ _ _ I).
  apply newton_integral; [lra|apply continuity_peval|]. exists (peval [0; 0; 0; 0; / 4]). split; [|cbn; field].
  intros y. replace (peval [0; 0; 0; 1] y) with (peval (pderiv [0; 0; 0; 0; / 4]) y) by (cbn; field). apply pderiv_correct.
Qed.
