(** GenProperties2.v -- C53, the dual test functions of the Jacobi polynomials and of both Chebyshev families
    (chebyshev/bases.py and chebyshevu/bases.py, class Phi1 .. Phi6; matrixbase.py 2066-2131). *)
From Coq Require Import Reals ZArith List Bool Arith Lia Lra.
From Verif Require Import Base Fld SparseModel SparseSpec RPoly StencilModel StencilSpec StencilProofs MatrixSpec MatrixProofs ChebMatrixProofs UTransSpec UTransProofs2
  JacobiModel GenModel GenSpec GenProofs GenProofs2 GenProofs3 GenProofs4 GenProofs5 GenProofs6 GenProofs7 GenProofs8 GenProofs9.
Import ListNotations.
Local Open Scope R_scope.

(** *** any Jacobi polynomials, any scaling, any k: the functions whose coefficient of Q_i is entry (m+k, i) of the matrix b^k
    divided by the norm of Q_i -- the definition the stencils of the classes Phi_k are simplified from
    (matpow(b, k, alf, bet, n+k, i, gn) / h(alf, bet, i, 0, gn), written as a comment in every class) -- are dual *)
Theorem C53_jacobi_dual : forall f g a b h k dim, is_form f -> -1 < a -> -1 < b -> (forall n, g n <> 0) -> (0 < k)%nat ->
  (forall i j, f (jacQ g a b i) (jacQ g a b j) = if (i =? j)%nat then h i else 0) -> (forall i, h i <> 0) ->
  dual f (jacQ g a b) (phi_of (jacQ g a b) (fun l i j => g j / g i * pmat_b a b l i j) h k) k dim.
Proof. intros. apply jac_dual; assumption. Qed.
Print Assumptions C53_jacobi_dual.

(** *** Chebyshev polynomials of the first kind: Phi1, Phi2, Phi3, Phi4 and Phi6 *)
Theorem C53_chebyshev_dual : forall k cls N, In (k, cls) T_classes ->
  forall n m, (m < N - 2 * k)%nat -> cheb_inner (fun x => deriv_at k (chebT n) x) (fun x => peval (fn chebT (space_of cls N) m) x) (if (n =? m + k)%nat then 1 else 0).
Proof.
  intros k cls N H n m Hm. rewrite <- (T_class_dual k cls N H n m Hm).
  pose proof (cip_integral None (dn k (chebT n)) (fn chebT (space_of cls N) m)) as I. unfold cheb_inner_m in I. cbn [times] in I.
  unfold cheb_inner in *. eapply integral_ext; [|exact I]. intros x. cbn beta. unfold deriv_at. cbn [mval]. ring.
Qed.
Print Assumptions C53_chebyshev_dual.
Theorem C53_chebyshev_phi : forall k cls N trial s ms, In (k, cls) T_classes -> (2 * k <= N)%nat -> (s <= k)%nat ->
  exists A, assemble_phi (space_of cls N) trial s (T_am k) T_bm ms = Some A /\
    forall i j, (i < N - 2 * k)%nat -> cheb_inner_m (mval (Some ms)) (fun x => deriv_at s (fn chebT trial j) x) (fun x => peval (fn chebT (space_of cls N) i) x) (A i j).
Proof.
  intros k cls N trial s ms H HN Hs. destruct (Nat.eq_dec (N - 2 * k) 0) as [Z|NZ].
  - assert (exists A, assemble_phi (space_of cls N) trial s (T_am k) T_bm ms = Some A) as [A HA].
    { unfold assemble_phi. destruct (Nat.ltb_spec ((g_N (space_of cls N) - g_dim (space_of cls N)) / 2) s) as [L|L]; [|eexists; reflexivity]. exfalso.
      assert (List.length (sc_bcs cls) = (2 * k)%nat) as E by (destruct H as [H|[H|[H|[H|[H|[]]]]]]; injection H as <- <-; reflexivity).
      cbn [g_N g_dim space_of] in L. rewrite E in L. replace (N - (N - 2 * k))%nat with (k * 2)%nat in L by lia. rewrite Nat.div_mul in L by lia. lia. }
    exists A. split; [exact HA|]. intros; lia.
  - destruct (T_comb k cls N 0 H ltac:(lia)) as [L _]. pose proof (T_class_k k cls H) as Hk.
    destruct (phi_class cip chebT (T_am k) T_bm k cls N trial s ms cip_form (T_dpowers k ltac:(lia)) T_integrates ltac:(lia) L (T_class_dual k cls N H) HN Hs) as (A & HA & V).
    exists A. split; [exact HA|]. intros i j Hi. rewrite V by exact Hi. apply (cip_integral (Some ms) (dn s (fn chebT trial j)) (fn chebT (space_of cls N) i)).
Qed.
Print Assumptions C53_chebyshev_phi.

(** *** Chebyshev polynomials of the second kind, weight sqrt(1-x^2): the spaces that are not scaled *)
Theorem C53_chebyshevu_dual : forall k cls N, In (k, cls) U_classes ->
  forall n m, (m < N - 2 * k)%nat -> chebu_inner (fun x => deriv_at k (chebU n) x) (fun x => peval (fn chebU (space_of cls N) m) x) (if (n =? m + k)%nat then 1 else 0).
Proof.
  intros k cls N H n m Hm. rewrite <- (U_class_dual k cls N H n m Hm).
  pose proof (uip_integral None (dn k (chebU n)) (fn chebU (space_of cls N) m)) as I. unfold chebu_inner_m in I. cbn [times] in I.
  unfold chebu_inner in *. eapply integral_ext; [|exact I]. intros x. cbn beta. unfold deriv_at. cbn [mval]. ring.
Qed.
Print Assumptions C53_chebyshevu_dual.
Theorem C53_chebyshevu_phi : forall k cls N trial s ms, In (k, cls) U_classes -> (2 * k < N)%nat -> (s <= k)%nat ->
  exists A, assemble_phi (space_of cls N) trial s (U_am k) U_bm ms = Some A /\
    forall i j, (i < N - 2 * k)%nat -> chebu_inner_m (mval (Some ms)) (fun x => deriv_at s (fn chebU trial j) x) (fun x => peval (fn chebU (space_of cls N) i) x) (A i j).
Proof.
  intros k cls N trial s ms H HN Hs.
  destruct (U_comb k cls N 0 H ltac:(lia)) as [L _]. pose proof (U_class_k k cls H) as Hk.
  destruct (phi_class uip chebU (U_am k) U_bm k cls N trial s ms uip_form (U_dpowers k ltac:(lia)) U_integrates ltac:(lia) L (U_class_dual k cls N H) ltac:(lia) Hs) as (A & HA & V).
  exists A. split; [exact HA|]. intros i j Hi. rewrite V by exact Hi. apply (uip_integral (Some ms) (dn s (fn chebU trial j)) (fn chebU (space_of cls N) i)).
Qed.
Print Assumptions C53_chebyshevu_phi.
(** scaled=True (chebyshevu Phi1 and Phi2): the generated matrix does not see the scaling, row i is i+k+1 times the integrals,
    so a non-zero entry is never the integral it stands for *)
Theorem C53_phi_scaled_refuted : forall k c cs N trial s ms, In (k, (c, cs)) U_scaled -> (2 * k < N)%nat -> (s <= k)%nat ->
  exists A, assemble_phi (space_of cs N) trial s (U_am k) U_bm ms = Some A /\
    forall i j, (i < N - 2 * k)%nat ->
      chebu_inner_m (mval (Some ms)) (fun x => deriv_at s (fn chebU trial j) x) (fun x => peval (fn chebU (space_of cs N) i) x) (A i j / (INR i + INR k + 1)) /\
      (A i j <> 0 -> A i j / (INR i + INR k + 1) <> A i j).
Proof.
  intros k c cs N trial s ms H HN Hs.
  destruct (U_scaled_fn k c cs N 0 H ltac:(lia)) as (Hc & Ls & _). destruct (U_comb k c N 0 Hc ltac:(lia)) as [L _].
  pose proof (U_class_k k c Hc) as Hk.
  destruct (phi_class uip chebU (U_am k) U_bm k c N trial s ms uip_form (U_dpowers k ltac:(lia)) U_integrates ltac:(lia) L (U_class_dual k c N Hc) ltac:(lia) Hs) as (A & HA & V).
  exists A. split; [rewrite (scaled_same c cs) by congruence; exact HA|]. intros i j Hi.
  pose proof (pos_INR i) as Pi. assert (1 <= INR k) as Pk by (apply (le_INR 1); lia). split.
  - assert (A i j / (INR i + INR k + 1) = uip (times (Some ms) (dn s (fn chebU trial j))) (fn chebU (space_of cs N) i)) as ->.
    { rewrite V by exact Hi. destruct (U_scaled_fn k c cs N i H Hi) as (_ & _ & E).
      rewrite (f_ext uip uip_form _ (times (Some ms) (dn s (fn chebU trial j))) (fn chebU (space_of cs N) i) (pscale (/ (INR i + INR k + 1)) (fn chebU (space_of c N) i)) (fun _ => eq_refl) E).
      rewrite (f_pscale_r uip uip_form). unfold Rdiv. ring. }
    apply (uip_integral (Some ms) (dn s (fn chebU trial j)) (fn chebU (space_of cs N) i)).
  - intros Hn E. apply Hn. assert (A i j * (INR i + INR k) = 0) as Z by (apply (f_equal (fun z => z * (INR i + INR k + 1))) in E; field_simplify in E; lra).
    apply Rmult_integral in Z. destruct Z; lra.
Qed.
Print Assumptions C53_phi_scaled_refuted.

(** non-vacuity: entry (0, 1) of the matrix of (U_1', phi_0), phi_0 of Phi1 with 6 points, is 1 (row 0, column 1) and the scaled
    space has the same entry, although phi_0 is half as large *)
Example C53_phi_scaled_instance : In (1%nat, (chebyshevu_Phi1, chebyshevu_Phi1_scaled)) U_scaled /\ In (2%nat, chebyshev_Phi2) T_classes /\
  exists A, assemble_phi_orth (space_of chebyshevu_Phi1_scaled 6) 6 1 (U_am 1) U_bm [(1, 0%nat)] = Some A /\ A 0%nat 1%nat = 1.
Proof.
  split; [left; reflexivity|]. split; [right; left; reflexivity|]. eexists. split; [reflexivity|].
  unfold banded, Lsum, Lmat. cbn -[INR]. lra.
Qed.
