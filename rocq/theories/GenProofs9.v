(** GenProofs9.v -- the classes of both Chebyshev families, and the scaled ones of the second kind. *)
From Coq Require Import Reals ZArith List Bool Arith Lia Lra.
From Verif Require Import Base Fld SparseModel SparseSpec RPoly StencilModel StencilSpec StencilProofs StencilProofs8 MatrixSpec MatrixProofs ChebMatrixProofs UTransSpec UTransProofs2
  JacobiModel JacobiProofs2 JacobiProofs3 JacobiProofs4 GenModel GenSpec GenProofs GenProofs2 GenProofs3 GenProofs4 GenProofs5 GenProofs6 GenProofs7 GenProofs8.
Import ListNotations.
Local Open Scope R_scope.
Notation rsum := (gsum 0 Rplus).

Lemma fn_classP P cls N k m x :
  NoDup (map fst (sc_stencil cls)) -> Forall (fun it => (fst it <= List.length (sc_bcs cls))%nat) (sc_stencil cls) ->
  (k < N - List.length (sc_bcs cls))%nat ->
  deriv_at m (fn P (space_of cls N) k) x = stencil_sum (sc_stencil cls) (INR k) (fun o => deriv_at m (P (o + k)%nat) x).
Proof. intros H1 H2 H3. exact (basis_deriv P cls N k m x H1 H2 H3). Qed.
(** chebyshev.Phi_k and chebyshevu.Phi_k (not scaled) *)
Definition T_classes : list (nat * stencil_class) := [(1%nat, chebyshev_Phi1); (2%nat, chebyshev_Phi2); (3%nat, chebyshev_Phi3); (4%nat, chebyshev_Phi4); (6%nat, chebyshev_Phi6)].
Definition U_classes : list (nat * stencil_class) := [(1%nat, chebyshevu_Phi1); (2%nat, chebyshevu_Phi2); (3%nat, chebyshevu_Phi3); (4%nat, chebyshevu_Phi4); (6%nat, chebyshevu_Phi6)].
Ltac class_case P m x Hm :=
  (split; [reflexivity|]); intros x;
  match goal with |- peval (fn P (space_of ?c ?n) m) x = _ => change (peval (fn P (space_of c n) m) x) with (deriv_at 0 (fn P (space_of c n) m) x);
    rewrite (fn_classP P c n m 0 x); [|solve [nodup]|solve [nodup]|exact Hm] end;
  unfold comb2P; rewrite peval_comb; unfold deriv_at; unfold cT, cU;
  cbn [sc_stencil chebyshev_Phi1 chebyshev_Phi2 chebyshev_Phi3 chebyshev_Phi4 chebyshev_Phi6 chebyshevu_Phi1 chebyshevu_Phi2 chebyshevu_Phi1_scaled chebyshevu_Phi2_scaled chebyshevu_Phi3 chebyshevu_Phi4 chebyshevu_Phi6];
  cbn [stencil_sum sval dn gsum nth listT listU Nat.mul];
  rewrite ?(Nat.add_comm _ m); cbn [Nat.add Nat.mul]; rewrite ?Nat.add_0_r;
  repeat match goal with |- context [peval (P ?a) x] => let v := fresh "v" in set (v := peval (P a) x); clearbody v end; ring.
Lemma T_comb k cls N m : In (k, cls) T_classes -> (m < N - 2 * k)%nat ->
  List.length (sc_bcs cls) = (2 * k)%nat /\ forall x, peval (fn chebT (space_of cls N) m) x = peval (comb2P chebT m (S k) (cT k m)) x.
Proof.
  intros H Hm. destruct H as [H|[H|[H|[H|[H|[]]]]]]; injection H as <- <-.
  - class_case chebT m x Hm.
  - class_case chebT m x Hm.
  - class_case chebT m x Hm.
  - class_case chebT m x Hm.
  - class_case chebT m x Hm.
Qed.
Lemma U_comb k cls N m : In (k, cls) U_classes -> (m < N - 2 * k)%nat ->
  List.length (sc_bcs cls) = (2 * k)%nat /\ forall x, peval (fn chebU (space_of cls N) m) x = peval (comb2P chebU m (S k) (cU k m)) x.
Proof.
  intros H Hm. destruct H as [H|[H|[H|[H|[H|[]]]]]]; injection H as <- <-.
  - class_case chebU m x Hm.
  - class_case chebU m x Hm.
  - class_case chebU m x Hm.
  - class_case chebU m x Hm.
  - class_case chebU m x Hm.
Qed.
Lemma T_class_k k cls : In (k, cls) T_classes -> (1 <= k <= 6)%nat.
Proof. intros [H|[H|[H|[H|[H|[]]]]]]; injection H as <- <-; lia. Qed.
Lemma U_class_k k cls : In (k, cls) U_classes -> (1 <= k <= 6)%nat.
Proof. intros [H|[H|[H|[H|[H|[]]]]]]; injection H as <- <-; lia. Qed.
Lemma T_class_dual k cls N : In (k, cls) T_classes -> dual cip chebT (fn chebT (space_of cls N)) k (N - 2 * k).
Proof.
  intros H n m Hm. destruct (T_comb k cls N m H Hm) as [_ E]. rewrite <- (T_dual k (T_class_k k cls H) n m).
  apply (f_ext cip cip_form); [reflexivity|exact E].
Qed.
Lemma U_class_dual k cls N : In (k, cls) U_classes -> dual uip chebU (fn chebU (space_of cls N)) k (N - 2 * k).
Proof.
  intros H n m Hm. destruct (U_comb k cls N m H Hm) as [_ E]. rewrite <- (U_dual k (U_class_k k cls H) n m).
  apply (f_ext uip uip_form); [reflexivity|exact E].
Qed.
(** the generated matrices, for any family *)
Lemma phi_class f P am bm k cls N trial s ms : is_form f -> dpowers P k am -> integrates P bm -> (0 < k)%nat -> List.length (sc_bcs cls) = (2 * k)%nat ->
  dual f P (fn P (space_of cls N)) k (N - 2 * k) -> (2 * k <= N)%nat -> (s <= k)%nat ->
  exists A, assemble_phi (space_of cls N) trial s am bm ms = Some A /\
    forall i j, (i < N - 2 * k)%nat -> A i j = f (times (Some ms) (dn s (fn P trial j))) (fn P (space_of cls N) i).
Proof.
  intros F HA HB Hk L HD HN Hs.
  assert (g_dim (space_of cls N) = (N - 2 * k)%nat) as D by (cbn [g_dim space_of]; rewrite L; reflexivity).
  assert (((g_N (space_of cls N) - g_dim (space_of cls N)) / 2)%nat = k) as E.
  { rewrite D. cbn [g_N space_of]. replace (N - (N - 2 * k))%nat with (k * 2)%nat by lia. apply Nat.div_mul. lia. }
  pose proof (phi_ok f P (space_of cls N) am bm s ms F) as T. rewrite E, D in T. apply (T HA HB HD Hs trial).
Qed.
(** scaled=True: function m is divided by m+k+1, the assembled matrix is that of the space that is not scaled *)
Definition U_scaled : list (nat * (stencil_class * stencil_class)) := [(1%nat, (chebyshevu_Phi1, chebyshevu_Phi1_scaled)); (2%nat, (chebyshevu_Phi2, chebyshevu_Phi2_scaled))].
Lemma U_scaled_fn k c cs N m : In (k, (c, cs)) U_scaled -> (m < N - 2 * k)%nat ->
  In (k, c) U_classes /\ List.length (sc_bcs cs) = (2 * k)%nat /\ forall x, peval (fn chebU (space_of cs N) m) x = peval (pscale (/ (INR m + INR k + 1)) (fn chebU (space_of c N) m)) x.
Proof.
  assert (forall cls x, deriv_at 0 (fn chebU (space_of cls N) m) x = peval (fn chebU (space_of cls N) m) x) as D0 by reflexivity.
  assert (C1 : forall c cs, List.length (sc_bcs c) = (2 * k)%nat -> List.length (sc_bcs cs) = (2 * k)%nat ->
    NoDup (map fst (sc_stencil c)) -> NoDup (map fst (sc_stencil cs)) -> Forall (fun it => (fst it <= 2 * k)%nat) (sc_stencil c) -> Forall (fun it => (fst it <= 2 * k)%nat) (sc_stencil cs) ->
    (m < N - 2 * k)%nat ->
    (forall F, stencil_sum (sc_stencil cs) (INR m) F = / (INR m + INR k + 1) * stencil_sum (sc_stencil c) (INR m) F) ->
    forall x, peval (fn chebU (space_of cs N) m) x = peval (pscale (/ (INR m + INR k + 1)) (fn chebU (space_of c N) m)) x).
  { intros c0 cs0 L1 L2 N1 N2 F1 F2 Hm HF x. rewrite peval_pscale, <- (D0 c0 x), <- (D0 cs0 x).
    rewrite (fn_classP chebU c0 N m 0 x N1), (fn_classP chebU cs0 N m 0 x N2); rewrite ?L1, ?L2; auto. }
  pose proof (pos_INR m). pose proof PI_RGT_0.
  intros [H'|[H'|[]]] Hm; injection H' as <- <- <-; (split; [cbn; tauto|]); (split; [reflexivity|]); apply C1; try reflexivity; try exact Hm; try solve [nodup];
  intros F; cbn [stencil_sum sc_stencil sval chebyshevu_Phi1 chebyshevu_Phi1_scaled chebyshevu_Phi2 chebyshevu_Phi2_scaled INR]; field; repeat split; lra.
Qed.
Lemma scaled_same c cs N trial s am bm ms : List.length (sc_bcs c) = List.length (sc_bcs cs) ->
  assemble_phi (space_of cs N) trial s am bm ms = assemble_phi (space_of c N) trial s am bm ms.
Proof. intros E. unfold assemble_phi. cbn [g_N g_dim space_of]. rewrite E. reflexivity. Qed.
