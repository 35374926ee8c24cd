(** ChebUMatProofs.v -- the matrices of chebyshevu/matrices.py, from the duality of chebyshev Phi2:  phi^T_2 = (1-x^2) phi^U_1 / (k+2). *)
From Coq Require Import Reals ZArith List Bool Arith Lia Lra.
From Verif Require Import Base Fld SparseModel SparseSpec RPoly StencilModel StencilModel2 StencilSpec StencilProofs StencilProofs8 MatrixSpec MatrixProofs LegMatrixModel LegMatrixProofs LegMatrixProofs2 ChebMatrixProofs UTransModel UTransSpec UTransProofs2
  JacobiModel GenModel GenSpec GenProofs GenProofs2 GenProofs3 GenProofs4 GenProofs5 GenProofs6 GenProofs7 GenProofs8 GenProofs9 ChebUMatModel ChebUMatSpec.
Import ListNotations.
Local Open Scope R_scope.
Notation rsum := (gsum 0 Rplus).

(** (1 - x^2) U_n = (T_n - T_(n+2)) / 2 *)
Lemma oneU n x : (1 - x ^ 2) * peval (chebU n) x = (peval (chebT n) x - peval (chebT (S (S n))) x) / 2.
Proof.
  enough ((1 - x ^ 2) * peval (chebU n) x = (peval (chebT n) x - peval (chebT (S (S n))) x) / 2 /\
          (1 - x ^ 2) * peval (chebU (S n)) x = (peval (chebT (S n)) x - peval (chebT (S (S (S n)))) x) / 2) as [H _] by exact H.
  induction n as [|n [H1 H2]].
  - split; cbn; field.
  - split; [exact H2|].
    assert (U : peval (chebU (S (S n))) x = 2 * x * peval (chebU (S n)) x - peval (chebU n) x) by (apply chebU_SS).
    assert (T : forall m, peval (chebT (S (S m))) x = 2 * x * peval (chebT (S m)) x - peval (chebT m) x) by (intros m; apply chebT_SS).
    rewrite U, (T (S (S n))). rewrite (T n) in H1. rewrite (T (S n)) in H2 |- *. rewrite (T n) in H2 |- *.
    replace ((1 - x ^ 2) * (2 * x * peval (chebU (S n)) x - peval (chebU n) x)) with (2 * x * ((1 - x ^ 2) * peval (chebU (S n)) x) - (1 - x ^ 2) * peval (chebU n) x) by ring.
    rewrite H1, H2. field.
Qed.
Definition phi2 (k : nat) : poly := comb2P chebT k 3 (cT 2 k).
Definition usc (scaled : bool) (k : nat) : R := if scaled then 1 else INR k + 2.
Lemma phi1_phi2 scaled N k x : (k < N - 2)%nat -> (1 - x ^ 2) * peval (ufn scaled UPhi1 N k) x = usc scaled k * peval (phi2 k) x.
Proof.
  intros Hk. pose proof (pos_INR k) as P. pose proof PI_RGT_0 as Q.
  assert (peval (phi2 k) x = / (2 * PI * (INR k + 1) * (INR k + 2)) * peval (chebT k) x - / (PI * (INR k + 1) * (INR k + 3)) * peval (chebT (S (S k))) x
    + / (2 * PI * (INR k + 2) * (INR k + 3)) * peval (chebT (S (S (S (S k))))) x) as ->.
  { unfold phi2, comb2P. rewrite peval_comb. unfold cT. cbn [gsum nth listT Nat.mul]. replace (k + (0 + (0 + 0)))%nat with k by lia. replace (k + (1 + (1 + 0)))%nat with (S (S k)) by lia.
    replace (k + (2 + (2 + 0)))%nat with (S (S (S (S k)))) by lia. replace (k + 2)%nat with (S (S k)) by lia. replace (k + 4)%nat with (S (S (S (S k)))) by lia. field. repeat split; try lra; neq0. }
  unfold usc. destruct scaled; cbn [ufn].
  - change (peval (fn chebU (space_of chebyshevu_Phi1_scaled N) k) x) with (deriv_at 0 (fn chebU (space_of chebyshevu_Phi1_scaled N) k) x).
    rewrite (fn_classP chebU chebyshevu_Phi1_scaled N k 0 x); [|solve [nodup]|solve [nodup]|exact Hk].
    cbn [stencil_sum sc_stencil sval chebyshevu_Phi1_scaled Nat.add]. unfold deriv_at. cbn [dn].
    transitivity (1 / (PI * (INR k + 1) * (INR k + 2)) * ((1 - x ^ 2) * peval (chebU k) x) + - 1 / (PI * (INR k + 3) * (INR k + 2)) * ((1 - x ^ 2) * peval (chebU (S (S k))) x)); [ring|].
    rewrite !oneU; field. repeat split; lra.
  - change (peval (fn chebU (space_of chebyshevu_Phi1 N) k) x) with (deriv_at 0 (fn chebU (space_of chebyshevu_Phi1 N) k) x).
    rewrite (fn_classP chebU chebyshevu_Phi1 N k 0 x); [|solve [nodup]|solve [nodup]|exact Hk].
    cbn [stencil_sum sc_stencil sval chebyshevu_Phi1 Nat.add]. unfold deriv_at. cbn [dn].
    transitivity (1 / (PI * (INR k + 1)) * ((1 - x ^ 2) * peval (chebU k) x) + - 1 / (PI * (INR k + 3)) * ((1 - x ^ 2) * peval (chebU (S (S k))) x)); [ring|].
    rewrite !oneU; field. repeat split; lra.
Qed.
Lemma uip_phi scaled N k p : (k < N - 2)%nat -> uip p (ufn scaled UPhi1 N k) = usc scaled k * cip p (phi2 k).
Proof.
  intros Hk. unfold uip. rewrite <- (f_pscale_r cip cip_form). apply (f_ext cip cip_form); [reflexivity|].
  intros x. rewrite peval_oneminus, peval_pscale. apply phi1_phi2, Hk.
Qed.
(** the trial functions *)
Definition tcls (d : bool) : stencil_class := if d then chebyshev_ShenDirichlet else chebyshev_ShenNeumann.
Definition tco (d : bool) (j : nat) : R := if d then -1 else - (INR j / (INR j + 2)) ^ 2.
Definition tfn (d : bool) (N j : nat) : poly := fn chebT (space_of (tcls d) N) j.
Lemma tfn_val d N j r x : (j < N - 2)%nat -> deriv_at r (tfn d N j) x = deriv_at r (chebT j) x + tco d j * deriv_at r (chebT (S (S j))) x.
Proof.
  intros Hj. unfold tfn, tcls, tco. destruct d.
  - rewrite (fn_classP chebT chebyshev_ShenDirichlet N j r x); [|solve [nodup]|solve [nodup]|exact Hj]. cbn [stencil_sum sc_stencil sval chebyshev_ShenDirichlet Nat.add]. ring.
  - rewrite (fn_classP chebT chebyshev_ShenNeumann N j r x); [|solve [nodup]|solve [nodup]|exact Hj]. cbn [stencil_sum sc_stencil sval chebyshev_ShenNeumann Nat.add]. ring.
Qed.
Lemma tfn_cip d N j r q : (j < N - 2)%nat -> cip (dn r (tfn d N j)) q = cip (dn r (chebT j)) q + tco d j * cip (dn r (chebT (S (S j)))) q.
Proof.
  intros Hj. rewrite <- (f_pscale_l cip cip_form), <- (f_padd_l cip cip_form). apply (f_ext cip cip_form); [|reflexivity].
  intros x. rewrite peval_padd, peval_pscale. apply (tfn_val d N j r x Hj).
Qed.
(** mass matrices *)
Lemma phi2_orth n k : n <> k -> n <> (k + 2)%nat -> n <> (k + 4)%nat -> cip (chebT n) (phi2 k) = 0.
Proof.
  intros H0 H1 H2. unfold phi2, comb2P. rewrite (f_pcomb_r cip cip_form). cbn [gsum Nat.mul]. rewrite !cip_orth.
  repeat match goal with |- context [(n =? ?b)%nat] => destruct (Nat.eqb_spec n b); [lia|] end. ring.
Qed.
Lemma L_val N k n : (n < N)%nat -> Lmat 2 0 2 (N - 2) N (T_am 2) T_bm k n = cip (chebT n) (phi2 k).
Proof.
  intros Hn. assert (dual cip chebT phi2 2 (S k)) as HD by (intros a b _; apply (T_dual 2 ltac:(lia) a b)).
  exact (Lmat_ok cip chebT phi2 2 (S k) (T_am 2) T_bm cip_form (T_dpowers 2 ltac:(lia)) T_integrates HD 0 0 (N - 2) N k n ltac:(lia) ltac:(lia) Hn).
Qed.
Definition umat (scaled d : bool) (N : nat) : mat :=
  mmul N (fun i j => (if scaled then 1 else INR i + 2) * Lmat 2 0 2 (N - 2) N (T_am 2) T_bm i j) (tr (stencil (space_of (tcls d) N))).
Lemma umat_val scaled d N k j : umat scaled d N k j = usc scaled k * cip (tfn d N j) (phi2 k).
Proof.
  unfold umat, mmul, tr, tfn, fn. rewrite (f_pcomb_l cip cip_form), <- sum_scal. cbn [g_N space_of].
  apply sum_ext. intros n Hn. rewrite L_val by exact Hn. unfold usc. ring.
Qed.
Lemma umat_zero scaled d N k j : (j < N - 2)%nat -> (j + 2)%nat <> k -> j <> k -> j <> (k + 2)%nat -> j <> (k + 4)%nat -> umat scaled d N k j = 0.
Proof.
  intros Hj H0 H1 H2 H3. rewrite umat_val. rewrite (tfn_cip d N j 0 (phi2 k) Hj : cip (tfn d N j) (phi2 k) = _). cbn [dn].
  rewrite !phi2_orth by lia. ring.
Qed.
Lemma u_BP1_entry scaled d N k j : (k < N - 2)%nat -> (j < N - 2)%nat ->
  mat_entry RFld (u_BP1 scaled (tcls d) N) k j = umat scaled d N k j.
Proof.
  intros Hk Hj. unfold u_BP1. change (mmul N _ _) with (umat scaled d N). pose proof (umat_zero scaled d N k j Hj) as Z.
  entry. set (M := umat scaled d N) in *. clearbody M.
  destruct (le_lt_dec k j) as [L|L].
  - above j k e. destruct (Nat.eq_dec e 0) as [->|]; [|destruct (Nat.eq_dec e 2) as [->|]; [|destruct (Nat.eq_dec e 4) as [->|]]];
    try (rewrite Z by lia); decide_nat; cbn; rewrite ?Rmult_1_l, ?Rmult_1_r; try (f_equal; lia); try ring.
  - above k j e. destruct (Nat.eq_dec e 2) as [->|]; try (rewrite Z by lia); decide_nat; cbn; rewrite ?Rmult_1_l, ?Rmult_1_r; try (f_equal; lia); try ring.
Qed.
(** the integrals *)
Lemma uip_int p q : chebu_inner (peval p) (peval q) (uip p q).
Proof.
  pose proof (uip_integral None p q) as I. unfold chebu_inner_m in I. cbn [times] in I.
  unfold chebu_inner in *. eapply integral_ext; [|exact I]. intros x. cbn beta. cbn [mval]. ring.
Qed.
Lemma entry_int d N scaled r k j v : (k < N - 2)%nat -> v = usc scaled k * cip (dn r (tfn d N j)) (phi2 k) ->
  chebu_inner (fun x => deriv_at r (tfn d N j) x) (fun x => peval (ufn scaled UPhi1 N k) x) v.
Proof. intros Hk ->. rewrite <- (uip_phi scaled N k _ Hk). apply (uip_int (dn r (tfn d N j)) (ufn scaled UPhi1 N k)). Qed.
Lemma stiff_val d N k j : (j < N - 2)%nat -> cip (dn 2 (tfn d N j)) (phi2 k) = (if (j =? k + 2)%nat then 1 else 0) + tco d j * (if (j =? k)%nat then 1 else 0).
Proof.
  intros Hj. rewrite (tfn_cip d N j 2 (phi2 k) Hj).
  pose proof (T_dual 2 ltac:(lia) j k) as D1. pose proof (T_dual 2 ltac:(lia) (S (S j)) k) as D2. change (comb2P chebT k 3 (cT 2 k)) with (phi2 k) in *.
  rewrite D1, D2. replace (S (S j) =? k + 2)%nat with (j =? k)%nat; [reflexivity|].
  destruct (Nat.eqb_spec j k); symmetry; [apply Nat.eqb_eq|apply Nat.eqb_neq]; lia.
Qed.
Lemma u_AP1SD_entry scaled N k j : (k < N - 2)%nat -> (j < N - 2)%nat ->
  mat_entry RFld (u_AP1SD scaled N) k j = usc scaled k * cip (dn 2 (tfn true N j)) (phi2 k).
Proof.
  intros Hk Hj. rewrite stiff_val by exact Hj. unfold u_AP1SD, usc, tco. destruct scaled; entry.
  - destruct (Nat.eqb_spec j (k + 2)); [|destruct (Nat.eqb_spec j k)]; try subst j; decide_nat; cbn -[INR]; try ring.
  - destruct (Nat.eqb_spec j (k + 2)); [|destruct (Nat.eqb_spec j k)]; try subst j; decide_nat; cbn -[INR]; try ring.
Qed.
Lemma u_AP1SN_entry scaled N k j : (k < N - 2)%nat -> (j < N - 2)%nat ->
  mat_entry RFld (u_AP1SN scaled N) k j = usc scaled k * cip (dn 2 (tfn false N j)) (phi2 k).
Proof.
  intros Hk Hj. rewrite stiff_val by exact Hj. unfold u_AP1SN, usc, tco. pose proof (pos_INR k). destruct scaled; entry.
  - destruct (Nat.eqb_spec j (k + 2)); [|destruct (Nat.eqb_spec j k)]; try subst j; decide_nat; cbn -[INR]; try ring.
  - destruct (Nat.eqb_spec j (k + 2)); [|destruct (Nat.eqb_spec j k)]; try subst j; decide_nat; cbn -[INR]; try ring; try (field; lra).
Qed.
Lemma u_BUU_entry h N k j : (k < N)%nat -> (j < N)%nat -> mat_entry RFld (u_BUU h N) k j = if (j =? k)%nat then h k else 0.
Proof. intros Hk Hj. unfold u_BUU. entry. destruct (Nat.eqb_spec j k); try subst j; decide_nat; cbn; try ring. Qed.
