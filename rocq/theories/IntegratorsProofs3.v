(** IntegratorsProofs3.v -- local truncation errors: RK4, and the implicit-explicit schemes. *)
From Coq Require Import Reals Lra Lia List Arith Bool FunctionalExtensionality.
From Verif Require Import Base IntegratorsModel IntegratorsProofs IntegratorsProofs2 StencilProofs StencilProofs8.
Import ListNotations.
Local Open Scope R_scope.

Section Orders.
  Variable I : Type.
  Notation vec := (vec I).
  Notation vadd := (vadd I).
  Notation vscal := (vscal I).
  Notation vsub := (vsub I).
  Notation vzero := (vzero I).
  Notation expands := (expands I).

  Lemma expands_fun n g g' c : (forall h, g h = g' h) -> expands n g c -> expands n g' c.
  Proof. intros E H. apply (expands_ext I n g g' c c H); [intros i; apply near0_true; intros h; rewrite E; reflexivity|reflexivity]. Qed.
  Lemma stage_exp n u b K c : expands n K c ->
    expands (S n) (fun h => vadd u (vscal (b * h) (K h))) (fun k => vadd (cconst I u k) (vscal b (cshift I c k))).
  Proof.
    intros H. eapply expands_ext; [apply (expands_add I _ _ _ _ _ (expands_const I (S n) u) (expands_scal I _ b _ _ (expands_hmul I n K c H)))| |].
    - intros i. apply near0_true. intros h. unfold IntegratorsModel.vadd, IntegratorsModel.vscal. ring.
    - reflexivity.
  Qed.
  Lemma add_exp n g c b K d : expands (S n) g c -> expands n K d ->
    expands (S n) (fun h => vadd (g h) (vscal (b * h) (K h))) (fun k => vadd (c k) (vscal b (cshift I d k))).
  Proof.
    intros G H. eapply expands_ext; [apply (expands_add I _ _ _ _ _ G (expands_scal I _ b _ _ (expands_hmul I n K d H)))| |].
    - intros i. apply near0_true. intros h. unfold IntegratorsModel.vadd, IntegratorsModel.vscal. ring.
    - reflexivity.
  Qed.
  Lemma vadd_zero u : vadd u (vscal 0 vzero) = u.
  Proof. apply vec_eq. intros. unfold IntegratorsModel.vadd, IntegratorsModel.vscal, IntegratorsModel.vzero. ring. Qed.
  Lemma stage_0 u b c : (fun k => vadd (cconst I u k) (vscal b (cshift I c k))) 0%nat = u.
  Proof. apply vec_eq. intros. cbn. unfold IntegratorsModel.vadd, IntegratorsModel.vscal, IntegratorsModel.vzero. ring. Qed.

  Lemma v0l u : vadd vzero u = u. Proof. apply vec_eq. intros. unfold IntegratorsModel.vadd, IntegratorsModel.vzero. ring. Qed.
  Lemma v0r u : vadd u vzero = u. Proof. apply vec_eq. intros. unfold IntegratorsModel.vadd, IntegratorsModel.vzero. ring. Qed.
  Lemma vs0 a : vscal a vzero = vzero. Proof. apply vec_eq. intros. unfold IntegratorsModel.vscal, IntegratorsModel.vzero. ring. Qed.

  Lemma rk4_unfold dt N L u :
    let G v := match L with Some L => vadd (N v) (L v) | None => N v end in
    let k1 := G u in let k2 := G (vadd u (vscal (1/2 * dt) k1)) in let k3 := G (vadd u (vscal (1/2 * dt) k2)) in let k4 := G (vadd u (vscal (1 * dt) k3)) in
    rk4_step I dt N L u = vadd (vadd (vadd (vadd u (vscal (1/6 * dt) k1)) (vscal (1/3 * dt) k2)) (vscal (1/3 * dt) k3)) (vscal (1/6 * dt) k4).
  Proof. destruct L; reflexivity. Qed.

  Lemma rk4_local G u0 F1 F2 F3 : smooth I G u0 F1 F2 F3 ->
    expands 4 (fun h => rk4_step I h G None u0) (exact_coeffs I (G u0) u0 F1 F2 F3).
  Proof.
    intros S. pose proof S as (_ & _ & _ & E).
    destruct (smooth_lin I _ _ _ _ _ S) as (a1 & a2 & a3 & b1 & b2 & b3 & b4 & b5 & b6 & b7 & c1 & c2 & c3 & c4 & c5 & c6).
    pose (K1 := cconst I (G u0)). assert (expands 3 (fun h => G u0) K1) as H1 by apply expands_const.
    pose (U2 := fun k => vadd (cconst I u0 k) (vscal (1/2) (cshift I K1 k))).
    assert (expands 3 (fun h => vadd u0 (vscal (1/2 * h) (G u0))) U2) as HU2 by (apply expands_lower, stage_exp; exact H1).
    pose (K2 := compose I (G u0) F1 F2 F3 U2). assert (expands 3 (fun h => G (vadd u0 (vscal (1/2 * h) (G u0)))) K2) as H2 by (apply E; [lia|apply stage_0|exact HU2]).
    pose (U3 := fun k => vadd (cconst I u0 k) (vscal (1/2) (cshift I K2 k))).
    assert (expands 3 (fun h => vadd u0 (vscal (1/2 * h) (G (vadd u0 (vscal (1/2 * h) (G u0)))))) U3) as HU3 by (apply expands_lower, stage_exp; exact H2).
    pose (K3 := compose I (G u0) F1 F2 F3 U3). assert (H3 := E 3%nat _ U3 (le_n 3) (stage_0 _ _ _) HU3). fold K3 in H3.
    pose (U4 := fun k => vadd (cconst I u0 k) (vscal 1 (cshift I K3 k))).
    assert (HU4 := expands_lower I 3 _ _ (stage_exp 3 u0 1 _ K3 H3)). fold U4 in HU4.
    pose (K4 := compose I (G u0) F1 F2 F3 U4). assert (H4 := E 3%nat _ U4 (le_n 3) (stage_0 _ _ _) HU4). fold K4 in H4.
    assert (R := add_exp 3 _ _ (1/6) _ _ (add_exp 3 _ _ (1/3) _ _ (add_exp 3 _ _ (1/3) _ _ (stage_exp 3 u0 (1/6) _ _ H1) H2) H3) H4).
    eapply expands_ext; [exact R| |].
    - intros i. apply near0_true. intros h. rewrite rk4_unfold. reflexivity.
    - clear R H1 H2 H3 H4 HU2 HU3 HU4 E S. set (f := G u0) in *. clearbody f.
      intros k i Hk. destruct k as [|[|[|[|[|k]]]]]; [| | | | |lia];
      unfold K4, U4, K3, U3, K2, U2, K1; cbn [compose exact_coeffs cconst cshift];
      repeat (rewrite ?v0l, ?v0r, ?vs0, ?a1, ?a2, ?a3, ?b1, ?b2, ?b3, ?b4, ?b5, ?b6, ?c1, ?c2, ?c3, ?c4, ?c5, ?c6);
      unfold IntegratorsModel.vadd, IntegratorsModel.vscal, IntegratorsModel.vzero; field.
  Qed.

  (** ** PDEIMEXRK: the stage equations *)
  Definition vsum (n : nat) (f : nat -> vec) : vec := fun i => gsum 0 Rplus n (fun j => f j i).
  Lemma vsum_S n f : vsum (S n) f = vadd (vsum n f) (f n). Proof. reflexivity. Qed.
  Lemma loop_vsum n (c : nat -> R) (K : nat -> vec) u0 :
    for_up n 0 (fun j rhs => vadd rhs (vscal (c j) (K j))) u0 = vadd u0 (vsum n (fun j => vscal (c j) (K j))).
  Proof.
    assert (forall st u, for_up n st (fun j rhs => vadd rhs (vscal (c j) (K j))) u = vadd u (vsum n (fun j => vscal (c (st + j)%nat) (K (st + j)%nat)))) as H; [|rewrite H; reflexivity].
    induction n as [|n IH]; intros st u; cbn [for_up]; [apply vec_eq; intros; unfold vsum, IntegratorsModel.vadd; cbn [gsum]; ring|].
    rewrite IH. apply vec_eq. intros i. unfold vsum, IntegratorsModel.vadd, IntegratorsModel.vscal.
    assert (gsum 0 Rplus (S n) (fun j => c (st + j)%nat * K (st + j)%nat i) = c st * K st i + gsum 0 Rplus n (fun j => c (S st + j)%nat * K (S st + j)%nat i)) as ->; [|ring].
    clear. induction n as [|n IH]; [cbn [gsum]; rewrite Nat.add_0_r; ring|].
    transitivity (gsum 0 Rplus (S n) (fun j => c (st + j)%nat * K (st + j)%nat i) + c (st + S n)%nat * K (st + S n)%nat i); [reflexivity|]. rewrite IH. cbn [gsum]. replace (S st + n)%nat with (st + S n)%nat by lia. ring.
  Qed.
  Section Imex.
    Variables (dt : R) (a b : tableau) (M A N mask solve : vec -> vec) (s0 : imex_state I).
    Definition stage (r : nat) : vec := im_u I (imex_step I dt r a b M A N mask solve s0).
    Definition stage_rhs (r : nat) : vec :=
      vadd (vadd (M (stage 0)) (vsum (S r) (fun j => vscal (dt * b (S r) j) (N (stage j)))))
           (vsum r (fun j => vscal (dt * a (S r) (S j)) (A (stage (S j))))).
    Lemma imex_step_S r : imex_step I dt (S r) a b M A N mask solve s0 =
      imex_solve_step I solve (imex_compute_rhs I dt a b M A N mask r (imex_step I dt r a b M A N mask solve s0)).
    Proof. unfold imex_step. rewrite (for_up_snoc r 0). reflexivity. Qed.
    Lemma imex_invariant r : let s := imex_step I dt r a b M A N mask solve s0 in
      (forall j, (j < r)%nat -> im_K I s j = N (stage j)) /\ (forall j, (S j < r)%nat -> im_L I s j = A (stage (S j))) /\
      ((0 < r)%nat -> im_u0 I s = M (stage 0) /\ im_u I s = solve (mask (stage_rhs (r - 1)))).
    Proof.
      induction r as [|r IH]; intros s; [split; [lia|split; lia]|].
      unfold s. rewrite imex_step_S. set (s1 := imex_step I dt r a b M A N mask solve s0) in *. destruct IH as (HK & HL & H0).
      assert (im_u I s1 = stage r) as Eu by reflexivity.
      assert (forall j, (j < S r)%nat -> upd (im_K I s1) r (N (im_u I s1)) j = N (stage j)) as HK'.
      { intros j Hj. unfold upd. destruct (Nat.eqb_spec j r) as [->|]; [rewrite Eu; reflexivity|apply HK; lia]. }
      assert ((if (r =? 0)%nat then M (im_u I s1) else im_u0 I s1) = M (stage 0)) as H0'.
      { destruct (Nat.eqb_spec r 0) as [->|Hr]; [rewrite Eu; reflexivity|apply H0; lia]. }
      assert (forall j, (S j < S r)%nat -> upd (im_L I s1) (r - 1) (A (im_u I s1)) j = A (stage (S j))) as HL'.
      { intros j Hj. unfold upd. destruct (Nat.eqb_spec j (r - 1)) as [->|]; [rewrite Eu; f_equal; f_equal; lia|apply HL; lia]. }
      unfold imex_compute_rhs, imex_solve_step. destruct (Nat.ltb_spec 0 r) as [Hr|Hr]; cbn [im_K im_L im_u0 im_u im_rhs].
      - split; [exact HK'|split; [exact HL'|]]. intros _. split; [exact H0'|]. f_equal. f_equal.
        rewrite H0', (loop_vsum (r + 1) (fun j => dt * b (r + 1)%nat j)), (loop_vsum r (fun j => dt * a (r + 1)%nat (j + 1)%nat)).
        replace (S r - 1)%nat with r by lia. unfold stage_rhs. replace (r + 1)%nat with (S r) by lia.
        apply vec_eq. intros i. unfold IntegratorsModel.vadd, vsum. f_equal; [f_equal|].
        + apply gsum_ext_R. intros j Hj. unfold IntegratorsModel.vscal. rewrite HK' by lia. reflexivity.
        + apply gsum_ext_R. intros j Hj. unfold IntegratorsModel.vscal. rewrite HL' by lia. rewrite Nat.add_1_r. reflexivity.
      - assert (r = 0%nat) as -> by lia. split; [exact HK'|split; [intros; lia|]]. intros _. split; [exact H0'|]. f_equal. f_equal.
        rewrite H0', (loop_vsum 1 (fun j => dt * b 1%nat j)). unfold stage_rhs. cbn [Nat.sub].
        apply vec_eq. intros i. unfold IntegratorsModel.vadd, vsum. cbn [gsum]. unfold IntegratorsModel.vscal. rewrite HK' by lia. ring.
    Qed.
    Lemma stage_S r : stage (S r) = solve (mask (stage_rhs r)).
    Proof. pose proof (imex_invariant (S r)) as (_ & _ & H). replace r with (S r - 1)%nat at 2 by lia. apply H. lia. Qed.
    Lemma stage_O : stage 0 = im_u I s0. Proof. reflexivity. Qed.
  End Imex.

  (** ** expansion of a stage *)
  Lemma vsum_exp n m (f : nat -> R -> vec) (c : nat -> nat -> vec) : (forall j, (j < m)%nat -> expands n (f j) (c j)) ->
    expands n (fun h => vsum m (fun j => f j h)) (fun k => vsum m (fun j => c j k)).
  Proof.
    induction m as [|m IH]; intros H.
    - eapply expands_ext; [apply (expands_const I n vzero)| |].
      + intros i. apply near0_true. reflexivity.
      + intros k i _. destruct k; reflexivity.
    - change (expands n (fun h => vadd (vsum m (fun j => f j h)) (f m h)) (fun k => vadd (vsum m (fun j => c j k)) (c m k))). apply expands_add; [apply IH; intros; apply H; lia|apply H; lia].
  Qed.
  Definition wcoeffs (a b : tableau) (L : vec -> vec) (comp : (nat -> vec) -> nat -> vec) (u0 : vec) (cs : nat -> nat -> vec) (r k : nat) : vec :=
    vadd (vadd (cconst I u0 k) (vsum (S r) (fun j => vscal (b (S r) j) (cshift I (comp (cs j)) k))))
         (vsum r (fun j => vscal (a (S r) (S j)) (cshift I (fun k => L (cs (S j) k)) k))).
  Lemma lin_vsum F n f : linear I F -> F (vsum n f) = vsum n (fun j => F (f j)).
  Proof.
    intros HF. induction n as [|n IH]; [change (vsum 0 f) with vzero; rewrite (lin_zero I F HF); reflexivity|]. rewrite !vsum_S. destruct HF as [H1 H2]. rewrite H1. f_equal. exact IH.
  Qed.
  Lemma stage_expands a b M Minv A Nw solve s0 F1 F2 F3 r n cs u0 :
    inverse_of I M Minv -> regular I M -> regular I Minv -> regular I A -> solves I (a 1%nat 1%nat) M A solve ->
    smooth I (fun u => Minv (Nw u)) u0 F1 F2 F3 -> im_u I s0 = u0 -> (n <= 3)%nat ->
    (forall j, (j <= r)%nat -> cs j 0%nat = u0 /\ expands n (fun h => stage h a b M A Nw (fun v => v) (solve h) s0 j) (cs j)) ->
    let L := fun u => Minv (A u) in
    expands (S n) (fun h => stage h a b M A Nw (fun v => v) (solve h) s0 (S r))
      (imp_coeffs I (a 1%nat 1%nat) L (wcoeffs a b L (compose I (Minv (Nw u0)) F1 F2 F3) u0 cs r)).
  Proof.
    intros HI RM RMi RA HS Sm H0 Hn Hc L.
    apply (expands_fun (S n) (fun h => solve h (stage_rhs h a b M A Nw (fun v => v) (solve h) s0 r))).
    { intros h. rewrite stage_S. reflexivity. }
    apply (implicit_stage I (a 1%nat 1%nat) M Minv A solve (fun h => stage_rhs h a b M A Nw (fun v => v) (solve h) s0 r)); auto.
    pose proof RMi as ([m1 m2] & _ & rmi). pose proof RA as (_ & _ & ra). pose proof Sm as (_ & _ & _ & sm).
    apply (expands_fun (S n) (fun h => vadd (vadd u0 (vsum (S r) (fun j => Minv (vscal (h * b (S r) j) (Nw (stage h a b M A Nw (fun v => v) (solve h) s0 j))))))
      (vsum r (fun j => Minv (vscal (h * a (S r) (S j)) (A (stage h a b M A Nw (fun v => v) (solve h) s0 (S j)))))))).
    { intros h. unfold stage_rhs. rewrite !m1, !(lin_vsum Minv) by (split; auto). rewrite (proj1 HI), stage_O, H0. reflexivity. }
    unfold wcoeffs.
    apply expands_add; [apply expands_add; [apply expands_const|]|].
    - apply (vsum_exp (S n) (S r) (fun j h => Minv (vscal (h * b (S r) j) (Nw (stage h a b M A Nw (fun v => v) (solve h) s0 j))))
        (fun j k => vscal (b (S r) j) (cshift I (compose I (Minv (Nw u0)) F1 F2 F3 (cs j)) k))). intros j Hj. destruct (Hc j ltac:(lia)) as [C0 Cj].
      eapply expands_ext; [apply (expands_scal I _ (b (S r) j) _ _ (expands_hmul I n _ _ (sm n _ (cs j) Hn C0 Cj)))| |intros; reflexivity].
      intros i. apply near0_true. intros h. rewrite m2. unfold IntegratorsModel.vscal. ring.
    - apply (vsum_exp (S n) r (fun j h => Minv (vscal (h * a (S r) (S j)) (A (stage h a b M A Nw (fun v => v) (solve h) s0 (S j)))))
        (fun j k => vscal (a (S r) (S j)) (cshift I (fun k => L (cs (S j) k)) k))). intros j Hj. destruct (Hc (S j) ltac:(lia)) as [C0 Cj].
      eapply expands_ext; [apply (expands_scal I _ (a (S r) (S j)) _ _ (expands_hmul I n _ _ (rmi n _ _ (ra n _ _ Cj))))| |intros; reflexivity].
      intros i. apply near0_true. intros h. rewrite m2. unfold IntegratorsModel.vscal. ring.
  Qed.
End Orders.
