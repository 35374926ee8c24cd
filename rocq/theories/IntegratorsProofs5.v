(** IntegratorsProofs5.v -- IRK3 and IMEXRK3, BackwardEuler. *)
From Coq Require Import Reals Lra Lia List Arith Bool FunctionalExtensionality.
From Verif Require Import Base IntegratorsModel IntegratorsProofs IntegratorsProofs2 IntegratorsProofs3 StencilProofs StencilProofs8.
Import ListNotations.
Local Open Scope R_scope.

Section Irk.
  Variable I : Type.
  Notation vec := (vec I).
  Notation vadd := (vadd I).
  Notation vscal := (vscal I).
  Notation vsub := (vsub I).
  Notation vzero := (vzero I).
  Notation expands := (expands I).
  Variables (M Minv A Nw : vec -> vec) (solve : R -> nat -> vec -> vec) (u0 : vec) (F1 : vec -> vec) (F2 : vec -> vec -> vec) (F3 : vec -> vec -> vec -> vec).
  Hypotheses (HI : inverse_of I M Minv) (RM : regular I M) (RMi : regular I Minv) (RA : regular I A).
  Hypothesis Sm : smooth I (fun u => Minv (Nw u)) u0 F1 F2 F3.
  Hypothesis So : forall rk, (rk < 3)%nat -> solves I ((irk3_a rk + irk3_b rk) / 2) M A (fun h => solve h rk).
  Let L (u : vec) : vec := Minv (A u).
  Let comp := compose I (Minv (Nw u0)) F1 F2 F3.
  Let n0 := Minv (Nw u0).
  Let a0 := L u0.
  Let coeffs := exact_coeffs I (vadd n0 a0) u0 (fun v => vadd (F1 v) (L v)) F2 F3.

  Lemma Lreg5 : regular I L.
  Proof.
    destruct RA as ([a1 a2] & a3 & a4), RMi as ([m1 m2] & m3 & m4). split; [split; intros; unfold L; rewrite ?a1, ?a2, ?m1, ?m2; reflexivity|]. split.
    - intros f Hf. apply m3, a3, Hf.
    - intros m f c Hf. apply (m4 m _ _ (a4 m _ _ Hf)).
  Qed.
  Lemma llin5 : (forall u v, L (vadd u v) = vadd (L u) (L v)) /\ (forall a u, L (vscal a u) = vscal a (L u)) /\ L vzero = vzero.
  Proof. destruct Lreg5 as (Hl & _). destruct Hl as [H1 H2]. split; [exact H1|split; [exact H2|]]. apply (lin_zero I L). split; auto. Qed.

  Definition irk_w (a b : R) (cr kp : nat -> vec) (k : nat) : vec :=
    vadd (vadd (cr k) (cshift I (fun k => vscal ((a + b) / 2) (L (cr k))) k)) (cshift I (fun k => vadd (vscal a (comp cr k)) (vscal b (kp k))) k).
  (** one Runge-Kutta stage on expansions; [U h], [D h] are u_hat and dU1 at its start *)
  Lemma irk_stage rk U D cr kp n : (rk < 3)%nat -> (n <= 3)%nat -> cr 0%nat = u0 -> expands (S n) U cr -> expands n (fun h => Minv (D h)) kp ->
    expands (S n) (fun h => solve h rk (vadd (vadd (vscal (irk3_a rk * h) (Nw (U h))) (vscal (irk3_b rk * h) (D h))) (irk3_rhs_mat I h M A rk (U h))))
      (imp_coeffs I ((irk3_a rk + irk3_b rk) / 2) L (irk_w (irk3_a rk) (irk3_b rk) cr kp)) /\
    imp_coeffs I ((irk3_a rk + irk3_b rk) / 2) L (irk_w (irk3_a rk) (irk3_b rk) cr kp) 0%nat = u0 /\
    expands n (fun h => Minv (Nw (U h))) (comp cr).
  Proof.
    intros Hr Hn H0 HU HD. pose proof Sm as (_ & _ & _ & sm). pose proof (sm n U cr Hn H0 (expands_lower I n U cr HU)) as HN.
    split; [|split; [|exact HN]].
    2: { cbn [imp_coeffs]. unfold irk_w. cbn [cshift]. rewrite !(v0r I). exact H0. }
    apply (implicit_stage I _ M Minv A (fun h => solve h rk) (fun h => vadd (vadd (vscal (irk3_a rk * h) (Nw (U h))) (vscal (irk3_b rk * h) (D h))) (irk3_rhs_mat I h M A rk (U h)))); auto.
    destruct RMi as ([m1 m2] & _ & rmi). destruct RA as (_ & _ & ra).
    set (a := irk3_a rk) in *. set (b := irk3_b rk) in *.
    apply (expands_fun I (S n) (fun h => vadd (vadd (U h) (vscal h (vscal ((a + b) / 2) (L (U h))))) (vscal h (vadd (vscal a (Minv (Nw (U h)))) (vscal b (Minv (D h))))))).
    { intros h. unfold irk3_rhs_mat. fold a b. rewrite !m1, !m2, (proj1 HI). apply vec_eq. intros i. unfold L, IntegratorsModel.vadd, IntegratorsModel.vscal. field. }
    unfold irk_w. apply expands_add; [apply expands_add; [exact HU|]|].
    - apply expands_hmul, expands_scal. destruct Lreg5 as (_ & _ & lr). apply lr. apply expands_lower. exact HU.
    - apply expands_hmul, expands_add; apply expands_scal; [exact HN|exact HD].
  Qed.
  Ltac vfin := apply vec_eq; intros ?i; unfold IntegratorsModel.vadd, IntegratorsModel.vscal, IntegratorsModel.vzero.

  (** normal forms up to second order: c 1 = C (n + a), c 2 = x F1 f + y L f *)
  Let f0 := vadd n0 a0.
  Definition form (c : nat -> vec) (C x y : R) : Prop := c 0%nat = u0 /\ c 1%nat = vscal C f0 /\ c 2%nat = vadd (vscal x (F1 f0)) (vscal y (L f0)).
  Lemma irk_form a b cr kp C x y Ck : form cr C x y -> kp 0%nat = n0 \/ b = 0 -> kp 1%nat = vscal Ck (F1 f0) \/ b = 0 ->
    let g := a + b in
    form (imp_coeffs I (g / 2) L (irk_w a b cr kp)) (C + g) (x + a * C + b * Ck) (y + g / 2 * (C + (C + g))).
  Proof.
    intros (E0 & E1 & E2) K0 K1 g. destruct llin5 as (l1 & l2 & l3). destruct (smooth_lin I _ _ _ _ _ Sm) as (a1 & a2 & _).
    assert (imp_coeffs I (g / 2) L (irk_w a b cr kp) 0%nat = u0) as Z by (cbn [imp_coeffs]; unfold irk_w; cbn [cshift]; rewrite !(v0r I); exact E0).
    assert (vscal b (kp 0%nat) = vscal b n0) as B0 by (destruct K0 as [-> | ->]; [reflexivity|vfin; ring]).
    assert (vscal b (kp 1%nat) = vscal b (vscal Ck (F1 f0))) as B1 by (destruct K1 as [-> | ->]; [reflexivity|vfin; ring]).
    assert (imp_coeffs I (g / 2) L (irk_w a b cr kp) 1%nat = vscal (C + g) f0) as O.
    { change (imp_coeffs I (g / 2) L (irk_w a b cr kp) 1%nat) with (vadd (irk_w a b cr kp 1%nat) (vscal (g / 2) (L (imp_coeffs I (g / 2) L (irk_w a b cr kp) 0%nat)))). rewrite Z.
      unfold irk_w. cbn [cshift]. rewrite E1, B0, E0. unfold comp. cbn [compose]. fold n0 a0. unfold f0, g. vfin. field. }
    split; [exact Z|split; [exact O|]].
    change (imp_coeffs I (g / 2) L (irk_w a b cr kp) 2%nat) with (vadd (irk_w a b cr kp 2%nat) (vscal (g / 2) (L (imp_coeffs I (g / 2) L (irk_w a b cr kp) 1%nat)))). rewrite O.
    unfold irk_w. cbn [cshift]. rewrite B1, E2. unfold comp. cbn [compose]. rewrite E1, !l2, a2. unfold g. vfin. field.
  Qed.
  Lemma comp_form c C x y : form c C x y -> comp c 0%nat = n0 /\ comp c 1%nat = vscal C (F1 f0).
  Proof. intros (E0 & E1 & _). destruct (smooth_lin I _ _ _ _ _ Sm) as (a1 & a2 & _). split; [reflexivity|]. unfold comp. cbn [compose]. rewrite E1, a2. reflexivity. Qed.
  Lemma form_0 : form (cconst I u0) 0 0 0.
  Proof. split; [reflexivity|split]; cbn; vfin; ring. Qed.

  Definition irk_run (h : R) (d0 : vec) := irk3_step I h M A (fun _ => Nw) (fun v => v) (solve h) 0 (u0, d0).
  Lemma irk3_unfold h d0 :
    let st rk (s : vec * vec) := (solve h rk (vadd (vadd (vscal (irk3_a rk * h) (Nw (fst s))) (vscal (irk3_b rk * h) (snd s))) (irk3_rhs_mat I h M A rk (fst s))), Nw (fst s)) in
    irk_run h d0 = st 2%nat (st 1%nat (st 0%nat (u0, d0))).
  Proof. reflexivity. Qed.

  Lemma irk3_expansions n d0 : (n <= 3)%nat -> exists c1 c2 c3,
    c1 = imp_coeffs I ((irk3_a 0 + irk3_b 0) / 2) L (irk_w (irk3_a 0) (irk3_b 0) (cconst I u0) (cconst I (Minv d0))) /\
    c2 = imp_coeffs I ((irk3_a 1 + irk3_b 1) / 2) L (irk_w (irk3_a 1) (irk3_b 1) c1 (comp (cconst I u0))) /\
    c3 = imp_coeffs I ((irk3_a 2 + irk3_b 2) / 2) L (irk_w (irk3_a 2) (irk3_b 2) c2 (comp c1)) /\
    expands (S n) (fun h => fst (irk_run h d0)) c3.
  Proof.
    intros Hn.
    destruct (irk_stage 0 (fun _ => u0) (fun _ => d0) (cconst I u0) (cconst I (Minv d0)) n ltac:(lia) Hn eq_refl (expands_const I _ u0) (expands_const I n (Minv d0))) as (E1 & Z1 & K1).
    set (c1 := imp_coeffs _ _ _ _) in E1, Z1.
    destruct (irk_stage 1 _ _ _ _ n ltac:(lia) Hn Z1 E1 K1) as (E2 & Z2 & K2). set (c2 := imp_coeffs _ _ _ _) in E2, Z2.
    destruct (irk_stage 2 _ _ _ _ n ltac:(lia) Hn Z2 E2 K2) as (E3 & Z3 & K3). set (c3 := imp_coeffs _ _ _ _) in E3, Z3.
    exists c1, c2, c3. split; [reflexivity|split; [reflexivity|split; [reflexivity|]]]. exact E3.
  Qed.
  Ltac num := unfold irk3_a, irk3_b; cbn [nth]; field.
  Lemma irk3_forms d0 c1 c2 c3 :
    c1 = imp_coeffs I ((irk3_a 0 + irk3_b 0) / 2) L (irk_w (irk3_a 0) (irk3_b 0) (cconst I u0) (cconst I (Minv d0))) ->
    c2 = imp_coeffs I ((irk3_a 1 + irk3_b 1) / 2) L (irk_w (irk3_a 1) (irk3_b 1) c1 (comp (cconst I u0))) ->
    c3 = imp_coeffs I ((irk3_a 2 + irk3_b 2) / 2) L (irk_w (irk3_a 2) (irk3_b 2) c2 (comp c1)) ->
    form c1 (8/15) 0 (32/225) /\ form c2 (2/3) (2/9) (2/9) /\ form c3 1 (1/2) (1/2).
  Proof.
    intros -> H2 H3. set (c1 := imp_coeffs I ((irk3_a 0 + irk3_b 0) / 2) _ _) in *.
    assert (form c1 (8/15) 0 (32/225)) as G1.
    { pose proof (irk_form (irk3_a 0) (irk3_b 0) (cconst I u0) (cconst I (Minv d0)) 0 0 0 0 form_0 (or_intror eq_refl) (or_intror eq_refl)) as G. fold c1 in G.
      replace (8/15) with (0 + (irk3_a 0 + irk3_b 0)) by num. replace 0 with (0 + irk3_a 0 * 0 + irk3_b 0 * 0) at 2 by ring.
      replace (32/225) with (0 + (irk3_a 0 + irk3_b 0) / 2 * (0 + (0 + (irk3_a 0 + irk3_b 0)))) by num. exact G. }
    destruct (comp_form _ _ _ _ form_0) as [p0 q0]. destruct (comp_form _ _ _ _ G1) as [p1 q1].
    assert (form c2 (2/3) (2/9) (2/9)) as G2.
    { pose proof (irk_form (irk3_a 1) (irk3_b 1) c1 (comp (cconst I u0)) _ _ _ _ G1 (or_introl p0) (or_introl q0)) as G. cbv zeta in G. rewrite <- H2 in G.
      replace (2/3) with (8/15 + (irk3_a 1 + irk3_b 1)) by num. replace (2/9) with (0 + irk3_a 1 * (8/15) + irk3_b 1 * 0) at 1 by num.
      replace (2/9) with (32/225 + (irk3_a 1 + irk3_b 1) / 2 * (8/15 + (8/15 + (irk3_a 1 + irk3_b 1)))) by num. exact G. }
    split; [exact G1|split; [exact G2|]].
    pose proof (irk_form (irk3_a 2) (irk3_b 2) c2 (comp c1) _ _ _ _ G2 (or_introl p1) (or_introl q1)) as G. cbv zeta in G. rewrite <- H3 in G.
    replace 1 with (2/3 + (irk3_a 2 + irk3_b 2)) at 1 by num. replace (1/2) with (2/9 + irk3_a 2 * (2/3) + irk3_b 2 * (8/15)) at 1 by num.
    replace (1/2) with (2/9 + (irk3_a 2 + irk3_b 2) / 2 * (2/3 + (2/3 + (irk3_a 2 + irk3_b 2)))) by num. exact G.
  Qed.

  (** second order for every L *)
  Lemma irk3_local d0 : expands 2 (fun h => fst (irk_run h d0)) coeffs.
  Proof.
    destruct (irk3_expansions 1 d0 ltac:(lia)) as (c1 & c2 & c3 & H1 & H2 & H3 & E).
    destruct (irk3_forms d0 c1 c2 c3 H1 H2 H3) as (_ & _ & (Z & O & T)). destruct (smooth_lin I _ _ _ _ _ Sm) as (a1 & a2 & _).
    eapply expands_coeffs; [exact E|]. intros k i Hk. destruct k as [|[|[|k]]]; [| | |lia].
    - rewrite Z. reflexivity.
    - rewrite O. unfold coeffs. cbn [exact_coeffs]. fold f0. unfold IntegratorsModel.vscal. ring.
    - rewrite T. unfold coeffs. cbn [exact_coeffs]. fold f0. unfold IntegratorsModel.vadd, IntegratorsModel.vscal. ring.
  Qed.

  (** third order when there is no linear part *)
  Lemma irk3_local_explicit d0 : (forall u, A u = vzero) -> expands 3 (fun h => fst (irk_run h d0)) coeffs.
  Proof.
    intros HA. assert (forall u, L u = vzero) as HL by (intros u; unfold L; rewrite HA; apply (lin_zero I Minv (proj1 RMi))).
    destruct (irk3_expansions 2 d0 ltac:(lia)) as (c1 & c2 & c3 & H1 & H2 & H3 & E).
    destruct (irk3_forms d0 c1 c2 c3 H1 H2 H3) as ((Z1 & O1 & T1) & (Z2 & O2 & T2) & (Z3 & O3 & T3)).
    destruct (smooth_lin I _ _ _ _ _ Sm) as (a1 & a2 & a3 & b1 & b2 & b3 & b4 & b5 & b6 & b7 & _).
    assert (forall g a b cr kp k, imp_coeffs I g L (irk_w a b cr kp) (S k) = vadd (cr (S k)) (vadd (vscal a (comp cr k)) (vscal b (kp k)))) as ST.
    { intros g a b cr kp k. cbn [imp_coeffs]. rewrite HL. unfold irk_w. cbn [cshift]. rewrite HL, !(vs0 I), !(v0r I). reflexivity. }
    assert (c1 3%nat = vzero) as R1.
    { rewrite H1, ST. cbn [cconst]. unfold comp. cbn [compose cconst]. rewrite a3, b3. repeat rewrite ?(vs0 I), ?(v0r I). reflexivity. }
    eapply expands_coeffs; [exact E|]. intros k i Hk. destruct k as [|[|[|[|k]]]]; [| | | |lia].
    - rewrite Z3. reflexivity.
    - rewrite O3. unfold coeffs. cbn [exact_coeffs]. fold f0. unfold IntegratorsModel.vscal. ring.
    - rewrite T3. unfold coeffs. cbn [exact_coeffs]. fold f0. unfold IntegratorsModel.vadd, IntegratorsModel.vscal. ring.
    - rewrite H3, ST, H2, ST, <- H2. unfold comp. cbn [compose cconst]. rewrite T2, T1, O2, O1, R1.
      unfold coeffs. cbn [exact_coeffs]. fold f0. rewrite !HL, ?a1, ?a2, ?a3, ?b2, ?b5, ?b3, ?(vs0 I), ?(v0r I), ?(v0l I), ?a3, ?(vs0 I), ?(v0r I).
      unfold irk3_a, irk3_b, IntegratorsModel.vadd, IntegratorsModel.vscal, IntegratorsModel.vzero. cbn [nth]. field.
  Qed.
End Irk.
