(** IntegratorsProofs4.v -- the local truncation errors of IMEXRK111, IMEXRK222, IMEXRK443. *)
From Coq Require Import Reals Lra Lia List Arith Bool FunctionalExtensionality.
From Verif Require Import Base IntegratorsModel IntegratorsProofs IntegratorsProofs2 IntegratorsProofs3 StencilProofs StencilProofs8.
Import ListNotations.
Local Open Scope R_scope.

Section Imex.
  Variable I : Type.
  Notation vec := (vec I).
  Notation vadd := (vadd I).
  Notation vscal := (vscal I).
  Notation vzero := (vzero I).
  Notation expands := (expands I).
  Definition sel (l : list (nat -> vec)) (j : nat) : nat -> vec := nth j l (fun _ => vzero).

  Variables (M Minv A Nw : vec -> vec) (solve : R -> vec -> vec) (s0 : imex_state I) (u0 : vec) (F1 : vec -> vec) (F2 : vec -> vec -> vec) (F3 : vec -> vec -> vec -> vec).
  Hypotheses (HI : inverse_of I M Minv) (RM : regular I M) (RMi : regular I Minv) (RA : regular I A).
  Hypothesis Sm : smooth I (fun u => Minv (Nw u)) u0 F1 F2 F3.
  Hypothesis Hs : im_u I s0 = u0.
  Let L (u : vec) : vec := Minv (A u).
  Let comp := compose I (Minv (Nw u0)) F1 F2 F3.
  Let coeffs := exact_coeffs I (vadd (Minv (Nw u0)) (L u0)) u0 (fun v => vadd (F1 v) (L v)) F2 F3.

  Lemma Lreg : regular I L.
  Proof.
    destruct RA as ([a1 a2] & a3 & a4), RMi as ([m1 m2] & m3 & m4). split; [split; intros; unfold L; rewrite ?a1, ?a2, ?m1, ?m2; reflexivity|]. split.
    - intros f Hf. apply m3, a3, Hf.
    - intros m f c Hf. apply (m4 m _ _ (a4 m _ _ Hf)).
  Qed.
  Lemma llin : (forall u v, L (vadd u v) = vadd (L u) (L v)) /\ (forall a u, L (vscal a u) = vscal a (L u)) /\ L vzero = vzero.
  Proof. destruct Lreg as (Hl & _). destruct Hl as [H1 H2]. split; [exact H1|split; [exact H2|]]. apply (lin_zero I L). split; auto. Qed.

  Ltac vexp := unfold wcoeffs;
    repeat match goal with |- context [@vsum ?X (S ?n) ?f] => rewrite (@vsum_S X n f) end;
    repeat match goal with |- context [@vsum ?X 0%nat ?f] => change (@vsum X 0%nat f) with vzero end;
    cbv beta; unfold sel; cbn [nth cshift cconst]; cbn [compose].
  Ltac vfin := apply vec_eq; intros ?i; unfold IntegratorsModel.vadd, IntegratorsModel.vscal, IntegratorsModel.vzero.
  Ltac zeros := rewrite ?(v0l I), ?(v0r I), ?(vs0 I).
  Let n0 := Minv (Nw u0).
  Let a0 := L u0.
  (** the elementary differentials *)
  Let comb1 (x y : R) : vec := vadd (vscal x n0) (vscal y a0).
  Let comb2 (x y z w : R) : vec := vadd (vadd (vscal x (F1 n0)) (vscal y (F1 a0))) (vadd (vscal z (L n0)) (vscal w (L a0))).

  Definition comb3 (c : nat -> R) : vec :=
    vadd (vadd (vadd (vadd (vscal (c 0%nat) (F1 (F1 n0))) (vscal (c 1%nat) (F1 (F1 a0)))) (vadd (vscal (c 2%nat) (F1 (L n0))) (vscal (c 3%nat) (F1 (L a0)))))
               (vadd (vadd (vscal (c 4%nat) (L (F1 n0))) (vscal (c 5%nat) (L (F1 a0)))) (vadd (vscal (c 6%nat) (L (L n0))) (vscal (c 7%nat) (L (L a0))))))
         (vadd (vscal (c 8%nat) (F2 n0 n0)) (vadd (vscal (c 9%nat) (F2 n0 a0)) (vscal (c 10%nat) (F2 a0 a0)))).
  Section Tableau.
    Variables (ta tb : tableau) (g : R).
    Hypothesis Hg : ta 1%nat 1%nat = g.
    Hypothesis So : solves I g M A solve.
    Let W := wcoeffs I ta tb L comp u0.
    Lemma comp1 c x y : c 1%nat = comb1 x y -> comp c 1%nat = vadd (vscal x (F1 n0)) (vscal y (F1 a0)).
    Proof. intros E. unfold comp. cbn [compose]. rewrite E. destruct (smooth_lin I _ _ _ _ _ Sm) as (a1 & a2 & _). unfold comb1. rewrite a1, !a2. reflexivity. Qed.
    (** first order coefficient of stage r+1 when the previous stages are known *)
    Lemma order1 cs r : (forall j, (j <= r)%nat -> cs j 0%nat = u0) ->
      imp_coeffs I g L (W cs r) 0%nat = u0 /\
      imp_coeffs I g L (W cs r) 1%nat = comb1 (gsum 0 Rplus (S r) (tb (S r))) (gsum 0 Rplus r (fun j => ta (S r) (S j)) + g).
    Proof.
      intros Z. assert (imp_coeffs I g L (W cs r) 0%nat = u0) as E0.
      { cbn [imp_coeffs]. unfold W, wcoeffs. cbn [cconst cshift]. vfin. unfold vsum. rewrite !gsum_zero by (intros; ring). ring. }
      split; [exact E0|].
      change (imp_coeffs I g L (W cs r) 1%nat) with (vadd (W cs r 1%nat) (vscal g (L (imp_coeffs I g L (W cs r) 0%nat)))). rewrite E0. unfold W, wcoeffs. cbn [cconst cshift]. unfold comp. cbn [compose].
      unfold comb1, a0, n0. vfin. unfold vsum.
      rewrite (gsum_ext_R (S r) _ (fun j => Minv (Nw u0) i * tb (S r) j)) by (intros; ring). rewrite gsum_scal.
      rewrite (gsum_ext_R r (fun j => ta (S r) (S j) * L (cs (S j) 0%nat) i) (fun j => L u0 i * ta (S r) (S j))) by (intros; rewrite Z by lia; ring). rewrite gsum_scal. ring.
    Qed.
    Lemma order2 cs r (be al : nat -> R) : (forall j, (j <= r)%nat -> cs j 0%nat = u0) -> (forall j, (j <= r)%nat -> cs j 1%nat = comb1 (be j) (al j)) ->
      let be1 := gsum 0 Rplus (S r) (tb (S r)) in let al1 := gsum 0 Rplus r (fun j => ta (S r) (S j)) + g in
      imp_coeffs I g L (W cs r) 2%nat = comb2 (gsum 0 Rplus (S r) (fun j => tb (S r) j * be j)) (gsum 0 Rplus (S r) (fun j => tb (S r) j * al j))
        (gsum 0 Rplus r (fun j => ta (S r) (S j) * be (S j)) + g * be1) (gsum 0 Rplus r (fun j => ta (S r) (S j) * al (S j)) + g * al1).
    Proof.
      intros Z O be1 al1. destruct (order1 cs r Z) as [_ E1]. destruct llin as (l1 & l2 & l3).
      change (imp_coeffs I g L (W cs r) 2%nat) with (vadd (W cs r 2%nat) (vscal g (L (imp_coeffs I g L (W cs r) 1%nat)))). rewrite E1. fold be1 al1. unfold W, wcoeffs. cbn [cconst cshift].
      unfold comb1, comb2. rewrite l1, !l2. vfin. unfold vsum.
      rewrite (gsum_ext_R (S r) _ (fun j => F1 n0 i * (tb (S r) j * be j) + F1 a0 i * (tb (S r) j * al j))).
      2: { intros j Hj. rewrite (comp1 _ _ _ (O j ltac:(lia))). unfold IntegratorsModel.vadd, IntegratorsModel.vscal. ring. }
      rewrite gsum_add, !gsum_scal.
      rewrite (gsum_ext_R r (fun j => ta (S r) (S j) * L (cs (S j) 1%nat) i) (fun j => L n0 i * (ta (S r) (S j) * be (S j)) + L a0 i * (ta (S r) (S j) * al (S j)))).
      2: { intros j Hj. rewrite (O (S j)) by lia. unfold comb1. rewrite l1, !l2. unfold IntegratorsModel.vadd, IntegratorsModel.vscal. ring. }
      rewrite gsum_add, !gsum_scal. ring.
    Qed.
    Lemma order3 cs r (be al p q z w : nat -> R) : (forall j, (j <= r)%nat -> cs j 0%nat = u0) -> (forall j, (j <= r)%nat -> cs j 1%nat = comb1 (be j) (al j)) ->
      (forall j, (j <= r)%nat -> cs j 2%nat = comb2 (p j) (q j) (z j) (w j)) ->
      let B f := gsum 0 Rplus (S r) (fun j => tb (S r) j * f j) in let A f := gsum 0 Rplus r (fun j => ta (S r) (S j) * f (S j)) in
      let one := fun _ : nat => 1 in
      imp_coeffs I g L (W cs r) 3%nat = comb3 (fun k => nth k
        [B p; B q; B z; B w; A p + g * B be; A q + g * B al; A z + g * (A be + g * B one); A w + g * (A al + g * (A one + g));
         1/2 * B (fun j => be j * be j); B (fun j => be j * al j); 1/2 * B (fun j => al j * al j)] 0).
    Proof.
      intros Z O1 O2 B A1 one. pose proof (order2 cs r be al Z O1) as E2. cbv zeta in E2. destruct llin as (l1 & l2 & l3).
      destruct (smooth_lin I _ _ _ _ _ Sm) as (a1 & a2 & a3 & b1 & b2 & b3 & b4 & b5 & b6 & b7 & _).
      change (imp_coeffs I g L (W cs r) 3%nat) with (vadd (W cs r 3%nat) (vscal g (L (imp_coeffs I g L (W cs r) 2%nat)))). rewrite E2. unfold W, wcoeffs. cbn [cconst cshift].
      unfold comb2, comb3. rewrite !l1, !l2. cbn [nth].
      assert (forall j, (j <= r)%nat -> comp (cs j) 2%nat = vadd (vadd (vadd (vscal (p j) (F1 (F1 n0))) (vscal (q j) (F1 (F1 a0)))) (vadd (vscal (z j) (F1 (L n0))) (vscal (w j) (F1 (L a0)))))
         (vadd (vscal (1/2 * (be j * be j)) (F2 n0 n0)) (vadd (vscal (be j * al j) (F2 n0 a0)) (vscal (1/2 * (al j * al j)) (F2 a0 a0))))) as EC.
      { intros j Hj. unfold comp. cbn [compose]. rewrite (O2 j Hj), (O1 j Hj). unfold comb2, comb1. rewrite !a1, !a2, !b1, !b4, !b2, !b5, (b7 a0 n0). vfin. field. }
      vfin. unfold vsum.
      rewrite (gsum_ext_R (S r) (fun j => tb (S r) j * comp (cs j) 2%nat i) (fun j =>
        F1 (F1 n0) i * (tb (S r) j * p j) + (F1 (F1 a0) i * (tb (S r) j * q j) + (F1 (L n0) i * (tb (S r) j * z j) + (F1 (L a0) i * (tb (S r) j * w j) +
        (1/2 * F2 n0 n0 i * (tb (S r) j * (be j * be j)) + (F2 n0 a0 i * (tb (S r) j * (be j * al j)) + 1/2 * F2 a0 a0 i * (tb (S r) j * (al j * al j)))))))))
        by (intros j Hj; rewrite (EC j) by lia; unfold IntegratorsModel.vadd, IntegratorsModel.vscal; ring).
      rewrite !gsum_add, !gsum_scal. fold (B p) (B q) (B z) (B w) (B be) (B al) (B (fun j => be j * be j)) (B (fun j => be j * al j)) (B (fun j => al j * al j)).
      rewrite (gsum_ext_R r (fun j => ta (S r) (S j) * L (cs (S j) 2%nat) i) (fun j =>
        L (F1 n0) i * (ta (S r) (S j) * p (S j)) + (L (F1 a0) i * (ta (S r) (S j) * q (S j)) + (L (L n0) i * (ta (S r) (S j) * z (S j)) + L (L a0) i * (ta (S r) (S j) * w (S j))))))
        by (intros j Hj; rewrite (O2 (S j)) by lia; unfold comb2; rewrite !l1, !l2; unfold IntegratorsModel.vadd, IntegratorsModel.vscal; ring).
      rewrite !gsum_add, !gsum_scal. fold (A1 p) (A1 q) (A1 z) (A1 w) (A1 be) (A1 al).
      assert (gsum 0 Rplus (S r) (tb (S r)) = B one) as -> by (apply gsum_ext_R; intros; unfold one; ring).
      assert (gsum 0 Rplus r (fun j => ta (S r) (S j)) = A1 one) as -> by (apply gsum_ext_R; intros; unfold one; ring).
      generalize (B p) (B q) (B z) (B w) (B be) (B al) (B (fun j => be j * be j)) (B (fun j => be j * al j)) (B (fun j => al j * al j)) (B one)
       (A1 p) (A1 q) (A1 z) (A1 w) (A1 be) (A1 al) (A1 one). intros. ring.
    Qed.
  End Tableau.
  Lemma coeffs_0 : coeffs 0%nat = u0. Proof. reflexivity. Qed.
  Lemma coeffs_1 : coeffs 1%nat = comb1 1 1.
  Proof. unfold coeffs, comb1. cbn [exact_coeffs]. fold a0 n0. vfin. ring. Qed.
  Lemma coeffs_2 : coeffs 2%nat = comb2 (1/2) (1/2) (1/2) (1/2).
  Proof.
    destruct (smooth_lin I _ _ _ _ _ Sm) as (a1 & a2 & _). destruct llin as (l1 & l2 & l3). unfold coeffs, comb2. cbn [exact_coeffs]. fold a0 n0. rewrite a1, l1. vfin. field.
  Qed.
  Lemma coeffs_3 : coeffs 3%nat = comb3 (fun k => nth k [1/6; 1/6; 1/6; 1/6; 1/6; 1/6; 1/6; 1/6; 1/6; 1/3; 1/6] 0).
  Proof.
    destruct (smooth_lin I _ _ _ _ _ Sm) as (a1 & a2 & a3 & b1 & b2 & b3 & b4 & b5 & b6 & b7 & _). destruct llin as (l1 & l2 & l3).
    unfold coeffs, comb3. cbn [exact_coeffs nth]. fold a0 n0. rewrite !a1, !l1, !a2, !l2, !a1, !l1, !b1, !b4, (b7 a0 n0). vfin. field.
  Qed.

  Definition first (cs : list (nat -> vec)) : Prop := forall j, (j < List.length cs)%nat -> sel cs j 0%nat = u0.
  Lemma stage_next ta tb g cs n : ta 1%nat 1%nat = g -> solves I g M A solve -> (n <= 3)%nat -> first cs -> (0 < List.length cs)%nat ->
    let U j h := stage I h ta tb M A Nw (fun v => v) (solve h) s0 j in
    (forall j, (j < List.length cs)%nat -> expands n (U j) (sel cs j)) ->
    expands (S n) (U (List.length cs)) (imp_coeffs I g L (wcoeffs I ta tb L comp u0 (sel cs) (List.length cs - 1))).
  Proof.
    intros <- So Hn F Hl U E. destruct (List.length cs) as [|r] eqn:El; [lia|]. replace (S r - 1)%nat with r by lia.
    apply (stage_expands I ta tb M Minv A Nw solve s0 F1 F2 F3 r n (sel cs) u0); auto. intros j Hj. split; [apply F; rewrite El; lia|apply E; lia].
  Qed.
  Lemma stage_zero ta tb n : expands n (fun h => stage I h ta tb M A Nw (fun v => v) (solve h) s0 0%nat) (cconst I u0).
  Proof. apply (expands_fun I n (fun _ => u0)); [intros; rewrite stage_O; auto|apply expands_const]. Qed.

  (** what is known about the stages computed so far *)
  Definition nth0 (l : list R) (j : nat) : R := nth j l 0.
  Definition known (cs : list (nat -> vec)) (be al p q z w : list R) : Prop :=
    (List.length be = List.length cs /\ List.length al = List.length cs /\ List.length p = List.length cs /\ List.length q = List.length cs /\ List.length z = List.length cs /\ List.length w = List.length cs) /\
    forall j, (j < List.length cs)%nat -> sel cs j 0%nat = u0 /\ sel cs j 1%nat = comb1 (nth0 be j) (nth0 al j) /\ sel cs j 2%nat = comb2 (nth0 p j) (nth0 q j) (nth0 z j) (nth0 w j).
  Lemma known_0 : known [cconst I u0] [0] [0] [0] [0] [0] [0].
  Proof.
    split; [repeat split|]. intros [|j] Hj; [|cbn in Hj; lia]. cbn. split; [reflexivity|]. unfold comb1, comb2. split; vfin; ring.
  Qed.
  Lemma nth_snoc {T} (l : list T) x d j : (j < List.length (l ++ [x]))%nat -> nth j (l ++ [x]) d = if (j =? List.length l)%nat then x else nth j l d.
  Proof.
    rewrite app_length. cbn. intros H. destruct (Nat.eqb_spec j (List.length l)) as [->|N]; [rewrite app_nth2, Nat.sub_diag by lia; reflexivity|]. rewrite app_nth1 by lia. reflexivity.
  Qed.
  Lemma known_next ta tb g cs be al p q z w be1 al1 p1 q1 z1 w1 : known cs be al p q z w -> (0 < List.length cs)%nat ->
    let r := (List.length cs - 1)%nat in
    let B f := gsum 0 Rplus (S r) (fun j => tb (S r) j * f j) in let A f := gsum 0 Rplus r (fun j => ta (S r) (S j) * f (S j)) in let one := fun _ : nat => 1 in
    be1 = B one -> al1 = A one + g -> p1 = B (nth0 be) -> q1 = B (nth0 al) -> z1 = A (nth0 be) + g * be1 -> w1 = A (nth0 al) + g * al1 ->
    known (cs ++ [imp_coeffs I g L (wcoeffs I ta tb L comp u0 (sel cs) r)]) (be ++ [be1]) (al ++ [al1]) (p ++ [p1]) (q ++ [q1]) (z ++ [z1]) (w ++ [w1]).
  Proof.
    intros [(k1 & k2 & k3 & k4 & k5 & k6) K] Hl r B A1 one Hbe Hal Hp Hq Hz Hw. split; [rewrite !app_length; cbn; lia|].
    assert (forall j, (j <= r)%nat -> sel cs j 0%nat = u0) as Z by (intros j Hj; apply K; unfold r in Hj; lia).
    assert (forall j, (j <= r)%nat -> sel cs j 1%nat = comb1 (nth0 be j) (nth0 al j)) as O by (intros j Hj; apply K; unfold r in Hj; lia).
    destruct (order1 ta tb g (sel cs) r Z) as [e0 e1]. assert (e2 := order2 ta tb g (sel cs) r _ _ Z O). cbv zeta in e2.
    assert (gsum 0 Rplus (S r) (tb (S r)) = B one) as Eb by (apply gsum_ext_R; intros; unfold one; ring).
    assert (gsum 0 Rplus r (fun j => ta (S r) (S j)) = A1 one) as Ea by (apply gsum_ext_R; intros; unfold one; ring).
    rewrite Eb, Ea in e1, e2.
    intros j Hj. unfold sel, nth0. rewrite !nth_snoc by (rewrite app_length in *; cbn in *; lia). rewrite k1, k2, k3, k4, k5, k6.
    destruct (Nat.eqb_spec j (List.length cs)) as [->|N].
    - split; [exact e0|split; [etransitivity; [exact e1|rewrite Hbe, Hal; reflexivity]|etransitivity; [exact e2|rewrite Hp, Hq, Hz, Hw, Hbe, Hal; reflexivity]]].
    - apply K. rewrite app_length in Hj. cbn in Hj. lia.
  Qed.
  Lemma expands_next ta tb g cs be al p q z w n : ta 1%nat 1%nat = g -> solves I g M A solve -> (n <= 2)%nat -> known cs be al p q z w -> (0 < List.length cs)%nat ->
    let U j h := stage I h ta tb M A Nw (fun v => v) (solve h) s0 j in
    (forall j, (j < List.length cs)%nat -> expands n (U j) (sel cs j)) ->
    let c := imp_coeffs I g L (wcoeffs I ta tb L comp u0 (sel cs) (List.length cs - 1)) in
    expands (S n) (U (List.length cs)) c /\ (forall j, (j < List.length (cs ++ [c]))%nat -> expands n (U j) (sel (cs ++ [c]) j)).
  Proof.
    intros Hg So Hn [_ K] Hl U HE c. assert (expands (S n) (U (List.length cs)) c) as H by (apply (stage_next ta tb g cs n); auto; intros j Hj; apply K; exact Hj).
    split; [exact H|]. intros j Hj. unfold sel. rewrite nth_snoc by exact Hj. destruct (Nat.eqb_spec j (List.length cs)) as [->|N]; [apply expands_lower, H|]. apply HE. rewrite app_length in Hj. cbn in Hj. lia.
  Qed.
  Ltac num := cbv [nth0 nth gsum List.length Nat.sub imex443_a imex443_b imex222_a imex222_b imex111_a imex111_b table]; try field; try lra.

  Lemma imex443_local : solves I (1/2) M A solve ->
    expands 3 (fun h => im_u I (imex_step I h 4 imex443_a imex443_b M A Nw (fun v => v) (solve h) s0)) coeffs.
  Proof.
    intros So. assert (imex443_a 1%nat 1%nat = 1/2) as Hg by reflexivity.
    pose proof known_0 as K0. assert (E0 : forall j, (j < 1)%nat -> expands 2 (fun h => stage I h imex443_a imex443_b M A Nw (fun v => v) (solve h) s0 j) (sel [cconst I u0] j)) by (intros [|j] Hj; [apply stage_zero|lia]).
    destruct (expands_next _ imex443_b _ _ _ _ _ _ _ _ 2 Hg So ltac:(lia) K0 ltac:(cbn; lia) E0) as [_ E1].
    assert (K1 := known_next imex443_a imex443_b (1/2) _ _ _ _ _ _ _ (1/2) (1/2) 0 0 (1/4) (1/4) K0 ltac:(cbn; lia) ltac:(num) ltac:(num) ltac:(num) ltac:(num) ltac:(num) ltac:(num)).
    set (c1 := imp_coeffs _ _ _ _) in *. clearbody c1. cbn [app] in *.
    destruct (expands_next _ imex443_b _ _ _ _ _ _ _ _ 2 Hg So ltac:(lia) K1 ltac:(cbn; lia) E1) as [_ E2].
    assert (K2 := known_next imex443_a imex443_b (1/2) _ _ _ _ _ _ _ (2/3) (2/3) (1/36) (1/36) (5/12) (5/12) K1 ltac:(cbn; lia) ltac:(num) ltac:(num) ltac:(num) ltac:(num) ltac:(num) ltac:(num)).
    set (c2 := imp_coeffs _ _ _ _) in *. clearbody c2. cbn [app] in *.
    destruct (expands_next _ imex443_b _ _ _ _ _ _ _ _ 2 Hg So ltac:(lia) K2 ltac:(cbn; lia) E2) as [_ E3].
    assert (K3 := known_next imex443_a imex443_b (1/2) _ _ _ _ _ _ _ (1/2) (1/2) (-(1/12)) (-(1/12)) (1/3) (1/3) K2 ltac:(cbn; lia) ltac:(num) ltac:(num) ltac:(num) ltac:(num) ltac:(num) ltac:(num)).
    set (c3 := imp_coeffs _ _ _ _) in *. clearbody c3. cbn [app] in *.
    destruct (expands_next _ imex443_b _ _ _ _ _ _ _ _ 2 Hg So ltac:(lia) K3 ltac:(cbn; lia) E3) as [E4 _].
    assert (K4 := known_next imex443_a imex443_b (1/2) _ _ _ _ _ _ _ 1 1 (1/2) (1/2) (1/2) (1/2) K3 ltac:(cbn; lia) ltac:(num) ltac:(num) ltac:(num) ltac:(num) ltac:(num) ltac:(num)).
    destruct K3 as [_ K3].
    assert (O3 := order3 imex443_a imex443_b (1/2) _ 3 _ _ _ _ _ _ (fun j H => proj1 (K3 j (le_n_S _ _ H))) (fun j H => proj1 (proj2 (K3 j (le_n_S _ _ H)))) (fun j H => proj2 (proj2 (K3 j (le_n_S _ _ H))))).
    cbn [List.length Nat.sub] in *.
    set (c4 := imp_coeffs _ _ _ _) in *. clearbody c4. cbn [app] in *.
    eapply expands_coeffs; [exact E4|]. destruct K4 as [_ K4]. destruct (K4 4%nat ltac:(cbn; lia)) as (z4 & o4 & t4). unfold sel in z4, o4, t4. cbn [nth] in z4, o4, t4.
    intros k i Hk. destruct k as [|[|[|[|k]]]]; [| | | |lia].
    - rewrite z4. reflexivity.
    - rewrite o4, coeffs_1. reflexivity.
    - rewrite t4, coeffs_2. reflexivity.
    - rewrite O3, coeffs_3. unfold comb3. cbn [nth]. unfold IntegratorsModel.vadd, IntegratorsModel.vscal. num.
  Qed.

  Lemma gamma222_pos : 0 < gamma222. Proof. unfold gamma222. assert (sqrt 2 < 2); [|lra]. rewrite <- (sqrt_square 2) at 2 by lra. apply sqrt_lt_1; lra. Qed.
  Lemma gamma222_root : gamma222 * gamma222 = 2 * gamma222 - 1/2.
  Proof. unfold gamma222. pose proof (sqrt_sqrt 2 ltac:(lra)) as H. nra. Qed.
  Lemma delta222_prod : (1 - delta222) * gamma222 = 1/2.
  Proof. unfold delta222. pose proof gamma222_pos. field. lra. Qed.
  Lemma imex222_local : solves I gamma222 M A solve ->
    expands 2 (fun h => im_u I (imex_step I h 2 imex222_a imex222_b M A Nw (fun v => v) (solve h) s0)) coeffs.
  Proof.
    intros So. assert (imex222_a 1%nat 1%nat = gamma222) as Hg by reflexivity. pose proof gamma222_root as Hr. pose proof delta222_prod as Hd.
    pose proof known_0 as K0. assert (E0 : forall j, (j < 1)%nat -> expands 1 (fun h => stage I h imex222_a imex222_b M A Nw (fun v => v) (solve h) s0 j) (sel [cconst I u0] j)) by (intros [|j] Hj; [apply stage_zero|lia]).
    destruct (expands_next _ imex222_b _ _ _ _ _ _ _ _ 1 Hg So ltac:(lia) K0 ltac:(cbn; lia) E0) as [_ E1].
    assert (K1 := known_next imex222_a imex222_b gamma222 _ _ _ _ _ _ _ gamma222 gamma222 0 0 (gamma222 * gamma222) (gamma222 * gamma222) K0 ltac:(cbn; lia) ltac:(num) ltac:(num) ltac:(num) ltac:(num) ltac:(num) ltac:(num)).
    set (c1 := imp_coeffs _ _ _ _) in *. clearbody c1. cbn [app] in *.
    destruct (expands_next _ imex222_b _ _ _ _ _ _ _ _ 1 Hg So ltac:(lia) K1 ltac:(cbn; lia) E1) as [E2 _].
    assert (K2 := known_next imex222_a imex222_b gamma222 _ _ _ _ _ _ _ 1 1 (1/2) (1/2) (1/2) (1/2) K1 ltac:(cbn; lia) ltac:(num) ltac:(num) ltac:(num) ltac:(num) ltac:(num) ltac:(num)).
    cbn [List.length Nat.sub] in *. set (c2 := imp_coeffs _ _ _ _) in *. clearbody c2. cbn [app] in *.
    eapply expands_coeffs; [exact E2|]. destruct K2 as [_ K2]. destruct (K2 2%nat ltac:(cbn; lia)) as (z4 & o4 & t4). unfold sel in z4, o4, t4. cbn [nth] in z4, o4, t4.
    intros k i Hk. destruct k as [|[|[|k]]]; [| | |lia].
    - rewrite z4. reflexivity.
    - rewrite o4, coeffs_1. reflexivity.
    - rewrite t4, coeffs_2. reflexivity.
  Qed.
  Lemma imex111_local : solves I 1 M A solve ->
    expands 1 (fun h => im_u I (imex_step I h 1 imex111_a imex111_b M A Nw (fun v => v) (solve h) s0)) coeffs.
  Proof.
    intros So. assert (imex111_a 1%nat 1%nat = 1) as Hg by reflexivity.
    pose proof known_0 as K0. assert (E0 : forall j, (j < 1)%nat -> expands 0 (fun h => stage I h imex111_a imex111_b M A Nw (fun v => v) (solve h) s0 j) (sel [cconst I u0] j)) by (intros [|j] Hj; [apply stage_zero|lia]).
    destruct (expands_next _ imex111_b _ _ _ _ _ _ _ _ 0 Hg So ltac:(lia) K0 ltac:(cbn; lia) E0) as [E1 _].
    assert (K1 := known_next imex111_a imex111_b 1 _ _ _ _ _ _ _ 1 1 0 0 1 1 K0 ltac:(cbn; lia) ltac:(num) ltac:(num) ltac:(num) ltac:(num) ltac:(num) ltac:(num)).
    cbn [List.length Nat.sub] in *. set (c1 := imp_coeffs _ _ _ _) in *. clearbody c1. cbn [app] in *.
    eapply expands_coeffs; [exact E1|]. destruct K1 as [_ K1]. destruct (K1 1%nat ltac:(cbn; lia)) as (z4 & o4 & t4). unfold sel in z4, o4, t4. cbn [nth] in z4, o4, t4.
    intros k i Hk. destruct k as [|[|k]]; [| |lia].
    - rewrite z4. reflexivity.
    - rewrite o4, coeffs_1. reflexivity.
  Qed.
End Imex.
