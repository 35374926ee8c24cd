(** IntegratorsProofs2.v -- smooth vector fields, exact solutions, explicit and implicit stages. *)
From Coq Require Import Reals Lra Lia List Arith Bool FunctionalExtensionality.
From Verif Require Import Base IntegratorsModel IntegratorsProofs StencilProofs StencilProofs8.
Import ListNotations.
Local Open Scope R_scope.

Section Smooth.
  Variable I : Type.
  Notation vec := (vec I).
  Notation vadd := (vadd I).
  Notation vscal := (vscal I).
  Notation vsub := (vsub I).
  Notation vzero := (vzero I).
  Notation expands := (expands I).
  Notation bounded := (bounded I).

  Definition linear (F : vec -> vec) : Prop :=
    (forall u v, F (vadd u v) = vadd (F u) (F v)) /\ (forall a u, F (vscal a u) = vscal a (F u)).
  (** linear and continuous, in the sense of commuting with expansions *)
  Definition regular (L : vec -> vec) : Prop :=
    linear L /\ (forall g, bounded g -> bounded (fun h => L (g h))) /\
    (forall n g c, expands n g c -> expands n (fun h => L (g h)) (fun k => L (c k))).
  Definition bilinear (F : vec -> vec -> vec) : Prop := (forall u, linear (F u)) /\ (forall u, linear (fun v => F v u)) /\ (forall u v, F u v = F v u).
  Definition trilinear (F : vec -> vec -> vec -> vec) : Prop :=
    (forall u v, linear (F u v)) /\ (forall u v, linear (fun w => F u w v)) /\ (forall u v, linear (fun w => F w u v)).
  (** the Taylor coefficients of h |-> N(c 0 + c 1 h + c 2 h^2 + c 3 h^3 + ...), when F1, F2, F3 are the
      derivatives of N at c 0 *)
  Definition compose (N0 : vec) (F1 : vec -> vec) (F2 : vec -> vec -> vec) (F3 : vec -> vec -> vec -> vec) (c : nat -> vec) (k : nat) : vec :=
    match k with
    | 0 => N0
    | 1 => F1 (c 1%nat)
    | 2 => vadd (F1 (c 2%nat)) (vscal (1/2) (F2 (c 1%nat) (c 1%nat)))
    | 3 => vadd (F1 (c 3%nat)) (vadd (F2 (c 1%nat) (c 2%nat)) (vscal (1/6) (F3 (c 1%nat) (c 1%nat) (c 1%nat))))
    | _ => vzero
    end.
  (** N has derivatives F1, F2, F3 at u0: along every curve through u0 with an expansion of order
      n <= 3, N has the expansion given by the chain rule (Taylor's theorem for a C^4 function) *)
  Definition smooth (N : vec -> vec) (u0 : vec) F1 F2 F3 : Prop :=
    linear F1 /\ bilinear F2 /\ trilinear F3 /\
    forall n g c, (n <= 3)%nat -> c 0%nat = u0 -> expands n g c -> expands n (fun h => N (g h)) (compose (N u0) F1 F2 F3 c).

  Lemma vec_eq (u v : vec) : (forall i, u i = v i) -> u = v.
  Proof. intros. apply functional_extensionality. auto. Qed.
  Lemma lin_zero F : linear F -> F vzero = vzero.
  Proof. intros [_ H]. replace vzero with (vscal 0 vzero) at 1 by (apply vec_eq; intros; unfold vscal, vzero; ring). rewrite H. apply vec_eq. intros; unfold vscal, vzero; ring. Qed.

  Lemma smooth_plus_linear N u0 F1 F2 F3 L : smooth N u0 F1 F2 F3 -> regular L ->
    smooth (fun u => vadd (N u) (L u)) u0 (fun v => vadd (F1 v) (L v)) F2 F3.
  Proof.
    intros ((A1 & A2) & B & C & H) (Lin & _ & R). destruct Lin as [L1 L2]. split; [|split; [exact B|split; [exact C|]]].
    - split; intros; apply vec_eq; intros i; rewrite ?A1, ?A2, ?L1, ?L2; unfold vadd, vscal, IntegratorsModel.vadd, IntegratorsModel.vscal; ring.
    - intros n g c Hn H0 E. eapply expands_coeffs; [apply (expands_add I n _ _ _ _ (H n g c Hn H0 E) (R n g c E))|].
      intros k i Hk. cbv beta. rewrite <- H0. destruct k as [|[|[|[|k]]]]; cbn [compose]; try lia; unfold vadd, IntegratorsModel.vadd; try ring.
  Qed.

  (** the exact solution of y' = G(y), y(0) = u0 *)
  Definition solution (G : vec -> vec) (u0 : vec) (y : R -> vec) : Prop :=
    y 0 = u0 /\ forall i, near0 (fun h => derivable_pt_lim (fun h => y h i) h (G (y h) i)).
  Lemma solution_expands G u0 y F1 F2 F3 : smooth G u0 F1 F2 F3 -> solution G u0 y ->
    let lift := fun c => cint I u0 (compose (G u0) F1 F2 F3 c) in
    forall n, (n <= 4)%nat -> expands n y (Nat.iter n lift (cconst I u0)).
  Proof.
    intros (_ & _ & _ & S) [Y0 D] lift. induction n as [|n IH]; intros Hn.
    - cbn. rewrite <- Y0. apply (expands_derivable I y (fun h => G (y h)) D).
    - change (Nat.iter (Datatypes.S n) lift (cconst I u0)) with (lift (Nat.iter n lift (cconst I u0))). unfold lift at 1.
      assert (E := expands_int I n y (fun h => G (y h)) (compose (G u0) F1 F2 F3 (Nat.iter n lift (cconst I u0))) D). rewrite Y0 in E. apply E.
      apply S; [lia| |apply IH; lia]. destruct n; reflexivity.
  Qed.
  (** its Taylor coefficients *)
  Definition exact_coeffs (f : vec) (u0 : vec) (F1 : vec -> vec) (F2 : vec -> vec -> vec) (F3 : vec -> vec -> vec -> vec) (k : nat) : vec :=
    let Y1 := f in
    let Y2 := vscal (1/2) (F1 Y1) in
    let Y3 := vscal (1/3) (vadd (F1 Y2) (vscal (1/2) (F2 Y1 Y1))) in
    match k with
    | 0 => u0 | 1 => Y1 | 2 => Y2 | 3 => Y3
    | 4 => vscal (1/4) (vadd (F1 Y3) (vadd (F2 Y1 Y2) (vscal (1/6) (F3 Y1 Y1 Y1))))
    | _ => vzero
    end.
  Lemma vscal_1 u : vscal (/ 1) u = u.
  Proof. apply vec_eq. intros. unfold vscal, IntegratorsModel.vscal. field. Qed.
  Lemma vscal_1' u : vscal 1 u = u.
  Proof. apply vec_eq. intros. unfold vscal, IntegratorsModel.vscal. ring. Qed.
  Lemma solution_coeffs G u0 y F1 F2 F3 n : smooth G u0 F1 F2 F3 -> solution G u0 y -> (n <= 4)%nat ->
    expands n y (exact_coeffs (G u0) u0 F1 F2 F3).
  Proof.
    intros S Y Hn. apply (expands_le I n 4); [exact Hn|]. eapply expands_coeffs; [apply (solution_expands G u0 y F1 F2 F3 S Y 4); lia|].
    intros k i Hk. assert (/ INR 1 = 1) as E1 by (cbn; field). assert (/ INR 2 = 1/2) as E2 by (cbn; field). assert (/ INR 3 = 1/3) as E3 by (cbn; field). assert (/ INR 4 = 1/4) as E4 by (cbn; field).
    destruct k as [|[|[|[|[|k]]]]]; [| | | | |lia]; cbn [Nat.iter nat_rect cint compose exact_coeffs]; rewrite ?E1, ?E2, ?E3, ?E4, ?vscal_1'; reflexivity.
  Qed.

  (** ** implicit stages: U = solve (dt, rhs) with (M - dt g A) U = rhs *)
  Definition inverse_of (M Minv : vec -> vec) : Prop := (forall u, Minv (M u) = u) /\ (forall u, M (Minv u) = u).
  Definition solves (g : R) (M A : vec -> vec) (solve : R -> vec -> vec) : Prop :=
    near0 (fun h => forall r, vsub (M (solve h r)) (vscal (h * g) (A (solve h r))) = r) /\
    (forall f, bounded f -> bounded (fun h => solve h (f h))).
  (** coefficients of the solution of U = W + g h L U *)
  Fixpoint imp_coeffs (g : R) (L : vec -> vec) (w : nat -> vec) (k : nat) : vec :=
    match k with 0 => w 0%nat | S k => vadd (w (S k)) (vscal g (L (imp_coeffs g L w k))) end.
  Lemma implicit_stage g M Minv A solve rhs w n : inverse_of M Minv -> regular M -> regular Minv -> regular A -> solves g M A solve ->
    expands n (fun h => Minv (rhs h)) w ->
    expands n (fun h => solve h (rhs h)) (imp_coeffs g (fun u => Minv (A u)) w).
  Proof.
    intros [I1 I2] RM RMi RA [S1 S2] W.
    assert (bounded rhs) as Br.
    { destruct RM as (_ & B & _). assert (bounded (fun h => M (Minv (rhs h)))) as H by (apply B; eapply expands_0_bounded, (expands_le I 0 n); [lia|exact W]).
      intros i. destruct (H i) as (C & HC). exists C. revert HC. apply near0_impl. intros h. rewrite I2. auto. }
    set (U := fun h => solve h (rhs h)). set (L := fun u => Minv (A u)).
    assert (forall i, near0 (fun h => vadd (Minv (rhs h)) (vscal h (vscal g (L (U h)))) i = U h i)) as EU.
    { intros i. revert S1. apply near0_impl. intros h Hh. specialize (Hh (rhs h)). fold (U h) in Hh. rewrite <- Hh. unfold L.
      destruct RMi as ([L1 L2] & _ & _).
      assert (vsub (M (U h)) (vscal (h * g) (A (U h))) = vadd (M (U h)) (vscal (- (h * g)) (A (U h)))) as -> by (apply vec_eq; intros; unfold vsub, vadd, vscal, IntegratorsModel.vsub, IntegratorsModel.vadd, IntegratorsModel.vscal; ring).
      rewrite L1, L2, I1. unfold vadd, vscal, IntegratorsModel.vadd, IntegratorsModel.vscal. ring. }
    assert (bounded U) as BU by (apply S2; exact Br).
    assert (regular L) as (_ & BL & RL).
    { destruct RA as ([a1 a2] & a3 & a4), RMi as ([m1 m2] & m3 & m4). split; [split; intros; unfold L; rewrite ?a1, ?a2, ?m1, ?m2; reflexivity|]. split.
      - intros f Hf. apply m3, a3, Hf.
      - intros m f c Hf. apply (m4 m _ _ (a4 m _ _ Hf)). }
    assert (forall m, (m <= n)%nat -> expands m U (imp_coeffs g L w)) as HH; [|apply HH; lia].
    induction m as [|m IH]; intros Hm.
    - eapply expands_ext; [|exact EU|].
      + apply expands_add; [apply (expands_le I 0 n); [lia|exact W]|]. apply bounded_hmul. intros i. destruct (BL U BU i) as (C & HC). exists (Rabs g * C). revert HC. apply near0_impl. intros h Hh.
        unfold vscal, IntegratorsModel.vscal. rewrite Rabs_mult. apply Rmult_le_compat_l; [apply Rabs_pos|exact Hh].
      + intros k i Hk. replace k with 0%nat by lia. cbn. unfold vzero, IntegratorsModel.vadd, IntegratorsModel.vzero. ring.
    - eapply expands_ext; [|exact EU|].
      + apply expands_add; [apply (expands_le I (S m) n); [lia|exact W]|]. apply expands_hmul, expands_scal, RL, IH. lia.
      + intros k i Hk. destruct k; cbn; unfold IntegratorsModel.vadd, IntegratorsModel.vzero, vzero; [ring|reflexivity].
  Qed.

  (** rewriting with linearity *)
  Lemma smooth_lin N u0 F1 F2 F3 : smooth N u0 F1 F2 F3 ->
    (forall u v, F1 (vadd u v) = vadd (F1 u) (F1 v)) /\ (forall a u, F1 (vscal a u) = vscal a (F1 u)) /\ F1 vzero = vzero /\
    (forall u v w, F2 (vadd u v) w = vadd (F2 u w) (F2 v w)) /\ (forall a u w, F2 (vscal a u) w = vscal a (F2 u w)) /\ (forall w, F2 vzero w = vzero) /\
    (forall u v w, F2 w (vadd u v) = vadd (F2 w u) (F2 w v)) /\ (forall a u w, F2 w (vscal a u) = vscal a (F2 w u)) /\ (forall w, F2 w vzero = vzero) /\
    (forall u v, F2 u v = F2 v u) /\
    (forall a u v w, F3 (vscal a u) v w = vscal a (F3 u v w)) /\ (forall a u v w, F3 u (vscal a v) w = vscal a (F3 u v w)) /\ (forall a u v w, F3 u v (vscal a w) = vscal a (F3 u v w)) /\
    (forall u u' v w, F3 (vadd u u') v w = vadd (F3 u v w) (F3 u' v w)) /\ (forall u v v' w, F3 u (vadd v v') w = vadd (F3 u v w) (F3 u v' w)) /\ (forall u v w w', F3 u v (vadd w w') = vadd (F3 u v w) (F3 u v w')).
  Proof.
    intros ([A1 A2] & (B1 & B2 & B3) & (C1 & C2 & C3) & _).
    repeat match goal with |- _ /\ _ => split end; auto; intros;
    try apply (lin_zero _ (conj A1 A2)); try apply (lin_zero _ (B1 w)); try apply (lin_zero _ (B2 w));
    try apply (proj1 (B1 w)); try apply (proj2 (B1 w)); try apply (proj1 (B2 w)); try apply (proj2 (B2 w));
    try apply (proj2 (C1 u v)); try apply (proj2 (C2 u w)); try apply (proj2 (C3 v w)); try apply (proj1 (C1 u v)); try apply (proj1 (C2 u w)); try apply (proj1 (C3 v w)).
  Qed.
End Smooth.
