(** LegMatrixProofs4.v -- transposes, integration by parts, dense and biharmonic matrices. *)
From Coq Require Import Reals Lra Lia List Arith ZArith.
From Verif Require Import Base Fld SparseModel SparseSpec RPoly StencilModel StencilModel2 StencilSpec StencilProofs StencilProofs3
  MatrixSpec MatrixProofs MatrixProofs2 LegMatrixModel LegMatrixSpec LegMatrixProofs LegMatrixProofs2 LegMatrixProofs3.
Import ListNotations.
Local Open Scope R_scope.

Definition entry_val (sc : bool) (N : nat) (s1 : lspace) (a : nat) (s2 : lspace) (b : nat) (w : weight) (k j : nat) : R :=
  ip (pmul (wpoly w) (dn a (space_basis sc s1 N k))) (dn b (space_basis sc s2 N j)).
Definition vals (sc : bool) (N : nat) (s1 : lspace) (a : nat) (s2 : lspace) (b : nat) (w : weight) (A : smat RFld) : Prop :=
  forall k j, (k < space_dim sc s1 N)%nat -> (j < space_dim sc s2 N)%nat -> mat_entry RFld A k j = entry_val sc N s1 a s2 b w k j.
Lemma vals_ok sc N s1 a s2 b w A : sm_rows RFld A = space_dim sc s1 N -> sm_cols RFld A = space_dim sc s2 N ->
  vals sc N s1 a s2 b w A -> entry_ok sc N (mkEntry s1 a s2 b w A).
Proof.
  intros Hr Hc H. split; [exact Hr|]. split; [exact Hc|]. intros k j Hk Hj. cbn [le_test le_testd le_trial le_triald le_weight le_mat] in *.
  rewrite H by assumption. apply leg_inner_ip.
Qed.
Lemma vals_stencil sc N s1 a s2 b w A D :
  (forall n m, ip (pmul (wpoly w) (dn a (legL n))) (dn b (legL m)) = D n m) ->
  (forall k j, (k < space_dim sc s1 N)%nat -> (j < space_dim sc s2 N)%nat -> mat_entry RFld A k j =
     stencil_sum (space_stencil sc s1) (INR k) (fun o => stencil_sum (space_stencil sc s2) (INR j) (fun o' => D (o + k)%nat (o' + j)%nat))) ->
  vals sc N s1 a s2 b w A.
Proof.
  intros HD H k j Hk Hj. rewrite H by assumption. unfold entry_val.
  rewrite (ip_stencils _ _ _ _ _ _ _ _ _ _ _ (space_expands sc s1 N) (space_expands sc s2 N) Hk Hj).
  apply stencil_sum_ext. intros o. apply stencil_sum_ext. intros o'. symmetry. apply HD.
Qed.
Lemma vals_tsum N s1 a s2 b w A D :
  (forall n m, ip (pmul (wpoly w) (dn a (legL n))) (dn b (legL m)) = D n m) ->
  (forall k j, mat_entry RFld A k j = tsum D s1 s2 k j) -> vals false N s1 a s2 b w A.
Proof. intros HD H. apply vals_stencil with (D := D); [exact HD|]. intros k j _ _. apply H. Qed.

(** transposed matrices *)
Lemma entry_val_swap sc N s1 a s2 b w k j : entry_val sc N s1 a s2 b w k j = entry_val sc N s2 b s1 a w j k.
Proof. unfold entry_val. rewrite ip_mul_l, ip_comm. reflexivity. Qed.
Lemma vals_swap sc N s1 a s2 b w A A' : (forall k j, mat_entry RFld A' k j = mat_entry RFld A j k) ->
  vals sc N s1 a s2 b w A -> vals sc N s2 b s1 a w A'.
Proof. intros E H k j Hk Hj. rewrite E, entry_val_swap. apply H; assumption. Qed.
Lemma scale_entry s A k j : sm_scale RFld A = 1 -> mat_entry RFld (partial_scale s A) k j = s * mat_entry RFld A k j.
Proof.
  intros H. unfold mat_entry, partial_scale. cbn [sm_items sm_scale]. rewrite H.
  destruct (lookup RFld (sm_items RFld A) _); cbn; ring.
Qed.

(** integration by parts *)
Lemma parts2 u v : peval u 1 * peval (dn 1 v) 1 = 0 -> peval u (-1) * peval (dn 1 v) (-1) = 0 ->
  ip (pmul w0 u) (dn 2 v) = - ip (pmul w0 (dn 1 u)) (dn 1 v).
Proof.
  intros H1 H2. rewrite !ip_w0, ip_comm. change (dn 2 v) with (pderiv (dn 1 v)). rewrite ip_parts.
  rewrite (Rmult_comm (peval _ 1)), H1, (Rmult_comm (peval _ (-1))), H2, ip_comm. cbn [dn]. ring.
Qed.
Lemma parts2' u v : peval (dn 1 u) 1 * peval v 1 = 0 -> peval (dn 1 u) (-1) * peval v (-1) = 0 ->
  ip (pmul w0 (dn 2 u)) v = - ip (pmul w0 (dn 1 u)) (dn 1 v).
Proof.
  intros H1 H2. rewrite !ip_w0. change (dn 2 u) with (pderiv (dn 1 u)). rewrite ip_parts, H1, H2. cbn [dn]. ring.
Qed.
Lemma dn_dn a b p : dn a (dn b p) = dn (a + b) p.
Proof. induction a; cbn [dn Nat.add]; [reflexivity|]. rewrite IHa. reflexivity. Qed.
Lemma parts4 u v : peval u 1 * peval (dn 3 v) 1 = 0 -> peval u (-1) * peval (dn 3 v) (-1) = 0 ->
  peval (dn 1 u) 1 * peval (dn 2 v) 1 = 0 -> peval (dn 1 u) (-1) * peval (dn 2 v) (-1) = 0 ->
  ip (pmul w0 u) (dn 4 v) = ip (pmul w0 (dn 2 u)) (dn 2 v).
Proof.
  intros H1 H2 H3 H4. change (dn 4 v) with (dn 2 (dn 2 v)). rewrite parts2 by assumption.
  rewrite parts2' by assumption. reflexivity.
Qed.

(** boundary values of the bases *)
Definition bc_of (sc : bool) (s : lspace) : list bcond := sc_bcs (space_class sc s).
Lemma space_bcs sc s N k c : (k < space_dim sc s N)%nat -> In c (bc_of sc s) ->
  peval (dn (bc_order c) (space_basis sc s N k)) (end_point (bc_side c)) = 0.
Proof.
  intros Hk Hc.
  assert (B : s = SpL \/ bcs_ok legL (space_class sc s)).
  { pose proof legendre_ok as LO. rewrite Forall_forall in LO.
    destruct s; [left; reflexivity|right..]; apply LO; unfold legendre_classes; destruct sc; cbn [space_class In]; tauto. }
  destruct B as [->|B]; [destruct Hc|].
  pose proof (B N k Hk) as F. rewrite Forall_forall in F. specialize (F c Hc). unfold satisfies, deriv_at in F.
  destruct s; [destruct Hc|exact F..].
Qed.
Ltac bc0 sc s N k c := let H := fresh "B" in
  pose proof (space_bcs sc s N k c) as H; cbn [bc_order bc_side end_point bc_of] in H.

Definition second_ok (s : lspace) : bool := match s with SpSD | SpSB | SpSN | SpDN => true | _ => false end.
Lemma ends2 sc s N k j : second_ok s = true -> (k < space_dim sc s N)%nat -> (j < space_dim sc s N)%nat ->
  let u := space_basis sc s N k in let v := space_basis sc s N j in
  peval u 1 * peval (dn 1 v) 1 = 0 /\ peval u (-1) * peval (dn 1 v) (-1) = 0.
Proof.
  intros Hs Hk Hj. cbv zeta. destruct s; try discriminate Hs.
  - bc0 sc SpSD N k (mkBc Right 0). bc0 sc SpSD N k (mkBc Left 0). cbn [dn] in B, B0.
    rewrite B, B0; [lra|assumption|destruct sc; cbn; tauto|assumption|destruct sc; cbn; tauto].
  - bc0 sc SpSB N k (mkBc Right 0). bc0 sc SpSB N k (mkBc Left 0). cbn [dn] in B, B0.
    rewrite B, B0; [lra|assumption|cbn; tauto|assumption|cbn; tauto].
  - bc0 sc SpSN N j (mkBc Right 1). bc0 sc SpSN N j (mkBc Left 1).
    rewrite B, B0; [lra|assumption|cbn; tauto|assumption|cbn; tauto].
  - bc0 sc SpDN N j (mkBc Right 1). bc0 sc SpDN N k (mkBc Left 0). cbn [dn] in B0.
    rewrite B, B0; [lra|assumption|cbn; tauto|assumption|cbn; tauto].
Qed.
Definition fourth_ok (s : lspace) : bool := match s with SpSB | SpBF => true | _ => false end.
Lemma ends4 sc s N k j : fourth_ok s = true -> (k < space_dim sc s N)%nat -> (j < space_dim sc s N)%nat ->
  let u := space_basis sc s N k in let v := space_basis sc s N j in
  peval u 1 * peval (dn 3 v) 1 = 0 /\ peval u (-1) * peval (dn 3 v) (-1) = 0 /\
  peval (dn 1 u) 1 * peval (dn 2 v) 1 = 0 /\ peval (dn 1 u) (-1) * peval (dn 2 v) (-1) = 0.
Proof.
  intros Hs Hk Hj. cbv zeta. destruct s; try discriminate Hs.
  - bc0 sc SpSB N k (mkBc Right 0). bc0 sc SpSB N k (mkBc Left 0). bc0 sc SpSB N k (mkBc Right 1). bc0 sc SpSB N k (mkBc Left 1).
    change (dn 0 (space_basis sc SpSB N k)) with (space_basis sc SpSB N k) in *.
    rewrite B, B0, B1, B2; [repeat split; lra|assumption|cbn; tauto|assumption|cbn; tauto|assumption|cbn; tauto|assumption|cbn; tauto].
  - bc0 sc SpBF N j (mkBc Right 3). bc0 sc SpBF N k (mkBc Left 0). bc0 sc SpBF N j (mkBc Right 2). bc0 sc SpBF N k (mkBc Left 1).
    change (dn 0 (space_basis sc SpBF N k)) with (space_basis sc SpBF N k) in *.
    rewrite B, B0, B1, B2; [repeat split; lra|assumption|cbn; tauto|assumption|cbn; tauto|assumption|cbn; tauto|assumption|cbn; tauto].
Qed.
Lemma vals_parts_02 sc N s A : second_ok s = true -> sm_scale RFld A = 1 -> vals sc N s 1 s 1 W1 A -> vals sc N s 0 s 2 W1 (partial_scale (-1) A).
Proof.
  intros Hs H1 H k j Hk Hj. rewrite scale_entry by exact H1. rewrite H by assumption.
  destruct (ends2 sc s N k j Hs Hk Hj) as [E1 E2].
  unfold entry_val. cbn [wpoly]. change (dn 0 (space_basis sc s N k)) with (space_basis sc s N k). rewrite parts2 by assumption. change (@eq (car RFld)) with (@eq R). ring.
Qed.
Lemma vals_parts_20 sc N s A : second_ok s = true -> sm_scale RFld A = 1 -> vals sc N s 1 s 1 W1 A -> vals sc N s 2 s 0 W1 (partial_scale (-1) A).
Proof.
  intros Hs H1 H k j Hk Hj. rewrite scale_entry by exact H1. rewrite H by assumption.
  destruct (ends2 sc s N j k Hs Hj Hk) as [E1 E2].
  unfold entry_val. cbn [wpoly]. change (dn 0 (space_basis sc s N j)) with (space_basis sc s N j).
  rewrite parts2' by (rewrite Rmult_comm; assumption). change (@eq (car RFld)) with (@eq R). ring.
Qed.
Lemma vals_parts_22 sc N s A : fourth_ok s = true -> vals sc N s 0 s 4 W1 A -> vals sc N s 2 s 2 W1 A.
Proof.
  intros Hs H k j Hk Hj. rewrite H by assumption. destruct (ends4 sc s N k j Hs Hk Hj) as (E1 & E2 & E3 & E4).
  unfold entry_val. cbn [wpoly]. change (dn 0 (space_basis sc s N k)) with (space_basis sc s N k). apply parts4; assumption.
Qed.
Lemma val_04_sym sc N s k j : fourth_ok s = true -> (k < space_dim sc s N)%nat -> (j < space_dim sc s N)%nat ->
  entry_val sc N s 0 s 4 W1 k j = entry_val sc N s 0 s 4 W1 j k.
Proof.
  intros Hs Hk Hj. destruct (ends4 sc s N k j Hs Hk Hj) as (E1 & E2 & E3 & E4). destruct (ends4 sc s N j k Hs Hj Hk) as (F1 & F2 & F3 & F4).
  unfold entry_val. cbn [wpoly]. change (dn 0 (space_basis sc s N k)) with (space_basis sc s N k).
  change (dn 0 (space_basis sc s N j)) with (space_basis sc s N j).
  rewrite !parts4 by assumption. rewrite !ip_w0. apply ip_comm.
Qed.

(** fourth derivatives: the matrices are diagonal *)
Lemma t04_zero n m : (m < n + 4)%nat -> ip (pmul w0 (dn 0 (legL n))) (dn 4 (legL m)) = 0.
Proof. intros H. rewrite ip_w0. apply leg_orthd, deglt_leg_dn. lia. Qed.
Ltac kill04 := repeat match goal with |- context [ip (pmul w0 (dn 0 (legL ?n))) (dn 4 (legL ?m))] => rewrite (t04_zero n m) by lia end.
Lemma val_04_lower s N k j : fourth_ok s = true -> (j < k)%nat -> (k < space_dim false s N)%nat -> entry_val false N s 0 s 4 W1 k j = 0.
Proof.
  intros Hs L Hk. unfold entry_val.
  assert (Hj : (j < space_dim false s N)%nat) by lia.
  rewrite (ip_stencils _ _ _ _ _ _ _ _ _ _ _ (space_expands false s N) (space_expands false s N) Hk Hj).
  destruct s; try discriminate Hs; cbn [space_stencil space_class sc_stencil legendre_ShenBiharmonic legendre_BeamFixedFree stencil_sum wpoly];
    kill04; ring.
Qed.
Definition stencil_head (s : lspace) (x : R) : R := stencil_sum (space_stencil false s) x (fun o => if Nat.eqb o 4 then 1 else 0).
Lemma val_04_diag s N k : fourth_ok s = true -> (k < space_dim false s N)%nat -> entry_val false N s 0 s 4 W1 k k =
  stencil_head s (INR k) * (2 * (v3 (k + 4) - v1 k * v2 (k + 4) + v2 k * v1 (k + 4) - v3 k)).
Proof.
  intros Hs Hk. unfold entry_val.
  rewrite (ip_stencils _ _ _ _ _ _ _ _ _ _ _ (space_expands false s N) (space_expands false s N) Hk Hk).
  rewrite <- t04_diag. unfold stencil_head.
  destruct s; try discriminate Hs; cbn [space_stencil space_class sc_stencil legendre_ShenBiharmonic legendre_BeamFixedFree stencil_sum wpoly Nat.eqb];
    kill04; rewrite (Nat.add_comm k 4), ip_w0; cbn [dn Nat.add sval]; ring.
Qed.
Lemma diag_entry N n f k j : mat_entry RFld (dmat N N [(0%Z, arr n f)]) k j = if Nat.eqb k j then f k else 0.
Proof.
  entry. destruct (Nat.eqb_spec k j) as [->|]; decide_nat; [|reflexivity]. cbn. ring.
Qed.
Lemma vals_04 s N f : fourth_ok s = true ->
  (forall k, f k = stencil_head s (INR k) * (2 * (v3 (k + 4) - v1 k * v2 (k + 4) + v2 k * v1 (k + 4) - v3 k))) ->
  forall M n, vals false N s 0 s 4 W1 (dmat M M [(0%Z, arr n f)]).
Proof.
  intros Hs Hf M n k j Hk Hj. rewrite diag_entry. destruct (Nat.eqb_spec k j) as [->|NE].
  - rewrite val_04_diag, Hf by assumption. reflexivity.
  - symmetry. destruct (Nat.lt_ge_cases j k).
    + apply val_04_lower; assumption.
    + rewrite val_04_sym by assumption. apply val_04_lower; [assumption|lia|assumption].
Qed.
Lemma SSBSB_04 N : vals false N SpSB 0 SpSB 4 W1 (SSBSBmat N).
Proof.
  unfold SSBSBmat. apply vals_04; [reflexivity|]. intros k. cbv zeta. unfold stencil_head, v1, v2, v3, vL.
  cbn [space_stencil space_class sc_stencil legendre_ShenBiharmonic stencil_sum sval Nat.eqb]. rewrite !plus_INR. cbn [INR]. absx. field. neq0.
Qed.
Lemma SBFBF_04 N : vals false N SpBF 0 SpBF 4 W1 (SBFBFmat N).
Proof.
  unfold SBFBFmat. apply vals_04; [reflexivity|]. intros k. cbv zeta. unfold stencil_head, v1, v2, v3, vL.
  cbn [space_stencil space_class sc_stencil legendre_BeamFixedFree stencil_sum sval Nat.eqb]. rewrite !plus_INR. cbn [INR]. absx. field. neq0.
Qed.
