(** LegMatrixProofs6.v -- every entry of the dictionary. *)
From Coq Require Import Reals Lra Lia List Arith ZArith.
From Verif Require Import Base Fld SparseModel SparseSpec RPoly StencilModel StencilModel2 StencilSpec StencilProofs StencilProofs3
  MatrixSpec MatrixProofs MatrixProofs2 LegMatrixModel LegMatrixSpec LegMatrixProofs LegMatrixProofs2 LegMatrixProofs3 LegMatrixProofs4 LegMatrixProofs5.
Import ListNotations.
Local Open Scope R_scope.

Definition e_vals (sc : bool) (N : nat) (e : lentry) : Prop :=
  vals sc N (le_test e) (le_testd e) (le_trial e) (le_triald e) (le_weight e) (le_mat e).
Lemma e_vals_mk sc N s1 a s2 b w A : vals sc N s1 a s2 b w A -> e_vals sc N (mkEntry s1 a s2 b w A). Proof. exact (fun H => H). Qed.

Lemma mass_vals h N s1 s2 A : (forall i, h i = leg_L2_norm_sq i) ->
  (forall k j, mat_entry RFld A k j = mass_sum h (space_stencil false s1) (space_stencil false s2) k j) ->
  vals false N s1 0 s2 0 W1 A.
Proof.
  intros Hh H. apply vals_stencil with (D := T00).
  - intros n m. cbn [wpoly dn]. rewrite ip_w0. apply t00.
  - intros k j _ _. rewrite H. apply stencil_sum_ext. intros o. apply stencil_sum_ext. intros o'.
    unfold T00h, T00. rewrite Hh. reflexivity.
Qed.

Lemma AW n m : ip (pmul (wpoly W1) (dn 0 (legL n))) (dn 1 (legL m)) = T01 n m.
Proof. cbn [wpoly]. rewrite ip_w0. apply t01. Qed.
Lemma A11 n m : ip (pmul (wpoly W1) (dn 1 (legL n))) (dn 1 (legL m)) = T11 n m.
Proof. cbn [wpoly]. rewrite ip_w0. apply t11. Qed.

Ltac rn := cbn [dget]; change (@fmul RFld) with Rmult; change (@f0 RFld) with 0; change (@f1 RFld) with 1; change (@eq (car RFld)) with (@eq R).

Lemma CSDL_T N sc k j : mat_entry RFld (CSDLmat N sc) k j = mat_entry RFld (CLSDmat N sc) j k.
Proof.
  unfold CSDLmat, CLSDmat, mat_entry, dmat. cbn [sm_items sm_scale lookup]. rewrite (Nat.min_comm k j).
  destruct (Z.eq_dec 1 (Z.of_nat j - Z.of_nat k)); destruct (Z.eq_dec (-1) (Z.of_nat k - Z.of_nat j)); try lia; reflexivity.
Qed.
Lemma CSDSD_T N k j : mat_entry RFld (partial_scale (-1) (CSDSDmat N false)) k j = mat_entry RFld (CSDSDmat N false) j k.
Proof.
  rewrite scale_entry by reflexivity. change (@eq (car RFld)) with (@eq R).
  unfold CSDSDmat, mat_entry, dmat. cbn [sm_items sm_scale lookup].
  destruct (Z.eq_dec (-1) (Z.of_nat j - Z.of_nat k)); destruct (Z.eq_dec (-1) (Z.of_nat k - Z.of_nat j)); try lia.
  - destruct (Z.eq_dec 1 (Z.of_nat k - Z.of_nat j)); [|lia]. rn; ring.
  - destruct (Z.eq_dec 1 (Z.of_nat j - Z.of_nat k)); [|lia]. rn; ring.
  - destruct (Z.eq_dec 1 (Z.of_nat j - Z.of_nat k)); destruct (Z.eq_dec 1 (Z.of_nat k - Z.of_nat j)); try lia. rn; ring.
Qed.
Lemma ASDSD2T_T N k j : mat_entry RFld (ASDSD2Trp1mat N) k j = mat_entry RFld (ASDSD2rp1mat N) j k.
Proof.
  unfold ASDSD2Trp1mat, ASDSD2rp1mat, mat_entry, dmat. cbn [sm_items sm_scale lookup]. rewrite (Nat.min_comm k j).
  destruct (Z.eq_dec 0 (Z.of_nat j - Z.of_nat k)); destruct (Z.eq_dec 0 (Z.of_nat k - Z.of_nat j)); try lia; [reflexivity|].
  destruct (Z.eq_dec (-1) (Z.of_nat j - Z.of_nat k)); destruct (Z.eq_dec 1 (Z.of_nat k - Z.of_nat j)); try lia; [reflexivity|].
  destruct (Z.eq_dec 1 (Z.of_nat j - Z.of_nat k)); destruct (Z.eq_dec (-1) (Z.of_nat k - Z.of_nat j)); try lia; reflexivity.
Qed.

Lemma ASDSD_11 N : vals false N SpSD 1 SpSD 1 W1 (ASDSDmat N false).
Proof. apply vals_tsum with (D := T11); [apply A11|apply ASDSD_sum]. Qed.
Lemma ASNSN_11 N : vals false N SpSN 1 SpSN 1 W1 (ASNSNmat N).
Proof. apply vals_tsum with (D := T11); [apply A11|apply ASNSN_sum]. Qed.
Lemma ASBSB_11 N : vals false N SpSB 1 SpSB 1 W1 (ASBSBmat N).
Proof. apply vals_tsum with (D := T11); [apply A11|apply ASBSB_sum]. Qed.
Lemma ADNDN_11 N : vals false N SpDN 1 SpDN 1 W1 (ADNDNmat N).
Proof. apply vals_tsum with (D := T11); [apply A11|apply ADNDN_sum]. Qed.
Lemma CLSD_01 N : vals false N SpL 0 SpSD 1 W1 (CLSDmat N false).
Proof. apply vals_tsum with (D := T01); [apply AW|apply CLSD_sum]. Qed.
Lemma CSDSD_01 N : vals false N SpSD 0 SpSD 1 W1 (CSDSDmat N false).
Proof. apply vals_tsum with (D := T01); [apply AW|apply CSDSD_sum]. Qed.
Lemma ASDSD2_02 N : vals false N SpSD 0 SpSD 2 W1x (ASDSD2rp1mat N).
Proof. apply vals_tsum with (D := T02w1); [intros n m; cbn [wpoly]; apply t02w1|apply ASDSD2rp1_sum]. Qed.

Lemma legendre_vals h N : (forall i, h i = leg_L2_norm_sq i) -> Forall (e_vals false N) (legendre_mat h false N).
Proof.
  intros Hh. unfold legendre_mat. repeat apply Forall_cons; try apply Forall_nil; apply e_vals_mk.
  - apply (mass_vals h); [exact Hh|apply BLL_sum].
  - apply CLL_vals.
  - apply CLLT_vals.
  - apply CLSD_01.
  - eapply vals_swap; [|apply CLSD_01]. apply CSDL_T.
  - apply CSDSD_01.
  - eapply vals_swap; [|apply CSDSD_01]. apply CSDSD_T.
  - apply (mass_vals h); [exact Hh|apply BSDSD_sum].
  - apply (mass_vals h); [exact Hh|apply BSBSB_sum].
  - apply (mass_vals h); [exact Hh|apply BSNSN_sum].
  - apply (mass_vals h); [exact Hh|apply BSDL_sum].
  - apply (mass_vals h); [exact Hh|apply BLSD_sum].
  - apply ASDSD_11.
  - apply vals_parts_20; [reflexivity..|apply ASDSD_11].
  - apply vals_parts_02; [reflexivity..|apply ASDSD_11].
  - apply ASNSN_11.
  - apply vals_parts_20; [reflexivity..|apply ASNSN_11].
  - apply vals_parts_02; [reflexivity..|apply ASNSN_11].
  - apply ALLT_vals.
  - apply ALL_vals.
  - apply vals_parts_22; [reflexivity|apply SSBSB_04].
  - apply ASBSB_11.
  - apply vals_parts_02; [reflexivity..|apply ASBSB_11].
  - apply vals_parts_20; [reflexivity..|apply ASBSB_11].
  - apply SSBSB_04.
  - eapply vals_swap; [|apply SSBSB_04]. intros k j. unfold SSBSBmat. rewrite !diag_entry, Nat.eqb_sym. destruct (Nat.eqb_spec j k) as [->|]; reflexivity.
  - apply ASDSD2_02.
  - eapply vals_swap; [|apply ASDSD2_02]. apply ASDSD2T_T.
  - apply vals_tsum with (D := T11w1); [intros n m; apply t11w1|apply AUDUDrp1_sum].
  - apply vals_tsum with (D := T11w2); [intros n m; apply t11w2|apply AUDUDrp1s_sum].
  - apply vals_tsum with (D := T02w2); [intros n m; apply t02w2|apply GUDUDrp1s_sum].
  - apply (mass_vals h); [exact Hh|apply BUDUD_sum].
  - apply (mass_vals h); [exact Hh|apply BLDLD_sum].
  - apply (mass_vals h); [exact Hh|apply BDNDN_sum].
  - apply ADNDN_11.
  - apply vals_parts_20; [reflexivity..|apply ADNDN_11].
  - apply vals_parts_02; [reflexivity..|apply ADNDN_11].
  - eapply vals_swap; [|apply SBFBF_04]. intros k j. unfold SBFBFmat. rewrite !diag_entry, Nat.eqb_sym. destruct (Nat.eqb_spec j k) as [->|]; reflexivity.
  - apply SBFBF_04.
  - apply vals_parts_22; [reflexivity|apply SBFBF_04].
Qed.
Lemma legendre_unused_vals N : Forall (e_vals false N) (legendre_unused N).
Proof.
  unfold legendre_unused. repeat apply Forall_cons; try apply Forall_nil; apply e_vals_mk.
  - apply vals_tsum with (D := T11w1); [intros n m; apply t11w1|apply ASDSDrp1_sum].
  - apply vals_tsum with (D := T01w1); [intros n m; apply t01w1|apply CUDUDrp1_sum].
  - apply vals_tsum with (D := T00w1); [intros n m; apply t00w1|apply BUDUDrp1_sum].
  - apply vals_tsum with (D := T00w1); [intros n m; apply t00w1|apply BSDSDrp1_sum].
Qed.

Lemma e_vals_ok sc N e : sm_rows RFld (le_mat e) = space_dim sc (le_test e) N -> sm_cols RFld (le_mat e) = space_dim sc (le_trial e) N ->
  e_vals sc N e -> entry_ok sc N e.
Proof. destruct e as [s1 a s2 b w A]. apply vals_ok. Qed.
Lemma space_dim_L sc N : N = space_dim sc SpL N. Proof. change (N = N - 0)%nat. lia. Qed.
Lemma legendre_shape h sc N : Forall (fun e => sm_rows RFld (le_mat e) = space_dim sc (le_test e) N /\ sm_cols RFld (le_mat e) = space_dim sc (le_trial e) N) (legendre_mat h sc N).
Proof.
  unfold legendre_mat. repeat apply Forall_cons; try apply Forall_nil;
    cbn [le_test le_trial le_mat]; split; destruct sc; cbn; try reflexivity; apply space_dim_L.
Qed.
Lemma unused_shape N : Forall (fun e => sm_rows RFld (le_mat e) = space_dim false (le_test e) N /\ sm_cols RFld (le_mat e) = space_dim false (le_trial e) N) (legendre_unused N).
Proof.
  unfold legendre_unused. repeat apply Forall_cons; try apply Forall_nil; cbn [le_test le_trial le_mat]; split; cbn; reflexivity.
Qed.
Lemma vals_forall sc N l : Forall (e_vals sc N) l ->
  Forall (fun e => sm_rows RFld (le_mat e) = space_dim sc (le_test e) N /\ sm_cols RFld (le_mat e) = space_dim sc (le_trial e) N) l ->
  Forall (entry_ok sc N) l.
Proof.
  rewrite !Forall_forall. intros H1 H2 e He. destruct (H2 e He). apply e_vals_ok; auto.
Qed.

(** ** quadrature *)
Lemma quad_sum_ext rule f g : (forall x, f x = g x) -> quad_sum rule f = quad_sum rule g.
Proof. intros H. unfold quad_sum. induction rule as [|xw r IH]; cbn [fold_right]; [reflexivity|]. rewrite IH, H. reflexivity. Qed.
Lemma quad_sum_add rule f g : quad_sum rule (fun x => f x + g x) = quad_sum rule f + quad_sum rule g.
Proof. unfold quad_sum. induction rule as [|xw r IH]; cbn [fold_right]; [ring|]. rewrite IH. ring. Qed.
Lemma quad_sum_scal rule c f : quad_sum rule (fun x => c * f x) = c * quad_sum rule f.
Proof. unfold quad_sum. induction rule as [|xw r IH]; cbn [fold_right]; [ring|]. rewrite IH. ring. Qed.
Lemma quad_sum_0 rule : quad_sum rule (fun _ => 0) = 0.
Proof. unfold quad_sum. induction rule as [|xw r IH]; cbn [fold_right]; [reflexivity|]. rewrite IH. ring. Qed.
Lemma quad_stencil rule st y d : quad_sum rule (fun x => stencil_sum st y (fun o => d o x)) = stencil_sum st y (fun o => quad_sum rule (d o)).
Proof.
  induction st as [|[o s] r IH]; cbn [stencil_sum]; [apply quad_sum_0|]. rewrite quad_sum_add, quad_sum_scal, IH. reflexivity.
Qed.
Definition offsets_le (st : list (nat * sitem)) (b : nat) : Prop := Forall (fun it => (fst it <= b)%nat) st.
Lemma stencil_sum_ext_le st b y d d' : offsets_le st b -> (forall o, (o <= b)%nat -> d o = d' o) -> stencil_sum st y d = stencil_sum st y d'.
Proof.
  intros L H. induction st as [|[o s] r IH]; cbn [stencil_sum]; [reflexivity|]. inversion L as [|? ? Ho Lr]; subst. cbn in Ho.
  rewrite IH, H by assumption. reflexivity.
Qed.
Lemma space_offsets sc s N : offsets_le (space_stencil sc s) (N - space_dim sc s N) \/ (space_dim sc s N = 0)%nat.
Proof.
  unfold space_dim. destruct (Nat.le_gt_cases N (length (sc_bcs (space_class sc s)))) as [H|H]; [right; lia|left].
  replace (N - (N - length (sc_bcs (space_class sc s))))%nat with (length (sc_bcs (space_class sc s))) by lia.
  unfold offsets_le. destruct s; [repeat constructor|..]; destruct sc; cbn; repeat constructor; cbn; lia.
Qed.
Lemma mass_quad rule h sc N s1 s2 k j : rule_orthogonal rule h N -> (k < space_dim sc s1 N)%nat -> (j < space_dim sc s2 N)%nat ->
  quad_sum rule (fun x => weight_fun W1 x * deriv_at 0 (space_basis sc s1 N k) x * deriv_at 0 (space_basis sc s2 N j) x) =
  mass_sum h (space_stencil sc s1) (space_stencil sc s2) k j.
Proof.
  intros RO Hk Hj.
  rewrite (quad_sum_ext _ _ (fun x => stencil_sum (space_stencil sc s1) (INR k) (fun o => stencil_sum (space_stencil sc s2) (INR j)
    (fun o' => deriv_at 0 (legL (o + k)) x * deriv_at 0 (legL (o' + j)) x)))).
  2: { intros x. cbn [weight_fun]. rewrite Rmult_1_l, (space_expands sc s1 N k 0%nat x Hk), (space_expands sc s2 N j 0%nat x Hj).
       rewrite Rmult_comm, <- stencil_sum_scal. apply stencil_sum_ext. intros o. rewrite Rmult_comm, <- stencil_sum_scal. reflexivity. }
  rewrite quad_stencil. unfold mass_sum.
  destruct (space_offsets sc s1 N) as [L1|L1]; [|lia]. destruct (space_offsets sc s2 N) as [L2|L2]; [|lia].
  apply (stencil_sum_ext_le _ _ _ _ _ L1). intros o Ho. rewrite quad_stencil.
  apply (stencil_sum_ext_le _ _ _ _ _ L2). intros o' Ho'. unfold T00h. assert (space_dim sc s1 N <= N)%nat by (unfold space_dim; lia). assert (space_dim sc s2 N <= N)%nat by (unfold space_dim; lia). apply RO; lia.
Qed.
(** the mass matrices of the dictionary *)
Definition is_mass (e : lentry) : bool :=
  (Nat.eqb (le_testd e) 0 && Nat.eqb (le_triald e) 0 && match le_weight e with W1 => true | _ => false end)%bool.
Lemma mass_entries h N : Forall (fun e => is_mass e = true -> forall k j, mat_entry RFld (le_mat e) k j =
    mass_sum h (space_stencil false (le_test e)) (space_stencil false (le_trial e)) k j) (legendre_mat h false N).
Proof.
  unfold legendre_mat. repeat apply Forall_cons; try apply Forall_nil;
    cbn [is_mass le_testd le_triald le_weight le_test le_trial le_mat Nat.eqb andb]; intros H k j; try discriminate H.
  - apply BLL_sum.
  - apply BSDSD_sum.
  - apply BSBSB_sum.
  - apply BSNSN_sum.
  - apply BSDL_sum.
  - apply BLSD_sum.
  - apply BUDUD_sum.
  - apply BLDLD_sum.
  - apply BDNDN_sum.
Qed.

(** ** scaled bases *)
Lemma sq_ne k : sq k <> 0. Proof. pose proof (sq_pos k). lra. Qed.
Ltac sfield := repeat match goal with |- context [sq ?k] => let y := fresh "y" in let H := fresh "Hy" in
    pose proof (sq_ne k) as H; set (y := sq k) in *; clearbody y end; field; repeat split; assumption.
Lemma sc_BSDSD h N k j : mat_entry RFld (BSDSDmat h N true) k j = scale_of SpSD k * scale_of SpSD j * mat_entry RFld (BSDSDmat h N false) k j.
Proof.
  unfold BSDSDmat, mat_entry, dmat, arr. cbv zeta. cbn [sm_items sm_scale lookup scale_of].
  change (@eq (car RFld)) with (@eq R).
  destruct (Z.eq_dec 0 (Z.of_nat j - Z.of_nat k)).
  { assert (j = k) as -> by lia. rewrite Nat.min_id. rn. rewrite <- sq_sq. generalize (h k + h (k + 2)%nat). intros q. sfield. }
  destruct (Z.eq_dec (-2) (Z.of_nat j - Z.of_nat k)).
  { assert (k = j + 2)%nat as -> by lia. rewrite Nat.min_r by lia. rn. fold (sq j) (sq (j + 2)). generalize (h (j + 2)%nat). intros q. sfield. }
  destruct (Z.eq_dec 2 (Z.of_nat j - Z.of_nat k)).
  { assert (j = k + 2)%nat as -> by lia. rewrite Nat.min_l by lia. rn. fold (sq k) (sq (k + 2)). generalize (h (k + 2)%nat). intros q. sfield. }
  rn. ring.
Qed.
Lemma sc_BSDL h N k j : mat_entry RFld (BSDLmat h N true) k j = scale_of SpSD k * scale_of SpL j * mat_entry RFld (BSDLmat h N false) k j.
Proof.
  unfold BSDLmat, mat_entry, dmat, arr. cbv zeta. cbn [sm_items sm_scale lookup scale_of]. change (@eq (car RFld)) with (@eq R).
  destruct (Z.eq_dec 0 (Z.of_nat j - Z.of_nat k)).
  { rewrite Nat.min_l by lia. rn. fold (sq k). generalize (h k). intros q. sfield. }
  destruct (Z.eq_dec 2 (Z.of_nat j - Z.of_nat k)).
  { rewrite Nat.min_l by lia. rn. fold (sq k). generalize (h (k + 2)%nat). intros q. sfield. }
  rn. ring.
Qed.
Lemma sc_BLSD h N k j : mat_entry RFld (BLSDmat h N true) k j = scale_of SpL k * scale_of SpSD j * mat_entry RFld (BLSDmat h N false) k j.
Proof.
  unfold BLSDmat, mat_entry, dmat, arr. cbv zeta. cbn [sm_items sm_scale lookup scale_of]. change (@eq (car RFld)) with (@eq R).
  destruct (Z.eq_dec 0 (Z.of_nat j - Z.of_nat k)).
  { rewrite Nat.min_r by lia. rn. fold (sq j). generalize (h j). intros q. sfield. }
  destruct (Z.eq_dec (-2) (Z.of_nat j - Z.of_nat k)).
  { rewrite Nat.min_r by lia. rn. fold (sq j). generalize (h (j + 2)%nat). intros q. sfield. }
  rn. ring.
Qed.
Lemma sc_CLSD N k j : mat_entry RFld (CLSDmat N true) k j = scale_of SpL k * scale_of SpSD j * mat_entry RFld (CLSDmat N false) k j.
Proof.
  unfold CLSDmat, mat_entry, dmat, arr. cbv zeta. cbn [sm_items sm_scale lookup scale_of]. change (@eq (car RFld)) with (@eq R).
  destruct (Z.eq_dec (-1) (Z.of_nat j - Z.of_nat k)).
  { rewrite Nat.min_r by lia. rn. fold (sq j). sfield. }
  rn. ring.
Qed.
Lemma sc_CSDL N k j : mat_entry RFld (CSDLmat N true) k j = scale_of SpSD k * scale_of SpL j * mat_entry RFld (CSDLmat N false) k j.
Proof. rewrite !CSDL_T, sc_CLSD. change (@eq (car RFld)) with (@eq R). ring. Qed.
Lemma sc_ASDSD N k j : mat_entry RFld (ASDSDmat N true) k j = scale_of SpSD k * scale_of SpSD j * mat_entry RFld (ASDSDmat N false) k j.
Proof.
  unfold ASDSDmat, mat_entry, dmat, arr. cbn [sm_items sm_scale lookup scale_of]. change (@eq (car RFld)) with (@eq R).
  destruct (Z.eq_dec 0 (Z.of_nat j - Z.of_nat k)).
  { assert (j = k) as -> by lia. rewrite Nat.min_id. rn. rewrite <- sq_sq. sfield. }
  rn. ring.
Qed.
Lemma sc_unit N s1 a s2 b w A : s1 <> SpSD -> s2 <> SpSD -> vals false N s1 a s2 b w A -> vals true N s1 a s2 b w A.
Proof.
  intros H1 H2 H. eapply vals_scaled; [exact H|]. intros k j _ _. change (@eq (car RFld)) with (@eq R).
  destruct s1; try congruence; destruct s2; try congruence; cbn [scale_of]; symmetry; rewrite !Rmult_1_l; reflexivity.
Qed.
(** the entries that do not take the scaling of the basis into account correctly *)
Definition misscaled (e : lentry) : bool :=
  match le_test e, le_trial e with
  | SpSD, SpSD => (Nat.eqb (le_testd e + le_triald e) 1 || match le_weight e with W1 => false | _ => true end)%bool
  | _, _ => false
  end.
Lemma legendre_scaled_vals h N : (forall i, h i = leg_L2_norm_sq i) ->
  Forall (fun e => misscaled e = true \/ e_vals true N e) (legendre_mat h true N).
Proof.
  intros Hh. pose proof (legendre_vals h N Hh) as F. unfold legendre_mat in *.
  repeat match type of F with Forall _ (_ :: _) => let H := fresh "V" in inversion F as [|? ? H F2]; subst; clear F; rename F2 into F end. clear F.
  repeat apply Forall_cons; try apply Forall_nil; try (left; reflexivity); right; unfold e_vals in *;
    cbn [le_test le_testd le_trial le_triald le_weight le_mat] in *;
    try (apply sc_unit; [discriminate|discriminate|assumption]).
  - eapply vals_scaled; [exact V2|intros; apply sc_CLSD].
  - eapply vals_scaled; [exact V3|intros; apply sc_CSDL].
  - eapply vals_scaled; [exact V6|intros; apply sc_BSDSD].
  - eapply vals_scaled; [exact V9|intros; apply sc_BSDL].
  - eapply vals_scaled; [exact V10|intros; apply sc_BLSD].
  - eapply vals_scaled; [exact V11|intros; apply sc_ASDSD].
  - eapply vals_scaled; [exact V12|intros]. rewrite !scale_entry by reflexivity. rewrite sc_ASDSD. change (@eq (car RFld)) with (@eq R). ring.
  - eapply vals_scaled; [exact V13|intros]. rewrite !scale_entry by reflexivity. rewrite sc_ASDSD. change (@eq (car RFld)) with (@eq R). ring.
Qed.
Lemma entry_ok_value sc N e k j : entry_ok sc N e -> (k < space_dim sc (le_test e) N)%nat -> (j < space_dim sc (le_trial e) N)%nat ->
  mat_entry RFld (le_mat e) k j = entry_val sc N (le_test e) (le_testd e) (le_trial e) (le_triald e) (le_weight e) k j.
Proof.
  intros (_ & _ & H) Hk Hj. specialize (H k j Hk Hj). eapply integral_unique; [exact H|]. apply leg_inner_ip.
Qed.
Lemma dim_SD sc N : space_dim sc SpSD N = (N - 2)%nat. Proof. destruct sc; reflexivity. Qed.
Ltac sdim := cbn [le_test le_trial]; rewrite dim_SD; lia.
Lemma CSDSD_scaled_wrong N : (4 <= N)%nat -> ~ entry_ok true N (mkEntry SpSD 0 SpSD 1 W1 (CSDSDmat N true)).
Proof.
  intros HN H. assert (E := entry_ok_value _ _ _ 0%nat 1%nat H). cbn [le_test le_testd le_trial le_triald le_weight le_mat] in E.
  rewrite entry_val_scaled in E by sdim. specialize (E ltac:(sdim) ltac:(sdim)).
  rewrite <- (CSDSD_01 N) in E by sdim.
  unfold mat_entry in E. cbn in E. change (0 + 1) with (0 + 1) in E.
  assert (S10 : sqrt 10 * sqrt 10 = 10) by (apply sqrt_sqrt; lra).
  assert (S1 : sqrt (4 * 0 + 6) <> 0) by (pose proof (sqrt_lt_R0 (4 * 0 + 6) ltac:(lra)); lra).
  unfold sq in E. cbn [INR] in E. replace (4 * 1 + 6) with 10 in E by lra.
  assert (S2 : sqrt 10 <> 0) by (pose proof (sqrt_lt_R0 10 ltac:(lra)); lra).
  assert (X : sqrt 10 = 1).
  { apply Rmult_eq_reg_l with (2 / (sqrt (4 * 0 + 6) * sqrt 10)).
    - transitivity (2 / sqrt (4 * 0 + 6) * 1); [field; split; assumption|]. rewrite E. field. split; assumption.
    - apply Rmult_integral_contrapositive_currified; [lra|]. apply Rinv_neq_0_compat, Rmult_integral_contrapositive_currified; assumption. }
  rewrite X in S10. lra.
Qed.
Lemma ASDSD2_scaled_wrong N : (3 <= N)%nat -> ~ entry_ok true N (mkEntry SpSD 0 SpSD 2 W1x (ASDSD2rp1mat N)).
Proof.
  intros HN H. assert (E := entry_ok_value _ _ _ 0%nat 0%nat H). cbn [le_test le_testd le_trial le_triald le_weight le_mat] in E.
  rewrite entry_val_scaled in E by sdim. specialize (E ltac:(sdim) ltac:(sdim)).
  rewrite <- (ASDSD2_02 N) in E by sdim. cbn [scale_of] in E.
  unfold mat_entry in E. cbn in E. pose proof (sq_sq 0) as Q. cbn [INR] in Q.
  assert (NZ : sq 0 <> 0) by apply sq_ne.
  assert (X : sq 0 * sq 0 = 1).
  { apply Rmult_eq_reg_l with (- (4 * 0 + 6) * (1 / sq 0 * (1 / sq 0))).
    - transitivity (- (4 * 0 + 6) * 1); [field; assumption|]. rewrite E at 1. field. assumption.
    - intros Z. apply (Rmult_eq_compat_r (sq 0 * sq 0)) in Z. replace (- (4 * 0 + 6) * (1 / sq 0 * (1 / sq 0)) * (sq 0 * sq 0)) with (-6) in Z by (field; assumption). lra. }
  lra.
Qed.
