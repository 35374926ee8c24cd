(** HelmholtzProofs6.v -- the Helmholtz solver, Neumann; several lines. *)
From Coq Require Import Reals ZArith List Arith Bool Lia Lra.
From Verif Require Import Base Fld SparseModel SparseSpec SparseProofs RPoly StencilModel StencilModel2 LegMatrixModel LegMatrixProofs5 LegMatrixProofs6
  ChebMatrixModel ChebMatrixProofs2 HelmholtzModel HelmholtzSpec HelmholtzProofs HelmholtzProofs2 HelmholtzProofs3 HelmholtzProofs4 HelmholtzProofs5.
Import ListNotations.
Local Open Scope R_scope.

Lemma small8_false x : Rabs x >= 1 / 10 ^ 8 -> small8 x = false.
Proof. intros H. unfold small8. destruct (Rlt_dec (Rabs x) (1 / 10 ^ 8)); [lra|reflexivity]. Qed.
Lemma small8_0 : small8 0 = true.
Proof. unfold small8. rewrite Rabs_R0. destruct (Rlt_dec 0 (1 / 10 ^ 8)); [reflexivity|]. exfalso. apply n. apply Rdiv_lt_0_compat; [lra|]. apply pow_lt. lra. Qed.
Lemma small16_0 : small16 0 = true.
Proof. unfold small16. destruct (Rlt_dec (0 * 0) (1 / 10 ^ 16)); [reflexivity|]. exfalso. apply n. rewrite Rmult_0_l. apply Rdiv_lt_0_compat; [lra|]. apply pow_lt. lra. Qed.
Lemma small16_false x : x * x >= 1 / 10 ^ 16 -> small16 x = false.
Proof. intros H. unfold small16. destruct (Rlt_dec (x * x) (1 / 10 ^ 16)); [lra|reflexivity]. Qed.

Section Neumann.
  Variables (N : nat) (h : nat -> R) (ca cb : R).
  Let A := scaled ca (c_ASNSN N).
  Let B := scaled cb (c_BSNSN h N).
  Definition nD : diags :=
    mkDiags (fun i => -2 * PI * INR i ^ 2 * (INR i + 1) / (INR i + 2) * ca)
            (fun i => -4 * PI * (INR i + INR (Z.to_nat 2)) ^ 2 * (INR i + 1) / (INR i + 2) ^ 2 * ca)
            (fun i => -4 * PI * (INR i + INR (Z.to_nat 4)) ^ 2 * (INR i + 1) / (INR i + 2) ^ 2 * ca)
            (fun i => - nal i * h (i + 2)%nat * cb) (fun i => (h i + nal i ^ 2 * h (i + 2)%nat) * cb) (fun i => - nal i * h (i + 2)%nat * cb).
  Lemma n_keys : (7 <= N)%nat -> helmholtz_keys A B = Some nD.
  Proof.
    intros HN. unfold helmholtz_keys, A. unfold c_ASNSN.
    rewrite !key_fromkeys by (apply zin; [lia|reflexivity]). reflexivity.
  Qed.
  Lemma n_keys_none : (N <= 6)%nat -> helmholtz_keys A B = None.
  Proof.
    intros HN. unfold helmholtz_keys. assert (E : key A 4 = None).
    { unfold A, c_ASNSN. apply key_fromkeys_none. apply znotin. lia. }
    rewrite E. destruct (key _ 0); [destruct (key _ 2)|]; reflexivity.
  Qed.
  (** the column factors: 1 for the first column and j^2 for the others *)
  Definition cf (j : nat) : R := if Nat.eqb j 0 then 1 else INR j ^ 2.

  (** the diagonals after the divisions, in both implementations *)
  Definition line_D im al be : diags :=
    match im with Numba => numba_A0 true al be (pre_numba true nD) | Cython => pre_cython true al be nD end.
  Lemma line_lu im M al be : lu_line im true M nD al be = lu_factor M (line_D im al be) al be.
  Proof. destruct im; reflexivity. Qed.

  Section Line.
    Variables (im : impl) (al be : R).
    Let D := line_D im al be.
    Lemma nzn i : (1 <= i)%nat -> INR i <> 0.
    Proof. intros. apply not_0_INR. lia. Qed.
    Lemma D_A0 i : (1 <= i)%nat -> dA0 D i = -2 * PI * (INR i + 1) / (INR i + 2) * ca.
    Proof.
      intros Hi. pose proof (nzn i Hi). pose proof (pos_INR i). unfold D, line_D. destruct im.
      - unfold numba_A0. assert (E : dA0 (pre_numba true nD) i = -2 * PI * (INR i + 1) / (INR i + 2) * ca).
        { unfold pre_numba, nD. cbn [dA0]. destruct (Nat.eqb_spec i 0); [lia|]. rewrite ann_j2_sq by exact Hi. field. split; lra. }
        destruct (true && small8 be)%bool; [|exact E]. cbn [dA0]. rewrite upd_other by lia. exact E.
      - unfold pre_cython, nD. cbn [dA0]. destruct (Nat.eqb_spec i 0); [lia|]. field. split; lra.
    Qed.
    Lemma D_A2 i : dA2 D i = -4 * PI * (INR i + 1) / (INR i + 2) ^ 2 * ca.
    Proof.
      pose proof (pos_INR i). assert (E2 : INR (i + 2) = INR i + 2) by (rewrite plus_INR; reflexivity).
      unfold D, line_D. destruct im.
      - assert (E : dA2 (numba_A0 true al be (pre_numba true nD)) i = dA2 (pre_numba true nD) i) by (unfold numba_A0; destruct (true && small8 be)%bool; reflexivity).
        rewrite E. unfold pre_numba, nD. cbn [dA2]. rewrite ann_j2_sq, E2 by lia. change (INR (Z.to_nat 2)) with 2. field. lra.
      - unfold pre_cython, nD. cbn [dA2]. rewrite E2. change (INR (Z.to_nat 2)) with 2. field. lra.
    Qed.
    Lemma D_A4 i : dA4 D i = -4 * PI * (INR i + 1) / (INR i + 2) ^ 2 * ca.
    Proof.
      pose proof (pos_INR i). assert (E4 : INR (i + 4) = INR i + INR (Z.to_nat 4)) by (rewrite plus_INR; reflexivity).
      assert (P4 : INR (Z.to_nat 4) = 4) by (change (Z.to_nat 4) with 4%nat; cbn [INR]; lra).
      unfold D, line_D. destruct im.
      - assert (E : dA4 (numba_A0 true al be (pre_numba true nD)) i = dA4 (pre_numba true nD) i) by (unfold numba_A0; destruct (true && small8 be)%bool; reflexivity).
        rewrite E. unfold pre_numba, nD. cbn [dA4]. rewrite ann_j2_sq, E4, P4 by lia. field. lra.
      - unfold pre_cython, nD. cbn [dA4]. rewrite E4, P4. field. lra.
    Qed.
    Lemma nal0 : nal 0 = 0.
    Proof. unfold nal. cbn [INR]. unfold Rdiv. ring. Qed.
    Lemma D_Bm0 : dBm D 0%nat = 0.
    Proof.
      unfold D, line_D. destruct im.
      - assert (E : dBm (numba_A0 true al be (pre_numba true nD)) 0%nat = dBm (pre_numba true nD) 0%nat) by (unfold numba_A0; destruct (true && small8 be)%bool; reflexivity).
        rewrite E. unfold pre_numba, nD. cbn [dBm]. rewrite nal0. ring.
      - unfold pre_cython, nD. cbn [dBm Nat.eqb]. rewrite nal0. ring.
    Qed.
    Lemma D_Bm i : (1 <= i)%nat -> dBm D i = - (h (i + 2)%nat / (INR i + 2) ^ 2) * cb.
    Proof.
      intros Hi. pose proof (nzn i Hi). pose proof (pos_INR i). unfold D, line_D. destruct im.
      - assert (E : dBm (numba_A0 true al be (pre_numba true nD)) i = dBm (pre_numba true nD) i) by (unfold numba_A0; destruct (true && small8 be)%bool; reflexivity).
        rewrite E. unfold pre_numba, nD, nal. cbn [dBm]. rewrite ann_j2_sq by exact Hi. field. split; lra.
      - unfold pre_cython, nD, nal. cbn [dBm]. destruct (Nat.eqb_spec i 0); [lia|]. field. split; lra.
    Qed.
    Lemma D_B0 i : (1 <= i)%nat -> dB0 D i = (h i / INR i ^ 2 + INR i ^ 2 * h (i + 2)%nat / (INR i + 2) ^ 4) * cb.
    Proof.
      intros Hi. pose proof (nzn i Hi). pose proof (pos_INR i). unfold D, line_D. destruct im.
      - assert (E : dB0 (numba_A0 true al be (pre_numba true nD)) i = dB0 (pre_numba true nD) i) by (unfold numba_A0; destruct (true && small8 be)%bool; reflexivity).
        rewrite E. unfold pre_numba, nD, nal. cbn [dB0]. rewrite ann_j2_sq by exact Hi. field. split; lra.
      - unfold pre_cython, nD, nal. cbn [dB0]. destruct (Nat.eqb_spec i 0); [lia|]. field. split; lra.
    Qed.
    Lemma D_B2 i : dB2 D i = - (INR i ^ 2 * h (i + 2)%nat / (INR i + 2) ^ 4) * cb.
    Proof.
      pose proof (pos_INR i). assert (E2 : INR (i + 2) = INR i + 2) by (rewrite plus_INR; reflexivity).
      unfold D, line_D. destruct im.
      - assert (E : dB2 (numba_A0 true al be (pre_numba true nD)) i = dB2 (pre_numba true nD) i) by (unfold numba_A0; destruct (true && small8 be)%bool; reflexivity).
        rewrite E. unfold pre_numba, nD, nal. cbn [dB2]. rewrite ann_j2_sq, E2 by lia. field. lra.
      - unfold pre_cython, nD, nal. cbn [dB2]. rewrite E2. field. lra.
    Qed.
    (** the first pivot *)
    Definition z0 : R := if Req_EM_T be 0 then 1 else be * (h 0%nat * cb).
    Lemma D_z0 : (be = 0 /\ al <> 0) \/ Rabs be >= 1 / 10 ^ 8 -> al * dA0 D 0%nat + be * dB0 D 0%nat = z0.
    Proof.
      intros Hb. unfold z0. destruct Hb as [[-> Ha]|Hb].
      - destruct (Req_EM_T 0 0); [|lra]. unfold D, line_D. destruct im.
        + unfold numba_A0. rewrite small8_0. cbn [andb dA0 dB0]. rewrite upd_same. field. exact Ha.
        + unfold pre_cython. rewrite small8_0. cbn [dA0 dB0 Nat.eqb]. field. exact Ha.
      - assert (P : 0 < 1 / 10 ^ 8) by (apply Rdiv_lt_0_compat; [lra|apply pow_lt; lra]).
        destruct (Req_EM_T be 0) as [->|]; [rewrite Rabs_R0 in Hb; lra|].
        unfold D, line_D. destruct im.
        + unfold numba_A0. rewrite small8_false by exact Hb. cbn [andb]. unfold pre_numba, nD. cbn [dA0 dB0 Nat.eqb]. rewrite nal0. unfold ann_j2. cbn [Nat.eqb INR]. field; repeat split; lra.
        + unfold pre_cython. rewrite small8_false by exact Hb. unfold nD. cbn [dA0 dB0 Nat.eqb]. rewrite nal0. cbn [INR]. field; repeat split; lra.
    Qed.
  End Line.

  (** the columns of the factorised matrix are those of the matrix divided by the column factors *)
  Lemma n_row im al be k j : (k < N - 2)%nat -> (j < N - 2)%nat -> (1 <= k)%nat \/ be <> 0 ->
    (be = 0 /\ al <> 0) \/ Rabs be >= 1 / 10 ^ 8 ->
    al * mat_entry RFld A k j + be * mat_entry RFld B k j = hrow (line_D im al be) al be k j * cf j.
  Proof.
    intros Hk Hj Hkb Hb. unfold A, B. rewrite !scaled_entry, ASNSN_row, BSNSN_row by assumption.
    unfold hrow, brow, cf. pose proof (pos_INR k) as Pk. pose proof (pos_INR j) as Pj.
    destruct (Nat.eqb_spec j k) as [->|N0].
    { unfold h0. destruct (Nat.eqb_spec k 0) as [->|Hk0].
      - rewrite (D_z0 im al be Hb). unfold z0. destruct (Req_EM_T be 0); [destruct Hkb; [lia|contradiction]|].
        rewrite nal0. cbn [INR]. field; repeat split; lra.
      - rewrite D_A0, D_B0 by lia. unfold nal. pose proof (nzn k ltac:(lia)). field. split; lra. }
    destruct (Nat.eqb_spec j (k + 2)) as [->|N2].
    { destruct (Nat.eqb_spec (k + 2) 0); [lia|]. unfold h2. rewrite D_A2, D_B2. unfold nal. rewrite plus_INR. change (INR 2) with 2. field. lra. }
    destruct (Nat.leb_spec (k + 4) j) as [H4|H4]; cbn [andb].
    { destruct (Nat.eqb_spec j 0); [lia|]. destruct (Nat.even (j - k)).
      - unfold h4. rewrite D_A4. field. lra.
      - destruct (Nat.eqb_spec (j + 2) k); [lia|]. ring. }
    destruct (Nat.eqb_spec (j + 2) k) as [Hm|Nm].
    2:{ ring. }
    unfold hm. replace (k - 2)%nat with j by lia. destruct (Nat.eqb_spec j 0) as [->|Hj0].
    - rewrite D_Bm0, nal0. cbn [INR]. ring.
    - rewrite D_Bm by lia. replace (j + 2)%nat with k by lia. unfold nal.
      assert (EK : INR k = INR j + 2) by (subst k; rewrite plus_INR; reflexivity).
      pose proof (nzn j ltac:(lia)). field; repeat split; lra.
  Qed.

  Lemma cf_neq j : cf j <> 0.
  Proof. unfold cf. destruct (Nat.eqb_spec j 0); [lra|]. apply pow_nonzero. apply not_0_INR. exact n. Qed.

  (** what solve_helmholtz_1D returns, from the solution [x] of the factorised system *)
  Lemma neumann_final M s f u0 : (4 <= M)%nat ->
    let x := backward M s (forward M (l_L s) f (fun _ => 0)) u0 in
    let u := solve_helmholtz_1D true M s f u0 in
    (forall j, (1 <= j < M)%nat -> u j = x j / INR j ^ 2) /\
    u 0%nat = (if small16 (l_d0 s 0%nat - 1) then 0 else x 0%nat).
  Proof.
    intros HM x u. unfold u, solve_helmholtz_1D. fold x.
    set (w := if small16 (l_d0 s 0%nat - 1) then upd x 0 0 else x).
    assert (Hw : forall j, (1 <= j)%nat -> w j = x j) by (intros j Hj; unfold w; destruct (small16 _); [apply upd_other; lia|reflexivity]).
    split; [intros j Hj|].
    - rewrite (for_up_pointwise (M - 1) 1 (fun i x => x / INR (i * i))).
      replace (Nat.leb 1 j && Nat.ltb j (1 + (M - 1)))%bool with true by (symmetry; apply andb_true_intro; split; [apply Nat.leb_le; lia|apply Nat.ltb_lt; lia]).
      rewrite Hw by lia. rewrite mult_INR. replace (INR j ^ 2) with (INR j * INR j) by ring. reflexivity.
    - rewrite (for_up_pointwise (M - 1) 1 (fun i x => x / INR (i * i))). cbn [Nat.leb andb].
      unfold w. destruct (small16 _); [apply upd_same|reflexivity].
  Qed.

  Section Solve.
    Variables (im : impl) (al be : R) (f u0 : nat -> R).
    Hypothesis Hh : norms h.
    Hypothesis HN : (7 <= N)%nat.
    Hypotheses (Ha : ca > 0) (Hb : cb > 0) (Hab : al * be <= 0).
    Let H k j := al * mat_entry RFld A k j + be * mat_entry RFld B k j.

    Lemma n_solve_x : (be = 0 /\ al <> 0) \/ Rabs be >= 1 / 10 ^ 8 ->
      let s := lu_factor (N - 2) (line_D im al be) al be in
      let x := backward (N - 2) s (forward (N - 2) (l_L s) f (fun _ => 0)) u0 in
      forall k, (k < N - 2)%nat -> rsum (N - 2) (fun j => hrow (line_D im al be) al be k j * x j) = f k.
    Proof.
      intros Hc s x k Hk.
      assert (Hn : al <> 0 \/ be <> 0).
      { destruct Hc as [[_ E]|E]; [left; exact E|right]. intros ->. rewrite Rabs_R0 in E.
        assert (0 < 1 / 10 ^ 8) by (apply Rdiv_lt_0_compat; [lra|apply pow_lt; lra]). lra. }
      assert (Hz : z0 be <> 0).
      { unfold z0. destruct Hh as (E0 & _ & _). rewrite E0. pose proof PI_RGT_0. destruct (Req_EM_T be 0) as [|Hbe]; [lra|].
        apply Rmult_integral_contrapositive_currified; [exact Hbe|]. apply Rmult_integral_contrapositive_currified; lra. }
      apply (lu_solves (N - 2) (line_D im al be) al be f u0 ltac:(lia)); [|exact Hk].
      apply (n_pivots (N - 2) (line_D im al be) al be (z0 be) h ca cb); try assumption; try lia.
      - apply D_A0.
      - apply D_z0. exact Hc.
      - apply D_A2.
      - apply D_A4.
      - apply D_Bm0.
      - apply D_Bm.
      - apply D_B0.
      - apply D_B2.
    Qed.

    Lemma helmholtz_neumann_ok : Rabs be >= 1 / 10 ^ 8 -> (be * (PI * cb) - 1) * (be * (PI * cb) - 1) >= 1 / 10 ^ 16 ->
      exists u, helmholtz4 im true A B al be f u0 = Some u /\ solves (N - 2) H f u.
    Proof.
      intros Hbe Hs. unfold helmholtz4. rewrite n_keys by exact HN. change (sm_rows RFld A) with (N - 2)%nat.
      eexists. split; [reflexivity|]. rewrite line_lu.
      assert (P8 : 0 < 1 / 10 ^ 8) by (apply Rdiv_lt_0_compat; [lra|apply pow_lt; lra]).
      assert (Hb0 : be <> 0) by (intros E; rewrite E, Rabs_R0 in Hbe; lra).
      pose proof (n_solve_x (or_intror Hbe)) as Hx. cbv zeta in Hx.
      set (s := lu_factor (N - 2) (line_D im al be) al be) in *.
      destruct (neumann_final (N - 2) s f u0 ltac:(lia)) as (U & U0).
      set (x := backward (N - 2) s (forward (N - 2) (l_L s) f (fun _ => 0)) u0) in *.
      destruct (lu_factor_ok (N - 2) (line_D im al be) al be ltac:(lia)) as ((P0 & _) & _). fold s in P0.
      unfold h0 in P0. rewrite (D_z0 im al be (or_intror Hbe)) in P0. unfold z0 in P0.
      destruct (Req_EM_T be 0); [contradiction|]. destruct Hh as (E0 & _ & _). rewrite E0 in P0.
      rewrite P0, small16_false in U0 by exact Hs.
      intros k Hk. unfold row_solved. rewrite <- (Hx k Hk). apply rsum_ext. intros j Hj. unfold H.
      rewrite (n_row im) by (auto; lia). rewrite Rmult_assoc. f_equal. unfold cf.
      destruct (Nat.eqb_spec j 0) as [->|Hj0]; [rewrite U0; ring|]. rewrite U by lia. field. apply not_0_INR. exact Hj0.
    Qed.

    Lemma helmholtz_neumann_zero : be = 0 -> al <> 0 ->
      exists u, helmholtz4 im true A B al be f u0 = Some u /\ solves_singular (N - 2) H f u.
    Proof.
      intros Hbe Hal. unfold helmholtz4. rewrite n_keys by exact HN. change (sm_rows RFld A) with (N - 2)%nat.
      eexists. split; [reflexivity|]. rewrite line_lu.
      pose proof (n_solve_x (or_introl (conj Hbe Hal))) as Hx. cbv zeta in Hx.
      set (s := lu_factor (N - 2) (line_D im al be) al be) in *.
      destruct (neumann_final (N - 2) s f u0 ltac:(lia)) as (U & U0).
      set (x := backward (N - 2) s (forward (N - 2) (l_L s) f (fun _ => 0)) u0) in *.
      destruct (lu_factor_ok (N - 2) (line_D im al be) al be ltac:(lia)) as ((P0 & _) & _). fold s in P0.
      unfold h0 in P0. rewrite (D_z0 im al be (or_introl (conj Hbe Hal))) in P0. unfold z0 in P0.
      destruct (Req_EM_T be 0); [|contradiction].
      rewrite P0 in U0. replace (1 - 1) with 0 in U0 by ring. rewrite small16_0 in U0.
      match goal with |- solves_singular _ _ _ ?v => set (u := v) in * end.
      assert (Hrows : forall k, (1 <= k < N - 2)%nat -> row_solved (N - 2) H f u k).
      { intros k Hk. unfold row_solved. rewrite <- (Hx k ltac:(lia)). apply rsum_ext. intros j Hj. unfold H.
        rewrite (n_row im) by (auto; lia). rewrite Rmult_assoc. destruct (Nat.eq_dec j 0) as [->|Hj0].
        - assert (E : hrow (line_D im al be) al be k 0 = 0).
          { unfold hrow, brow. destruct (Nat.eqb_spec 0 k); [lia|]. destruct (Nat.eqb_spec 0 (k + 2)); [lia|].
            destruct (Nat.leb_spec (k + 4) 0); [lia|]. cbn [andb]. destruct (Nat.eqb (0 + 2) k); [|reflexivity].
            unfold hm. rewrite Hbe. ring. }
          rewrite E. ring.
        - f_equal. unfold cf. destruct (Nat.eqb_spec j 0); [lia|]. rewrite U by lia. field. apply not_0_INR. exact Hj0. }
      assert (EH : forall k j, H k j = mat_entry RFld (smul RFld (scaled ca (c_ASNSN N)) al) k j).
      { intros k j. unfold H. rewrite Hbe, smul_entry. fold A. ring. }
      assert (RS : forall v k, row_solved (N - 2) H f v k <-> row_solved (N - 2) (mat_entry RFld (smul RFld (scaled ca (c_ASNSN N)) al)) f v k).
      { intros v k. unfold row_solved. rewrite (rsum_ext (N - 2) (fun j => H k j * v j) (fun j => mat_entry RFld (smul RFld (scaled ca (c_ASNSN N)) al) k j * v j)); [tauto|].
        intros j Hj. rewrite EH. reflexivity. }
      split; [exact U0|]. split; [exact Hrows|].
      intros [w Hw] k Hk. apply RS. apply (singular_row0 N ca al f u); try assumption; try lia; try lra.
      - intros i Hi. apply RS. apply Hrows. exact Hi.
      - exists w. intros i Hi. apply RS. apply Hw. exact Hi.
    Qed.
  End Solve.
  Lemma helmholtz_neumann_small im al be f u0 : (N <= 6)%nat -> helmholtz4 im true A B al be f u0 = None.
  Proof. intros HN. unfold helmholtz4. rewrite n_keys_none by exact HN. reflexivity. Qed.
End Neumann.
