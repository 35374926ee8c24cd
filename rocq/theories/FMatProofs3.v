(** FMatProofs3.v -- quadrature, exactness, solve. *)
From Coq Require Import Reals ZArith List Bool Arith Lia Lra.
From Verif Require Import Base Fld Complex FourierModel FourierSpec FourierProofs SparseModel SparseSpec SparseProofs MatrixSpec MatrixProofs FMatModel FMatSpec FMatProofs FMatProofs2.
Import ListNotations.
Local Open Scope R_scope.
Add Field CF3 : (flaws CFld).

Lemma wn_freq c2c N i : (0 < N)%nat -> (i < fdim c2c N)%nat -> wn c2c N i = freq c2c N i.
Proof.
  intros HN Hi. destruct c2c; cbn [fdim] in Hi; [rewrite wn_c2c, fftfreq_eq by assumption|apply wn_r2c].
  unfold freq. pose proof (Nat.div_mod (N - 1) 2 ltac:(lia)). pose proof (Nat.mod_upper_bound (N - 1) 2 ltac:(lia)).
  destruct (Nat.ltb_spec i ((N - 1) / 2 + 1)), (Nat.ltb_spec (2 * i) N); try reflexivity; lia.
Qed.

(** away from the ends of the spectrum the discrete product is the exact one *)
Lemma discrete_exact N df t s g cs k l : (0 < N)%nat -> trig g cs -> Forall (fun ac => (Z.abs (l - k + fst ac) < Z.of_nat N)%Z) cs ->
  exact df t s g k l (discrete N df t s g k l).
Proof.
  intros HN T H. rewrite (discrete_trig N df t s g cs k l HN T). pose proof (exact_trig df t s g cs k l T) as X.
  replace (lsumC cs (fun ac => if ((l - k + fst ac) mod Z.of_nat N =? 0)%Z then snd ac else f0))
    with (lsumC cs (fun ac => if (l - k + fst ac =? 0)%Z then snd ac else f0)); [exact X|].
  clear X T. induction H as [|ac cs Ha H IH]; [reflexivity|]. cbn [lsumC]. rewrite IH. f_equal.
  set (o := (l - k + fst ac)%Z) in *. clearbody o.
  destruct (Z.eqb_spec o 0) as [->|Ho]; [rewrite Z.mod_0_l by lia; reflexivity|].
  destruct (Z.eqb_spec (o mod Z.of_nat N) 0) as [E|E]; [|reflexivity].
  exfalso. apply Ho. apply Z.mod_divide in E; [|lia]. destruct E as (q & Hq). destruct (Z.eq_dec q 0) as [->|Hq0]; [lia|]. assert (Z.abs o = Z.abs q * Z.of_nat N)%Z by (rewrite Hq, Z.abs_mul, (Z.abs_eq (Z.of_nat N)); lia). nia.
Qed.

Lemma vander_dexp c2c N s j i : vander c2c N s j i = dexp 1 (wn c2c N i) s (2 * PI * INR j / INR N).
Proof.
  unfold vander, dexp. cbv zeta.
  replace (fmul (cpx 0 1) (cr (IZR (wn c2c N i)))) with ((0, IZR (wn c2c N i) * 1) : CFld) by (apply Ceq; cbn; ring).
  replace (IZR (wn c2c N i) * (2 * PI * INR j / INR N)) with (INR j * 2 * PI / INR N * IZR (wn c2c N i)) by (unfold Rdiv; ring).
  unfold cpx. ring.
Qed.
Lemma dexp_df df k s x : dexp df k s x = fmul (cr (df ^ s)) (dexp 1 k s x).
Proof.
  unfold dexp. replace ((0, IZR k * df) : CFld) with (fmul (cr df) ((0, IZR k * 1) : CFld)) by (apply Ceq; cbn; ring).
  rewrite fpow_mul_base, cr_pow. ring.
Qed.
Lemma quad_ok c2c N df scale0 t s g i l : (0 < N)%nat -> df <> 0 ->
  quad_matrix c2c N df scale0 t s g i l = fmul (cr scale0) (discrete N df t s g (wn c2c N i) (wn c2c N l)).
Proof.
  intros HN Hdf. assert (HN' : INR N <> 0) by (apply not_0_INR; lia).
  unfold quad_matrix, discrete.
  pose proof (mscale_df df scale0 t s Mother Hdf) as M. rewrite Rmult_1_r in M. apply (f_equal cr) in M. rewrite !cr_mul in M.
  rewrite (fsum_ext CFld N (fun j => integrand df t s g (wn c2c N i) (wn c2c N l) (2 * PI * INR j / INR N))
    (fun j => fmul (cr (df ^ (t + s))) (fmul (fmul (conjg (vander c2c N t j i)) (cr (g (INR j * 2 * PI / INR N)))) (vander c2c N s j l)))).
  2:{ intros j _. unfold integrand. rewrite (dexp_df df _ t), (dexp_df df _ s), Cconj_mul. rewrite !vander_dexp.
      replace (Cconj (cr (df ^ t)) : CFld) with (cr (df ^ t)) by (apply Ceq; cbn; ring).
      replace (2 * PI * INR j / INR N) with (INR j * 2 * PI / INR N) by (unfold Rdiv; ring).
      rewrite pow_add, cr_mul. unfold conjg, cr. ring. }
  rewrite (fsum_ext CFld N _ (fun j => fmul (fmul (cr df) (finv (fnat N))) (fmul (fmul (conjg (vander c2c N t j i)) (cr (g (INR j * 2 * PI / INR N)))) (vander c2c N s j l)))).
  2:{ intros j _. replace (cr (df / INR N * g (INR j * 2 * PI / INR N))) with (fmul (fmul (cr df) (finv (fnat N))) (cr (g (INR j * 2 * PI / INR N)))); [ring|].
      rewrite C_nat. apply Ceq; cbn; field; exact HN'. }
  rewrite !fsum_scal.
  match goal with |- fmul (fmul _ ?S) ?mm = _ => set (SS := S); transitivity (fmul (fmul mm (cr df)) (fmul (finv (fnat N)) SS)); [ring|] end.
  rewrite M. field. apply C_nat_neq, HN.
Qed.

(** ** the six coefficients *)
Definition implemented (t s : nat) (m : measure) : Prop :=
  t = 0%nat /\ ((s = 2%nat /\ (m = Mcos2 \/ m = Mcos)) \/ (s = 1%nat /\ (m = Msin \/ m = Msincos)) \/ (s = 0%nat /\ (m = Mcos2 \/ m = Mcos))).
Lemma impl_dispatch t s m : implemented t s m -> dispatch true t s m <> Plain.
Proof. intros (-> & [(-> & [-> | ->]) | [(-> & [-> | ->]) | (-> & [-> | ->])]]); discriminate. Qed.
Lemma impl_trig t s m : implemented t s m -> exists cs, trig (coeff m) cs /\ Forall (fun ac => (Z.abs (fst ac) <= 2)%Z) cs.
Proof.
  intros (_ & H). assert (C : m = Mcos2 \/ m = Mcos \/ m = Msin \/ m = Msincos) by tauto.
  destruct C as [-> | [-> | [-> | ->]]].
  - eexists. split; [exact trig_cos2 | repeat constructor; cbn; lia].
  - eexists. split; [exact trig_cos | repeat constructor; cbn; lia].
  - eexists. split; [exact trig_sin | repeat constructor; cbn; lia].
  - eexists. split; [exact trig_sincos | repeat constructor; cbn; lia].
Qed.
Lemma impl_not_num t s m : implemented t s m -> (match m with Mnum c => c | _ => 1 end) = 1.
Proof. intros (_ & H). destruct m; try reflexivity. exfalso. repeat (destruct H as [H|H] || destruct H as (_ & H)); discriminate. Qed.
Lemma plain_assemble t s m N df : dispatch true t s m <> Plain -> exists d, assemble true N df t s m = Some d.
Proof. unfold assemble. intros H. destruct (dispatch true t s m); try (eexists; reflexivity). exfalso. apply H. reflexivity. Qed.
Lemma entry_var near1 N df scale0 t s m : implemented t s m -> (3 <= N)%nat -> (m = Mcos2 \/ m = Msincos -> N <> 4%nat) -> df <> 0 ->
  exists A, fourier_matrix near1 true N df scale0 t s m = Some A /\ sm_rows CFld A = N /\ sm_cols CFld A = N /\
  forall i l, (i < N)%nat -> (l < N)%nat ->
  fmul (mat_entry CFld A i l) (cr df) = fmul (cr scale0) (discrete N df t s (coeff m) (freq true N i) (freq true N l)).
Proof.
  intros Im HN H4 Hdf. destruct (plain_assemble t s m N df (impl_dispatch _ _ _ Im)) as (d & Hd).
  destruct (fourier_matrix near1 true N df scale0 t s m) as [A|] eqn:HA; [|unfold fourier_matrix in HA; rewrite Hd in HA; discriminate].
  exists A. destruct (shape_eq _ _ _ _ _ _ _ _ _ HA) as (R1 & R2). repeat split; auto.
  intros i l Hi Hl. rewrite (entry_eq _ _ _ _ _ _ _ _ _ _ i l HA Hd).
  rewrite <- !wn_freq by (assumption || lia).
  rewrite <- (ent_var N df t s m d i l (impl_dispatch _ _ _ Im) HN H4 Hd Hi Hl).
  pose proof (mscale_df df scale0 t s m Hdf) as M. rewrite (impl_not_num _ _ _ Im), Rmult_1_r in M. apply (f_equal cr) in M. rewrite !cr_mul in M.
  transitivity (fmul (ent d i l) (fmul (cr (mscale df scale0 t s m)) (cr df))); [ring|]. rewrite M. ring.
Qed.

(** ** solve *)
Lemma is_zero_spec z : is_zero z = true <-> z = f0.
Proof.
  unfold is_zero. split.
  - destruct (Req_EM_T (fst z) 0); [|discriminate]. destruct (Req_EM_T (snd z) 0); [|discriminate]. intros _. apply Ceq; assumption.
  - intros ->. cbn. destruct (Req_EM_T 0 0); [reflexivity|lra].
Qed.
Lemma is_zero_false z : is_zero z = false <-> z <> f0.
Proof. rewrite <- is_zero_spec. destruct (is_zero z); split; intros; try congruence; exfalso; auto. Qed.
Lemma fpow_neq (z : CFld) n : z <> f0 -> fpow z n <> f0.
Proof. apply fpow_neq_0. Qed.
Lemma fpow_zero n : (0 < n)%nat -> fpow (f0 : CFld) n = f0.
Proof. intros H. destruct n; [lia|]. cbn [fpow]. ring. Qed.
Lemma pre_zero df t s (k : Z) : df <> 0 -> (pre df t s k k = f0 <-> k = 0%Z /\ (0 < t + s)%nat).
Proof.
  intros Hdf. unfold pre. rewrite conj_pow. split.
  - intros E. destruct (Z.eq_dec k 0) as [->|Hk].
    + split; [reflexivity|]. destruct (t + s)%nat eqn:Es; [|lia]. assert (t = 0 /\ s = 0)%nat as (-> & ->) by lia.
      cbn in E. injection E. intros. lra.
    + exfalso. revert E. apply fmul_neq_0; apply fpow_neq; intros E; injection E; intros E1; apply Hk, eq_IZR.
      * apply (Rmult_eq_reg_r df); [|exact Hdf]. lra.
      * apply (Rmult_eq_reg_r df); [|exact Hdf]. lra.
  - intros (-> & H). destruct t as [|t].
    + replace ((0, 0 * df) : CFld) with (f0 : CFld) by (apply Ceq; cbn; ring). rewrite (fpow_zero s) by lia. ring.
    + replace (Cconj (0, 0 * df) : CFld) with (f0 : CFld) by (apply Ceq; cbn; ring). rewrite (fpow_zero (S t)) by lia. ring.
Qed.
Lemma freq_0 c2c N i : (0 < N)%nat -> (i < fdim c2c N)%nat -> (freq c2c N i = 0%Z <-> i = 0%nat).
Proof. intros HN Hi. unfold freq. destruct c2c; cbn [fdim] in Hi; [destruct (Nat.ltb_spec (2 * i) N)|]; split; lia. Qed.

Lemma solve_ok near1 c2c N df scale0 t s c b : (0 < N)%nat -> df <> 0 -> scale0 * c <> 0 ->
  exists A u, fourier_matrix near1 c2c N df scale0 t s (Mnum c) = Some A /\ fourier_solve A b = Some u /\
  forall i, (i < fdim c2c N)%nat ->
    if ((0 <? t + s)%nat && (i =? 0)%nat)%bool then u i = f0
    else mat_vec CFld (fdim c2c N) (mat_entry CFld A) u i = b i.
Proof.
  intros HN Hdf Hc. destruct (ent_const c2c N df t s c) as (d & Hd & He).
  destruct (fourier_matrix near1 c2c N df scale0 t s (Mnum c)) as [A|] eqn:HA; [|unfold fourier_matrix in HA; rewrite Hd in HA; discriminate].
  exists A. destruct (shape_eq _ _ _ _ _ _ _ _ _ HA) as (R1 & R2).
  pose proof (entry_const near1 c2c N df scale0 t s c A) as EC.
  (* the stored diagonal *)
  assert (ES : exists v, dict_get CFld 0 (sm_items CFld A) = Some v /\ sm_scale CFld A <> f0 /\
    (forall i, fmul (dget CFld v i) (sm_scale CFld A) = mat_entry CFld A i i)).
  { assert (D : exists v, dict_get CFld 0 (sm_items CFld A) = Some v).
    { unfold fourier_matrix in HA. rewrite Hd in HA. injection HA as <-. unfold assemble in Hd.
      replace (dispatch c2c t s (Mnum c)) with Plain in Hd by (unfold dispatch; destruct c2c, t as [|[|]], s as [|[|[|]]]; reflexivity).
      unfold incorporate_scale. destruct (near1 _); cbn [sm_items]; destruct (0 <? s + t)%nat; injection Hd as <-; cbn [map dict_get fst]; eexists; reflexivity. }
    destruct D as (v & Hv). exists v. split; [exact Hv|]. split.
    - unfold fourier_matrix in HA. rewrite Hd in HA. injection HA as <-. unfold incorporate_scale. cbn [sm_scale].
      destruct (near1 _); cbn [sm_scale]; [|apply f1_neq_0].
      intros E0. injection E0. intros E0'. pose proof (mscale_df df scale0 t s (Mnum c) Hdf) as M. rewrite E0' in M. rewrite Rmult_0_l in M.
      symmetry in M. apply Rmult_integral in M. destruct M as [M|M]; [exact (Hc M)|]. apply pow_nonzero in M; auto.
    - intros i. unfold mat_entry. rewrite Z.sub_diag, Nat.min_id. rewrite dict_get_lookup in Hv. rewrite Hv. reflexivity. }
  destruct ES as (v & Hv & Hs & Hdiag).
  assert (Hcz : cr (scale0 * c) <> f0) by (intros E; injection E; intros; apply Hc; assumption).
  assert (Z0 : forall i, (i < fdim c2c N)%nat -> (is_zero (dget CFld v i) = true <-> (0 < t + s)%nat /\ i = 0%nat)).
  { intros i Hi. rewrite is_zero_spec.
    assert (A1 : dget CFld v i = f0 <-> mat_entry CFld A i i = f0).
    { rewrite <- Hdiag. split; [intros ->; ring|]. intros E. apply (fmul_integral CFld _ _ E Hs). }
    rewrite A1, (EC i i Hdf HA), Nat.eqb_refl.
    assert (A2 : fmul (cr (scale0 * c)) (pre df t s (wn c2c N i) (wn c2c N i)) = f0 <-> pre df t s (wn c2c N i) (wn c2c N i) = f0).
    { split; [|intros ->; ring]. intros E. apply (fmul_integral CFld _ (cr (scale0 * c))); [|exact Hcz]. rewrite <- E. ring. }
    rewrite A2, pre_zero by exact Hdf. rewrite wn_freq, freq_0 by assumption. tauto. }
  assert (MV : forall u i, (i < fdim c2c N)%nat -> mat_vec CFld (fdim c2c N) (mat_entry CFld A) u i = fmul (mat_entry CFld A i i) (u i)).
  { intros u i Hi. unfold mat_vec. rewrite (fsum_ext CFld _ _ (fun j => if (j =? i)%nat then fmul (mat_entry CFld A i j) (u j) else f0)).
    - rewrite (fsum_pick CFld _ i (fun j => fmul (mat_entry CFld A i j) (u j))) by exact Hi. reflexivity.
    - intros j Hj. rewrite (EC i j Hdf HA). destruct (j =? i)%nat; ring. }
  unfold fourier_solve. rewrite Hv, R1. destruct v as [x|n f]; cbn [dget] in *.
  - assert (Hd0 : (0 < fdim c2c N)%nat) by (destruct c2c; cbn [fdim]; lia).
    destruct (is_zero x) eqn:Ex.
    + exfalso. pose proof (proj1 (Z0 0%nat Hd0) eq_refl) as (Hts & _).
      unfold fourier_matrix in HA. rewrite Hd in HA. injection HA as <-. unfold assemble in Hd.
      replace (dispatch c2c t s (Mnum c)) with Plain in Hd by (unfold dispatch; destruct c2c, t as [|[|]], s as [|[|[|]]]; reflexivity).
      destruct (Nat.ltb_spec 0 (s + t)); [|lia]. injection Hd as <-. unfold incorporate_scale in Hv. destruct (near1 _); cbn in Hv; discriminate.
    + eexists. split; [reflexivity|]. split; [reflexivity|]. intros i Hi.
      assert (Hn : ((0 <? t + s)%nat && (i =? 0)%nat)%bool = false).
      { apply not_true_iff_false. intros E. apply andb_true_iff in E. destruct E as (E1 & E2).
        apply Nat.ltb_lt in E1. apply Nat.eqb_eq in E2. pose proof (proj2 (Z0 i Hi) (conj E1 E2)). congruence. }
      rewrite Hn, MV, <- Hdiag by exact Hi. apply is_zero_false in Ex. field. split; assumption.
  - assert (Hall : forallb (fun i => (negb (is_zero (f i)) || (i =? 0) || (i =? fdim c2c N / 2))%nat%bool) (seq 0 (fdim c2c N)) = true).
    { apply forallb_forall. intros i Hi. apply in_seq in Hi. destruct (is_zero (f i)) eqn:Ef; [|reflexivity].
      destruct (proj1 (Z0 i ltac:(lia)) Ef) as (_ & ->). reflexivity. }
    rewrite Hall. eexists. split; [reflexivity|]. split; [reflexivity|]. intros i Hi.
    rewrite MV by exact Hi. cbv beta.
    destruct (is_zero (f i)) eqn:Ef.
    + destruct (proj1 (Z0 i Hi) Ef) as (Hts & ->). rewrite (proj2 (Nat.ltb_lt _ _) Hts). cbn [andb Nat.eqb]. field. exact Hs.
    + assert (Hn : ((0 <? t + s)%nat && (i =? 0)%nat)%bool = false).
      { apply not_true_iff_false. intros E. apply andb_true_iff in E. destruct E as (E1 & E2).
        apply Nat.ltb_lt in E1. apply Nat.eqb_eq in E2. pose proof (proj2 (Z0 i Hi) (conj E1 E2)). congruence. }
      rewrite Hn, <- Hdiag. apply is_zero_false in Ef. field. split; assumption.
Qed.
