(** FMatProofs2.v -- the matrices of shenfun/fourier/matrices.py. *)
From Coq Require Import Reals ZArith List Bool Arith Lia Lra.
From Verif Require Import Base Fld Complex FourierModel FourierSpec FourierProofs SparseModel SparseSpec SparseProofs MatrixSpec MatrixProofs FMatModel FMatSpec FMatProofs.
Import ListNotations.
Local Open Scope R_scope.
Add Field CF2 : (flaws CFld).

Lemma trig_one : trig (fun _ => 1) [(0%Z, cr 1)].
Proof. intros x. cbn [lsumC fst snd]. rewrite Rmult_0_l, E_0. apply Ceq; cbn; ring. Qed.
Lemma trig_cos : trig cos [(1%Z, cr (1 / 2)); ((-1)%Z, cr (1 / 2))].
Proof. intros x. cbn [lsumC fst snd]. unfold E. replace (-1 * x) with (- (1 * x)) by ring. rewrite cos_neg, sin_neg, Rmult_1_l. apply Ceq; cbn; field. Qed.
Lemma trig_cos2 : trig cos2 [(0%Z, cr (1 / 2)); (2%Z, cr (1 / 4)); ((-2)%Z, cr (1 / 4))].
Proof.
  intros x. cbn [lsumC fst snd]. unfold E, cos2. replace (-2 * x) with (- (2 * x)) by ring. rewrite cos_neg, sin_neg, Rmult_0_l, cos_0, sin_0, cos_2a_cos.
  apply Ceq; cbn; field.
Qed.
Lemma trig_sin : trig sin [(1%Z, cpx 0 (- (1 / 2))); ((-1)%Z, cpx 0 (1 / 2))].
Proof. intros x. cbn [lsumC fst snd]. unfold E. replace (-1 * x) with (- (1 * x)) by ring. rewrite cos_neg, sin_neg, Rmult_1_l. apply Ceq; cbn; field. Qed.
Lemma trig_sincos : trig sincos [(2%Z, cpx 0 (- (1 / 4))); ((-2)%Z, cpx 0 (1 / 4))].
Proof. intros x. cbn [lsumC fst snd]. unfold E, sincos. replace (-2 * x) with (- (2 * x)) by ring. rewrite cos_neg, sin_neg. apply Ceq; cbn; field. Qed.

(** ** entries *)
Definition ent (d : list (Z * dval CFld)) (i l : nat) : CFld := oget CFld (lookup CFld d (Z.of_nat l - Z.of_nat i)%Z) (Nat.min i l).
Lemma entry_eq near1 c2c N df scale0 t s m A d i l : fourier_matrix near1 c2c N df scale0 t s m = Some A -> assemble c2c N df t s m = Some d ->
  mat_entry CFld A i l = fmul (ent d i l) (cr (mscale df scale0 t s m)).
Proof.
  unfold fourier_matrix. intros HA Hd. rewrite Hd in HA. injection HA as <-. unfold incorporate_scale.
  cbn [sm_scale sm_rows sm_cols sm_items]. destruct (near1 _); rewrite mat_entry_oget; cbn [sm_items sm_scale].
  - reflexivity.
  - rewrite (lookup_map CFld (fun v => dscale CFld v (cr (mscale df scale0 t s m)))). unfold ent.
    destruct (lookup CFld d _); cbn [option_map oget]; [rewrite dget_scale|]; ring.
Qed.
Lemma shape_eq near1 c2c N df scale0 t s m A : fourier_matrix near1 c2c N df scale0 t s m = Some A ->
  sm_rows CFld A = fdim c2c N /\ sm_cols CFld A = fdim c2c N.
Proof.
  unfold fourier_matrix. destruct (assemble c2c N df t s m); [|discriminate]. intros H. injection H as <-.
  unfold incorporate_scale. destruct (near1 _); split; reflexivity.
Qed.
Lemma mscale_df df scale0 t s m : df <> 0 -> mscale df scale0 t s m * df = scale0 * (match m with Mnum c => c | _ => 1 end) * df ^ (t + s).
Proof.
  intros H. unfold mscale. destruct (Req_EM_T df 1) as [->|_].
  - rewrite pow1. ring.
  - rewrite Rmult_assoc. f_equal. rewrite <- (powerRZ_1 df) at 2. rewrite <- powerRZ_add by exact H.
    replace (Z.of_nat (t + s) - 1 + Z.succ 0)%Z with (Z.of_nat (t + s)) by lia. symmetry. apply pow_powerRZ.
Qed.

(** ** frequencies *)
Lemma freq_wrap N i l a : (0 < N)%nat -> (i < N)%nat -> (l < N)%nat -> (Z.abs a < Z.of_nat N)%Z ->
  ((fftfreq N l - fftfreq N i + a) mod Z.of_nat N =? 0)%Z =
  ((Z.of_nat l - Z.of_nat i + a =? 0) || (Z.of_nat l - Z.of_nat i + a =? Z.of_nat N) || (Z.of_nat l - Z.of_nat i + a =? - Z.of_nat N))%Z%bool.
Proof.
  intros HN Hi Hl Ha. pose proof (fftfreq_mod N i HN Hi) as Mi. pose proof (fftfreq_mod N l HN Hl) as Ml.
  assert (M : ((fftfreq N l - fftfreq N i + a) mod Z.of_nat N = (Z.of_nat l - Z.of_nat i + a) mod Z.of_nat N)%Z).
  { rewrite Z.add_mod, Zminus_mod, Ml, Mi by lia. rewrite <- Z.add_mod by lia. reflexivity. }
  rewrite M. set (o := (Z.of_nat l - Z.of_nat i + a)%Z). assert (Ho : (- (2 * Z.of_nat N) < o < 2 * Z.of_nat N)%Z) by (unfold o; lia).
  clearbody o. clear M Mi Ml.
  destruct (Z.eqb_spec (o mod Z.of_nat N) 0) as [E|E].
  - apply Z.mod_divide in E; [|lia]. destruct E as (q & Hq). assert (-2 < q < 2)%Z by nia.
    assert (q = -1 \/ q = 0 \/ q = 1)%Z as [-> | [-> | ->]] by lia.
    + rewrite (proj2 (Z.eqb_eq o (- Z.of_nat N))) by lia. rewrite !orb_true_r. reflexivity.
    + rewrite (proj2 (Z.eqb_eq o 0)) by lia. reflexivity.
    + rewrite (proj2 (Z.eqb_eq o (Z.of_nat N))) by lia. rewrite orb_true_r. reflexivity.
  - symmetry. apply orb_false_iff. split; [apply orb_false_iff; split|]; apply Z.eqb_neq; intros ->; apply E.
    + apply Z.mod_0_l. lia.
    + apply Z.mod_same. lia.
    + replace (- Z.of_nat N)%Z with ((-1) * Z.of_nat N)%Z by lia. apply Z.mod_mul. lia.
Qed.
Lemma wn_c2c N i : wn true N i = fftfreq N i.
Proof. unfold wn, wavenumbers_c2c. rewrite andb_false_r. reflexivity. Qed.
Lemma wn_r2c N i : wn false N i = Z.of_nat i.
Proof. unfold wn, wavenumbers_r2c. rewrite andb_false_r. reflexivity. Qed.
Lemma wn_same c2c N i l : (0 < N)%nat -> (i < fdim c2c N)%nat -> (l < fdim c2c N)%nat ->
  ((wn c2c N l - wn c2c N i) mod Z.of_nat N =? 0)%Z = (l =? i)%nat /\ (wn c2c N l - wn c2c N i =? 0)%Z = (l =? i)%nat.
Proof.
  intros HN Hi Hl. destruct c2c; cbn [fdim] in *.
  - rewrite !wn_c2c. pose proof (freq_wrap N i l 0 HN Hi Hl ltac:(lia)) as W. rewrite !Z.add_0_r in W. split.
    + rewrite W. destruct (Nat.eqb_spec l i) as [->|H].
      * rewrite Z.sub_diag. reflexivity.
      * rewrite !(proj2 (Z.eqb_neq _ _)) by lia. reflexivity.
    + destruct (Nat.eqb_spec l i) as [->|H]; [rewrite Z.sub_diag; reflexivity|].
      apply Z.eqb_neq. intros E. pose proof (fftfreq_mod N i HN Hi) as Mi. pose proof (fftfreq_mod N l HN Hl) as Ml.
      apply H. apply Nat2Z.inj. rewrite <- Mi, <- Ml. f_equal. lia.
  - rewrite !wn_r2c. assert (N / 2 < N)%nat by (apply Nat.div_lt; lia). assert (i < N /\ l < N)%nat as (Hi' & Hl').
    { destruct (Nat.eq_dec N 1) as [->|]; [cbn in *; lia|]. assert (N / 2 + 1 <= N)%nat by lia. lia. }
    split.
    + rewrite mod_diff_0 by assumption. reflexivity.
    + destruct (Nat.eqb_spec l i) as [->|Hn]; [rewrite Z.sub_diag; reflexivity|]. apply Z.eqb_neq. lia.
Qed.

(** ** constant coefficient *)
Lemma cr_mul a b : cr (a * b) = fmul (cr a) (cr b).
Proof. apply Ceq; cbn; ring. Qed.
Lemma cr_pow a n : cr (a ^ n) = fpow (cr a) n.
Proof. induction n as [|n IH]; [reflexivity|]. cbn [fpow pow]. rewrite cr_mul, IH. reflexivity. Qed.
Lemma conj_pow (z : CFld) n : (Cconj (fpow z n) : CFld) = fpow (Cconj z : CFld) n.
Proof. induction n as [|n IH]; [apply Ceq; cbn; ring|]. cbn [fpow]. rewrite Cconj_mul, IH. reflexivity. Qed.
Lemma pre_eq df t s k l : pre df t s k l =
  fmul (fmul (fpow (fmul (cpx 0 1) (cr (IZR l))) s) (fpow (fmul (cpx 0 (-1)) (cr (IZR k))) t)) (cr (df ^ (t + s))).
Proof.
  unfold pre. rewrite conj_pow. rewrite cr_pow, fpow_add.
  replace ((0, IZR l * df) : CFld) with (fmul (fmul (cpx 0 1) (cr (IZR l))) (cr df)) by (apply Ceq; cbn; ring).
  replace (Cconj (0, IZR k * df) : CFld) with (fmul (fmul (cpx 0 (-1)) (cr (IZR k))) (cr df)) by (apply Ceq; cbn; ring).
  rewrite !(fpow_mul_base CFld _ (cr df)). ring.
Qed.
(** (i k)^s (-i k)^t is real for an even s + t *)
Lemma fpow_im (x : R) n : (n mod 2 = 0)%nat -> exists y, fpow (cpx 0 x) n = cr y.
Proof.
  intros H. pose proof (Nat.div_mod n 2 ltac:(lia)) as D. rewrite H, Nat.add_0_r in D. rewrite D, fpow_mul.
  replace (fpow (cpx 0 x) 2) with (cr (- (x * x))) by (apply Ceq; cbn; ring).
  rewrite <- cr_pow. eexists. reflexivity.
Qed.
Lemma real_even k t s : ((s + t) mod 2 = 0)%nat ->
  real_part (fmul (fpow (fmul (cpx 0 1) (cr k)) s) (fpow (fmul (cpx 0 (-1)) (cr k)) t)) = fmul (fpow (fmul (cpx 0 1) (cr k)) s) (fpow (fmul (cpx 0 (-1)) (cr k)) t).
Proof.
  intros H.
  replace (fmul (cpx 0 1) (cr k)) with (cpx 0 k) by (apply Ceq; cbn; ring).
  replace (fmul (cpx 0 (-1)) (cr k)) with (fmul (cr (-1)) (cpx 0 k)) by (apply Ceq; cbn; ring).
  rewrite fpow_mul_base. destruct (fpow_im k (s + t) H) as (y & Hy). rewrite fpow_add in Hy.
  replace (fmul (fpow (cpx 0 k) s) (fmul (fpow (cr (-1)) t) (fpow (cpx 0 k) t))) with (fmul (fpow (cr (-1)) t) (fmul (fpow (cpx 0 k) s) (fpow (cpx 0 k) t))) by ring.
  rewrite Hy, <- cr_pow, <- cr_mul. reflexivity.
Qed.
Definition dconst (c2c : bool) (N : nat) (df : R) (t s : nat) (i l : nat) : CFld :=
  if (l =? i)%nat then fmul (fmul (fpow (fmul (cpx 0 1) (cr (IZR (wn c2c N l)))) s) (fpow (fmul (cpx 0 (-1)) (cr (IZR (wn c2c N i)))) t)) (cr df) else f0.
Lemma ent_const c2c N df t s c : exists d, assemble c2c N df t s (Mnum c) = Some d /\ forall i l, ent d i l = dconst c2c N df t s i l.
Proof.
  unfold assemble. replace (dispatch c2c t s (Mnum c)) with Plain by (unfold dispatch; destruct c2c, t as [|[|]], s as [|[|[|]]]; reflexivity).
  destruct (Nat.ltb_spec 0 (s + t)) as [H|H]; eexists; (split; [reflexivity|]); intros i l; unfold ent, dconst; cbn [lookup].
  - destruct (Z.eq_dec 0 (Z.of_nat l - Z.of_nat i)) as [e|e]; destruct (Nat.eqb_spec l i) as [E1|E1]; try lia; cbn [oget dget]; [|reflexivity].
    subst l. rewrite Nat.min_id. f_equal. destruct (Nat.eqb_spec ((s + t) mod 2) 0) as [Ev|_]; [apply real_even, Ev | reflexivity].
  - destruct (Z.eq_dec 0 (Z.of_nat l - Z.of_nat i)) as [e|e]; destruct (Nat.eqb_spec l i) as [E1|E1]; try lia; cbn [oget dget]; [|reflexivity].
    assert (s = 0 /\ t = 0)%nat as (-> & ->) by lia. cbn [fpow]. ring.
Qed.
Lemma entry_const near1 c2c N df scale0 t s c A i l : df <> 0 -> fourier_matrix near1 c2c N df scale0 t s (Mnum c) = Some A ->
  mat_entry CFld A i l = fmul (cr (scale0 * c)) (if (l =? i)%nat then pre df t s (wn c2c N i) (wn c2c N l) else f0).
Proof.
  intros Hdf HA. destruct (ent_const c2c N df t s c) as (d & Hd & He).
  rewrite (entry_eq _ _ _ _ _ _ _ _ _ _ i l HA Hd), He. unfold dconst. destruct (l =? i)%nat; [|ring].
  rewrite pre_eq. pose proof (mscale_df df scale0 t s (Mnum c) Hdf) as M. apply (f_equal cr) in M. rewrite !cr_mul in M. rewrite cr_mul.
  match goal with |- fmul (fmul ?X (cr df)) ?Y = _ => transitivity (fmul X (fmul Y (cr df))); [ring|] end.
  rewrite M. ring.
Qed.
Lemma discrete_const c2c N df t s c i l : (0 < N)%nat -> (i < fdim c2c N)%nat -> (l < fdim c2c N)%nat ->
  discrete N df t s (fun _ => c) (wn c2c N i) (wn c2c N l) = fmul (cr c) (if (l =? i)%nat then pre df t s (wn c2c N i) (wn c2c N l) else f0).
Proof.
  intros HN Hi Hl. assert (T : trig (fun _ => c) [(0%Z, cr c)]).
  { intros x. cbn [lsumC fst snd]. rewrite Rmult_0_l, E_0. apply Ceq; cbn; ring. }
  rewrite (discrete_trig N df t s _ _ _ _ HN T). cbn [lsumC fst snd]. rewrite Z.add_0_r.
  rewrite (proj1 (wn_same c2c N i l HN Hi Hl)). destruct (l =? i)%nat; ring.
Qed.
Lemma exact_const c2c N df t s c i l : (0 < N)%nat -> (i < fdim c2c N)%nat -> (l < fdim c2c N)%nat ->
  exact df t s (fun _ => c) (wn c2c N i) (wn c2c N l) (fmul (cr c) (if (l =? i)%nat then pre df t s (wn c2c N i) (wn c2c N l) else f0)).
Proof.
  intros HN Hi Hl. assert (T : trig (fun _ => c) [(0%Z, cr c)]).
  { intros x. cbn [lsumC fst snd]. rewrite Rmult_0_l, E_0. apply Ceq; cbn; ring. }
  pose proof (exact_trig df t s _ _ (wn c2c N i) (wn c2c N l) T) as X. cbn [lsumC fst snd] in X. rewrite Z.add_0_r in X.
  rewrite (proj2 (wn_same c2c N i l HN Hi Hl)) in X.
  replace (fmul (cr c) (if (l =? i)%nat then pre df t s (wn c2c N i) (wn c2c N l) else f0)) with
    (fmul (pre df t s (wn c2c N i) (wn c2c N l)) (fadd (if (l =? i)%nat then cr c else f0) f0)); [exact X|]. destruct (l =? i)%nat; ring.
Qed.

(** ** variable coefficients *)
Definition coeff (m : measure) (x : R) : R :=
  match m with Mnum c => c | Mcos2 => cos2 x | Mcos => cos x | Msin => sin x | Msincos => sincos x | Mother => 0 end.
Lemma lookup_dict l o : lookup CFld (dict l) o = lookup CFld (rev l) o.
Proof.
  unfold dict. assert (G : forall acc, lookup CFld (fold_left (fun d kv => dict_set CFld (fst kv) (snd kv) d) l acc) o =
    match lookup CFld (rev l) o with Some v => Some v | None => lookup CFld acc o end).
  { induction l as [|[k v] l IH]; intros acc; cbn [fold_left rev]; [reflexivity|].
    rewrite IH. cbn [fst snd]. rewrite lookup_set.
    assert (L : lookup CFld (rev l ++ [(k, v)]) o = match lookup CFld (rev l) o with Some v => Some v | None => lookup CFld [(k, v)] o end).
    { clear. induction (rev l) as [|[k' v'] r IH]; [reflexivity|]. cbn [lookup app]. destruct (Z.eq_dec k' o); [reflexivity|exact IH]. }
    rewrite L. cbn [lookup]. destruct (lookup CFld (rev l) o); [reflexivity|]. destruct (Z.eq_dec k o); reflexivity. }
  rewrite G. destruct (lookup CFld (rev l) o); reflexivity.
Qed.

Ltac cases := repeat match goal with
  | |- context [Z.eq_dec ?a ?b] => destruct (Z.eq_dec a b); try lia
  | |- context [(?a =? ?b)%Z] => destruct (Z.eqb_spec a b); try lia
  end; cbn [orb].
Lemma wn_0 N : wn true N 0 = 0%Z.
Proof. rewrite wn_c2c. unfold fftfreq. cbv zeta. destruct (Nat.ltb_spec 0 ((N - 1) / 2 + 1)); [reflexivity|lia]. Qed.
Lemma wn_last N : (2 <= N)%nat -> wn true N (N - 1) = (-1)%Z.
Proof. intros H. rewrite wn_c2c, fftfreq_eq by lia. pose proof (Nat.div_lt_upper_bound (N - 1) 2 (N - 1) ltac:(lia) ltac:(lia)). destruct (Nat.ltb_spec (N - 1) ((N - 1) / 2 + 1)); [|lia]. pose proof (Nat.div_mod (N - 1) 2). pose proof (Nat.mod_upper_bound (N - 1) 2). lia. Qed.
Opaque wn.
Ltac fin N i l :=
  unfold from, but, last, first; cbn [oget dget]; unfold pre;
  apply Ceq; cbn [oget dget cr cpx fst snd fmul fadd fpow f0 f1 CFld Cmul Cadd C0 C1 Cconj pow Nat.add];
  repeat match goal with
  | |- context [wn true N ?e] => lazymatch e with i => fail | l => fail | _ => replace e with l by lia end
  end;
  try solve [field]; try solve [ring];
  first [ replace l with 0%nat by lia; rewrite wn_0; field | replace l with (N - 1)%nat by lia; rewrite wn_last by lia; field ].
(** the entries before scaling: each is the discrete product over df^(t+s) *)
Lemma ent_var N df t s m d i l : dispatch true t s m <> Plain -> (3 <= N)%nat -> (m = Mcos2 \/ m = Msincos -> N <> 4%nat) ->
  assemble true N df t s m = Some d -> (i < N)%nat -> (l < N)%nat ->
  fmul (ent d i l) (cr (df ^ (t + s))) = discrete N df t s (coeff m) (wn true N i) (wn true N l).
Proof.
  intros Hd HN H4 HA Hi Hl. unfold dispatch in Hd.
  destruct t as [|t]; [|exfalso; apply Hd; reflexivity].
  assert (F : forall g cs, trig g cs -> Forall (fun ac => (Z.abs (fst ac) < Z.of_nat N)%Z) cs ->
    discrete N df 0 s g (wn true N i) (wn true N l) = fmul (pre df 0 s (wn true N i) (wn true N l))
      (lsumC cs (fun ac => if ((Z.of_nat l - Z.of_nat i + fst ac =? 0) || (Z.of_nat l - Z.of_nat i + fst ac =? Z.of_nat N) ||
                              (Z.of_nat l - Z.of_nat i + fst ac =? - Z.of_nat N))%Z%bool then snd ac else f0))).
  { intros g cs T Hc. rewrite (discrete_trig N df 0 s g cs _ _ ltac:(lia) T). f_equal. rewrite !wn_c2c.
    clear T. induction Hc as [|ac cs Ha Hc IH]; [reflexivity|]. cbn [lsumC]. rewrite IH, freq_wrap by (assumption || lia). reflexivity. }
  destruct s as [|[|[|s]]]; destruct m; try (exfalso; apply Hd; reflexivity);
    injection HA as <-; unfold ent; rewrite lookup_dict; cbn [rev app lookup].
  - change (coeff Mcos2) with cos2. rewrite (F cos2 _ trig_cos2) by (repeat constructor; cbn; lia). cbn [lsumC fst snd]. specialize (H4 (or_introl eq_refl)).
    cases; fin N i l.
  - change (coeff Mcos) with cos. rewrite (F cos _ trig_cos) by (repeat constructor; cbn; lia). cbn [lsumC fst snd].
    cases; fin N i l.
  - change (coeff Msin) with sin. rewrite (F sin _ trig_sin) by (repeat constructor; cbn; lia). cbn [lsumC fst snd].
    cases; fin N i l.
  - change (coeff Msincos) with sincos. rewrite (F sincos _ trig_sincos) by (repeat constructor; cbn; lia). cbn [lsumC fst snd]. specialize (H4 (or_intror eq_refl)).
    cases; fin N i l.
  - change (coeff Mcos2) with cos2. rewrite (F cos2 _ trig_cos2) by (repeat constructor; cbn; lia). cbn [lsumC fst snd]. specialize (H4 (or_introl eq_refl)).
    cases; fin N i l.
  - change (coeff Mcos) with cos. rewrite (F cos _ trig_cos) by (repeat constructor; cbn; lia). cbn [lsumC fst snd].
    cases; fin N i l.
Qed.
Transparent wn.
