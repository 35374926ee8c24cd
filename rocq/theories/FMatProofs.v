(** FMatProofs.v -- discrete and exact inner products of complex exponentials. *)
From Coq Require Import Reals ZArith List Bool Arith Lia Lra.
From Verif Require Import Base Fld Complex FourierModel FourierSpec FourierProofs SparseModel SparseSpec MatrixSpec MatrixProofs FMatModel FMatSpec.
Import ListNotations.
Local Open Scope R_scope.

Add Field CF : (flaws CFld).
Definition E (x : R) : CFld := (cos x, sin x).
Lemma E_add a b : E (a + b) = fmul (E a) (E b).
Proof. unfold E. rewrite cos_plus, sin_plus. apply Ceq; cbn; ring. Qed.
Lemma E_0 : E 0 = f1. Proof. unfold E. rewrite cos_0, sin_0. reflexivity. Qed.
Lemma E_pow x n : fpow (E x) n = E (INR n * x).
Proof.
  induction n as [|n IH]; [cbn [fpow]; rewrite <- E_0; f_equal; cbn; ring|].
  cbn [fpow]. rewrite IH, <- E_add. f_equal. rewrite S_INR. ring.
Qed.
Lemma E_inv x : finv (E x) = E (- x).
Proof.
  pose proof (sin2_cos2 x) as H. unfold Rsqr in H.
  unfold E. rewrite cos_neg, sin_neg. apply Ceq; cbn; replace (cos x * cos x + sin x * sin x) with 1 by lra; field.
Qed.
Lemma E_conj x : Cconj (E x) = E (- x).
Proof. unfold E, Cconj. cbn. rewrite cos_neg, sin_neg. reflexivity. Qed.
Lemma E_zpow n m : zpow CFld (root n) m = E (IZR m * (2 * PI / INR n)).
Proof.
  change (root n) with (E (2 * PI / INR n)).
  destruct (Z_cases m) as (k & [-> | ->]).
  - rewrite zpow_nat, E_pow, <- INR_IZR_INZ. reflexivity.
  - rewrite zpow_opp_nat, E_inv, E_pow, opp_IZR, <- INR_IZR_INZ. f_equal. ring.
Qed.

(** ** sums of complex numbers over lists *)
Fixpoint lsumC {A} (l : list A) (f : A -> CFld) : CFld := match l with [] => f0 | a :: l => fadd (f a) (lsumC l f) end.
Lemma lsumC_ext {A} (l : list A) f g : (forall a, f a = g a) -> lsumC l f = lsumC l g.
Proof. intros H. induction l; cbn [lsumC]; [reflexivity|]. rewrite H, IHl. reflexivity. Qed.
Lemma lsumC_scal {A} (l : list A) c f : lsumC l (fun a => fmul c (f a)) = fmul c (lsumC l f).
Proof. induction l; cbn [lsumC]; [ring|]. rewrite IHl. ring. Qed.
Lemma fsum_lsum {A} n (l : list A) (f : nat -> A -> CFld) : fsum n (fun j => lsumC l (f j)) = lsumC l (fun a => fsum n (fun j => f j a)).
Proof.
  induction l as [|a l IH]; cbn [lsumC].
  - rewrite fsum_const. ring.
  - rewrite (fsum_add CFld n (fun j => f j a)). rewrite IH. reflexivity.
Qed.

(** a trigonometric polynomial with the coefficients c of exp(i a x) *)
Definition trig (g : R -> R) (cs : list (Z * CFld)) : Prop :=
  forall x, ((g x, 0) : CFld) = lsumC cs (fun ac => fmul (snd ac) (E (IZR (fst ac) * x))).
Definition pre (df : R) (t s : nat) (k l : Z) : CFld :=
  fmul (Cconj (fpow ((0, IZR k * df) : CFld) t) : CFld) (fpow ((0, IZR l * df) : CFld) s).
Lemma Cconj_mul (a b : CFld) : (Cconj (fmul a b) : CFld) = fmul (Cconj a : CFld) (Cconj b : CFld).
Proof. apply (proj1 (proj2 Cconj_ok)). Qed.
Lemma integrand_trig df t s g cs k l x : trig g cs ->
  integrand df t s g k l x = fmul (pre df t s k l) (lsumC cs (fun ac => fmul (snd ac) (E (IZR (l - k + fst ac) * x)))).
Proof.
  intros H. unfold integrand, dexp. rewrite H.
  change ((cos (IZR k * x), sin (IZR k * x)) : CFld) with (E (IZR k * x)). change ((cos (IZR l * x), sin (IZR l * x)) : CFld) with (E (IZR l * x)).
  rewrite Cconj_mul, E_conj. unfold pre.
  rewrite (lsumC_ext cs (fun ac => fmul (snd ac) (E (IZR (l - k + fst ac) * x)))
             (fun ac => fmul (fmul (E (- (IZR k * x))) (E (IZR l * x))) (fmul (snd ac) (E (IZR (fst ac) * x))))).
  - rewrite lsumC_scal. ring.
  - intros ac. rewrite plus_IZR, minus_IZR.
    replace ((IZR l - IZR k + IZR (fst ac)) * x) with (- (IZR k * x) + IZR l * x + IZR (fst ac) * x) by ring.
    rewrite !E_add. ring.
Qed.

(** ** the discrete product *)
Lemma E_sum N m : (0 < N)%nat ->
  fsum N (fun j => E (IZR m * (2 * PI * INR j / INR N))) = (if (m mod Z.of_nat N =? 0)%Z then fnat N else f0 : CFld).
Proof.
  intros HN. rewrite <- (orth CFld N (root N) m HN (root_prim N HN)).
  apply fsum_ext. intros j _. rewrite E_zpow. f_equal. rewrite mult_IZR, <- INR_IZR_INZ. unfold Rdiv. ring.
Qed.
Lemma discrete_trig N df t s g cs k l : (0 < N)%nat -> trig g cs ->
  discrete N df t s g k l = fmul (pre df t s k l) (lsumC cs (fun ac => if ((l - k + fst ac) mod Z.of_nat N =? 0)%Z then snd ac else f0)).
Proof.
  intros HN H. unfold discrete.
  rewrite (fsum_ext CFld N _ (fun j => fmul (pre df t s k l) (lsumC cs (fun ac => fmul (snd ac) (E (IZR (l - k + fst ac) * (2 * PI * INR j / INR N))))))).
  2:{ intros j _. apply integrand_trig, H. }
  rewrite (fsum_scal CFld N), fsum_lsum.
  rewrite (lsumC_ext cs _ (fun ac => fmul (fnat N) (if ((l - k + fst ac) mod Z.of_nat N =? 0)%Z then snd ac else f0))).
  - rewrite lsumC_scal. field. apply C_nat_neq, HN.
  - intros ac. rewrite (fsum_scal CFld N (snd ac) (fun j => E (IZR (l - k + fst ac) * (2 * PI * INR j / INR N)))), E_sum by exact HN.
    destruct (_ =? 0)%Z; ring.
Qed.

(** ** the exact product *)
Definition cmean (f : R -> CFld) (v : CFld) : Prop :=
  (continuity (fun x => fst (f x)) /\ newton (fun x => fst (f x)) 0 (2 * PI) (2 * PI * fst v)) /\
  (continuity (fun x => snd (f x)) /\ newton (fun x => snd (f x)) 0 (2 * PI) (2 * PI * snd v)).
Lemma continuity_ext' f g : (forall x, f x = g x) -> continuity f -> continuity g.
Proof. intros H C x e He. destruct (C x e He) as (d & Hd & Q). exists d. split; [exact Hd|]. intros y Hy. rewrite <- !H. apply Q, Hy. Qed.
Lemma cmean_ext f g v : (forall x, f x = g x) -> cmean f v -> cmean g v.
Proof.
  intros H ((A & B) & (C & D)). split; split.
  - eapply continuity_ext'; [|exact A]. intros x. cbn. rewrite H. reflexivity.
  - eapply newton_ext; [|exact B]. intros x. cbn. rewrite H. reflexivity.
  - eapply continuity_ext'; [|exact C]. intros x. cbn. rewrite H. reflexivity.
  - eapply newton_ext; [|exact D]. intros x. cbn. rewrite H. reflexivity.
Qed.
Lemma cmean_add f g u v : cmean f u -> cmean g v -> cmean (fun x => fadd (f x) (g x)) (fadd u v).
Proof.
  intros ((A & B) & (C & D)) ((A' & B') & (C' & D')). split; split; cbn.
  - apply (continuity_plus (fun x => fst (f x)) (fun x => fst (g x))); assumption.
  - rewrite Rmult_plus_distr_l. apply (newton_add (fun x => fst (f x)) (fun x => fst (g x))); assumption.
  - apply (continuity_plus (fun x => snd (f x)) (fun x => snd (g x))); assumption.
  - rewrite Rmult_plus_distr_l. apply (newton_add (fun x => snd (f x)) (fun x => snd (g x))); assumption.
Qed.
Lemma cmean_scal c f u : cmean f u -> cmean (fun x => fmul c (f x)) (fmul c u).
Proof.
  intros ((A & B) & (C & D)). destruct c as [p q]. split; split; cbn.
  - apply (continuity_ext' (fun x => p * fst (f x) + - q * snd (f x))); [intros; ring|].
    apply (continuity_plus (fun x => p * fst (f x)) (fun x => - q * snd (f x))); [apply (continuity_scal (fun x => fst (f x))) | apply (continuity_scal (fun x => snd (f x)))]; assumption.
  - replace (2 * PI * (p * fst u - q * snd u)) with (p * (2 * PI * fst u) + - q * (2 * PI * snd u)) by ring.
    apply (newton_ext (fun x => p * fst (f x) + - q * snd (f x))); [intros; ring|].
    apply (newton_add (fun x => p * fst (f x)) (fun x => - q * snd (f x))); apply newton_scal; assumption.
  - apply (continuity_ext' (fun x => p * snd (f x) + q * fst (f x))); [intros; ring|].
    apply (continuity_plus (fun x => p * snd (f x)) (fun x => q * fst (f x))); [apply (continuity_scal (fun x => snd (f x))) | apply (continuity_scal (fun x => fst (f x)))]; assumption.
  - replace (2 * PI * (p * snd u + q * fst u)) with (p * (2 * PI * snd u) + q * (2 * PI * fst u)) by ring.
    apply (newton_ext (fun x => p * snd (f x) + q * fst (f x))); [intros; ring|].
    apply (newton_add (fun x => p * snd (f x)) (fun x => q * fst (f x))); apply newton_scal; assumption.
Qed.
Lemma cmean_0 : cmean (fun _ => f0) f0.
Proof.
  split; split; cbn; try (apply continuity_const; intros x y; reflexivity);
    (exists (fun _ => 0); split; [intros x; apply derivable_pt_lim_const | ring]).
Qed.
Lemma dsin m x : derivable_pt_lim (fun x => sin (m * x)) x (m * cos (m * x)).
Proof.
  replace (m * cos (m * x)) with (cos (m * x) * (m * 1)) by ring.
  apply (derivable_pt_lim_comp (fun x => m * x) sin); [apply (derivable_pt_lim_scal (fun x => x)), derivable_pt_lim_id | apply derivable_pt_lim_sin].
Qed.
Lemma dcos m x : derivable_pt_lim (fun x => cos (m * x)) x (- (m * sin (m * x))).
Proof.
  replace (- (m * sin (m * x))) with (- sin (m * x) * (m * 1)) by ring.
  apply (derivable_pt_lim_comp (fun x => m * x) cos); [apply (derivable_pt_lim_scal (fun x => x)), derivable_pt_lim_id | apply derivable_pt_lim_cos].
Qed.
Lemma period_sin (m : Z) : sin (IZR m * (2 * PI)) = 0.
Proof. replace (IZR m * (2 * PI)) with (IZR (2 * m) * PI) by (rewrite mult_IZR; ring). apply sin_eq_0_1. exists (2 * m)%Z. reflexivity. Qed.
Lemma period_cos (m : Z) : cos (IZR m * (2 * PI)) = 1.
Proof.
  destruct (Z_cases m) as (k & [-> | ->]).
  - rewrite <- INR_IZR_INZ. replace (INR k * (2 * PI)) with (0 + 2 * INR k * PI) by ring. rewrite cos_period, cos_0. reflexivity.
  - rewrite opp_IZR, <- INR_IZR_INZ. replace (- INR k * (2 * PI)) with (- (0 + 2 * INR k * PI)) by ring. rewrite cos_neg, cos_period, cos_0. reflexivity.
Qed.
Lemma cmean_E (m : Z) : cmean (fun x => E (IZR m * x)) (if (m =? 0)%Z then f1 else f0).
Proof.
  assert (C1 : continuity (fun x => cos (IZR m * x))) by (intros x; apply derivable_continuous_pt; eexists; apply dcos).
  assert (C2 : continuity (fun x => sin (IZR m * x))) by (intros x; apply derivable_continuous_pt; eexists; apply dsin).
  destruct (Z.eqb_spec m 0) as [->|Hm]; split; split; cbn; try assumption.
  - exists (fun x => x). split; [|ring]. intros x. rewrite Rmult_0_l, cos_0. apply derivable_pt_lim_id.
  - exists (fun x => 0). split; [|ring]. intros x. rewrite Rmult_0_l, sin_0. apply derivable_pt_lim_const.
  - assert (Hm' : IZR m <> 0) by (intros H; apply Hm, eq_IZR, H).
    exists (fun x => / IZR m * sin (IZR m * x)). split.
    + intros x. replace (cos (IZR m * x)) with (/ IZR m * (IZR m * cos (IZR m * x))) by (field; exact Hm').
      apply (derivable_pt_lim_scal (fun x => sin (IZR m * x))), dsin.
    + rewrite period_sin, (Rmult_0_r (IZR m)), sin_0. ring.
  - assert (Hm' : IZR m <> 0) by (intros H; apply Hm, eq_IZR, H).
    exists (fun x => - / IZR m * cos (IZR m * x)). split.
    + intros x. replace (sin (IZR m * x)) with (- / IZR m * - (IZR m * sin (IZR m * x))) by (field; exact Hm').
      apply (derivable_pt_lim_scal (fun x => cos (IZR m * x))), dcos.
    + rewrite period_cos, (Rmult_0_r (IZR m)), cos_0. ring.
Qed.
Lemma cmean_mean f v : cmean f v -> mean f v.
Proof.
  pose proof PI_RGT_0. intros ((A & B) & (C & D)). split; apply newton_integral; try assumption; lra.
Qed.
Lemma mean_unique f u v : mean f u -> mean f v -> u = v.
Proof.
  pose proof PI_RGT_0. intros (A & B) (C & D). apply Ceq.
  - apply (Rmult_eq_reg_l (2 * PI)); [|lra]. exact (integral_unique _ _ _ _ _ A C).
  - apply (Rmult_eq_reg_l (2 * PI)); [|lra]. exact (integral_unique _ _ _ _ _ B D).
Qed.
Lemma exact_trig df t s g cs k l : trig g cs ->
  exact df t s g k l (fmul (pre df t s k l) (lsumC cs (fun ac => if (l - k + fst ac =? 0)%Z then snd ac else f0))).
Proof.
  intros H. apply cmean_mean.
  apply (cmean_ext (fun x => fmul (pre df t s k l) (lsumC cs (fun ac => fmul (snd ac) (E (IZR (l - k + fst ac) * x)))))).
  { intros x. symmetry. apply integrand_trig, H. }
  apply cmean_scal. clear H. induction cs as [|[a c] cs IH]; cbn [lsumC fst snd]; [apply cmean_0|].
  apply cmean_add; [|exact IH].
  replace (if (l - k + a =? 0)%Z then c else f0) with (fmul c (if (l - k + a =? 0)%Z then f1 else f0 : CFld)) by (destruct (_ =? 0)%Z; ring).
  apply cmean_scal, cmean_E.
Qed.

(** dexp is the derivative of the basis function *)
Lemma dexp_deriv df a k s x :
  derivable_pt_lim (fun x => fst (dexp df k s (df * (x - a)))) x (fst (dexp df k (S s) (df * (x - a)))) /\
  derivable_pt_lim (fun x => snd (dexp df k s (df * (x - a)))) x (snd (dexp df k (S s) (df * (x - a)))).
Proof.
  assert (D1 : derivable_pt_lim (fun x => cos (IZR k * (df * (x - a)))) x (- (IZR k * df) * sin (IZR k * (df * (x - a))))).
  { replace (- (IZR k * df) * sin (IZR k * (df * (x - a)))) with (- sin (IZR k * (df * (x - a))) * (IZR k * (df * (1 - 0)))) by ring.
    apply (derivable_pt_lim_comp (fun x => IZR k * (df * (x - a))) cos); [|apply derivable_pt_lim_cos].
    apply (derivable_pt_lim_scal (fun x => df * (x - a))), (derivable_pt_lim_scal (fun x => x - a)).
    apply (derivable_pt_lim_minus (fun x => x) (fun _ => a)); [apply derivable_pt_lim_id | apply derivable_pt_lim_const]. }
  assert (D2 : derivable_pt_lim (fun x => sin (IZR k * (df * (x - a)))) x ((IZR k * df) * cos (IZR k * (df * (x - a))))).
  { replace (IZR k * df * cos (IZR k * (df * (x - a)))) with (cos (IZR k * (df * (x - a))) * (IZR k * (df * (1 - 0)))) by ring.
    apply (derivable_pt_lim_comp (fun x => IZR k * (df * (x - a))) sin); [|apply derivable_pt_lim_sin].
    apply (derivable_pt_lim_scal (fun x => df * (x - a))), (derivable_pt_lim_scal (fun x => x - a)).
    apply (derivable_pt_lim_minus (fun x => x) (fun _ => a)); [apply derivable_pt_lim_id | apply derivable_pt_lim_const]. }
  unfold dexp. cbn [fpow]. destruct (fpow ((0, IZR k * df) : CFld) s) as [p q]. cbn.
  set (c := cos (IZR k * (df * (x - a)))) in *. set (d := sin (IZR k * (df * (x - a)))) in *. split.
  - replace ((0 * p - IZR k * df * q) * c - (0 * q + IZR k * df * p) * d) with (p * (- (IZR k * df) * d) - q * (IZR k * df * c)) by ring.
    apply (derivable_pt_lim_minus (fun x => p * cos (IZR k * (df * (x - a)))) (fun x => q * sin (IZR k * (df * (x - a)))));
      apply (derivable_pt_lim_scal (fun x => _)); assumption.
  - replace ((0 * p - IZR k * df * q) * d + (0 * q + IZR k * df * p) * c) with (p * (IZR k * df * c) + q * (- (IZR k * df) * d)) by ring.
    apply (derivable_pt_lim_plus (fun x => p * sin (IZR k * (df * (x - a)))) (fun x => q * cos (IZR k * (df * (x - a)))));
      apply (derivable_pt_lim_scal (fun x => _)); assumption.
Qed.
