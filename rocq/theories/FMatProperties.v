(** FMatProperties.v -- C54: the matrices of the Fourier bases. *)
From Coq Require Import Reals ZArith List Bool Arith Lia Lra.
From Verif Require Import Base Fld Complex SparseModel SparseSpec MatrixSpec FMatModel FMatSpec FMatProofs FMatProofs2 FMatProofs3.
Import ListNotations.
Local Open Scope R_scope.

(** The specification's [dexp df k s] is the s-th derivative of exp(i k df (x - a)): real and imaginary part *)
Theorem C54_derivative : forall df a k s x,
  dexp df k 0 (df * (x - a)) = ((cos (IZR k * (df * (x - a))), sin (IZR k * (df * (x - a)))) : CFld) /\
  derivable_pt_lim (fun x => fst (dexp df k s (df * (x - a)))) x (fst (dexp df k (S s) (df * (x - a)))) /\
  derivable_pt_lim (fun x => snd (dexp df k s (df * (x - a)))) x (snd (dexp df k (S s) (df * (x - a)))).
Proof. intros. split; [unfold dexp; cbn [fpow]; apply Ceq; cbn; ring | apply dexp_deriv]. Qed.

(** inner(Dx(v, 0, t), c*Dx(u, 0, s)): every entry is the discrete and the exact inner product, for every number of points, every
    domain, all orders of derivatives, complex and real bases *)
Theorem C54_constant : forall near1 c2c N df scale0 t s c, (0 < N)%nat -> df <> 0 ->
  exists A, fourier_matrix near1 c2c N df scale0 t s (Mnum c) = Some A /\ sm_rows CFld A = fdim c2c N /\ sm_cols CFld A = fdim c2c N /\
  forall i l, (i < fdim c2c N)%nat -> (l < fdim c2c N)%nat ->
    mat_entry CFld A i l = discrete N df t s (fun _ => scale0 * c) (freq c2c N i) (freq c2c N l) /\
    exact df t s (fun _ => scale0 * c) (freq c2c N i) (freq c2c N l) (mat_entry CFld A i l).
Proof.
  intros near1 c2c N df scale0 t s c HN Hdf. destruct (ent_const c2c N df t s c) as (d & Hd & _).
  destruct (fourier_matrix near1 c2c N df scale0 t s (Mnum c)) as [A|] eqn:HA; [|unfold fourier_matrix in HA; rewrite Hd in HA; discriminate].
  exists A. destruct (shape_eq _ _ _ _ _ _ _ _ _ HA) as (R1 & R2). repeat split; auto;
    intros; rewrite (entry_const _ _ _ _ _ _ _ _ _ i l Hdf HA); rewrite <- !wn_freq by assumption;
    [symmetry; apply discrete_const | apply exact_const | apply exact_const]; assumption.
Qed.

(** the matrices with the coefficients cos(x)^2, cos(x), sin(x), sin(2x)/2 on the domain (0, 2 pi): every entry is the discrete
    inner product *)
Theorem C54_variable : forall near1 N scale0 t s m, implemented t s m -> (3 <= N)%nat -> (m = Mcos2 \/ m = Msincos -> N <> 4%nat) ->
  exists A, fourier_matrix near1 true N 1 scale0 t s m = Some A /\ sm_rows CFld A = N /\ sm_cols CFld A = N /\
  forall i l, (i < N)%nat -> (l < N)%nat ->
    mat_entry CFld A i l = fmul (cr scale0) (discrete N 1 t s (coeff m) (freq true N i) (freq true N l)).
Proof.
  intros near1 N scale0 t s m Im HN H4. destruct (entry_var near1 N 1 scale0 t s m Im HN H4 R1_neq_R0) as (A & H1 & H2 & H3 & H).
  exists A. repeat split; auto. intros i l Hi Hl. rewrite <- (H i l Hi Hl).
  destruct (mat_entry CFld A i l). apply Ceq; cbn; ring.
Qed.
(** and the exact inner product where the frequencies do not differ by almost N *)
Theorem C54_variable_exact : forall near1 N t s m, implemented t s m -> (3 <= N)%nat -> (m = Mcos2 \/ m = Msincos -> N <> 4%nat) ->
  exists A, fourier_matrix near1 true N 1 1 t s m = Some A /\
  forall i l, (i < N)%nat -> (l < N)%nat -> (Z.abs (freq true N i - freq true N l) + 2 < Z.of_nat N)%Z ->
    exact 1 t s (coeff m) (freq true N i) (freq true N l) (mat_entry CFld A i l).
Proof.
  intros near1 N t s m Im HN H4. destruct (C54_variable near1 N 1 t s m Im HN H4) as (A & H1 & _ & _ & H).
  exists A. split; [exact H1|]. intros i l Hi Hl Hk. rewrite (H i l Hi Hl).
  replace (fmul (cr 1) _) with (discrete N 1 t s (coeff m) (freq true N i) (freq true N l)).
  2:{ destruct (discrete N 1 t s (coeff m) (freq true N i) (freq true N l)). apply Ceq; cbn; ring. }
  destruct (impl_trig t s m Im) as (cs & T & F). apply (discrete_exact N 1 t s (coeff m) cs); [lia|exact T|].
  eapply Forall_impl; [|exact F]. intros ac Ha. cbn beta in *. lia.
Qed.
(** FINDING: assemble='exact' gives the same matrix, with the wrap-around entries of the quadrature.  For cos(x) and even N the
    entry (N/2 - 1, N/2) is 1/2 and the integral is 0 *)
Theorem C54_exact_refuted : forall near1 h, (2 <= h)%nat ->
  exists A, fourier_matrix near1 true (2 * h) 1 1 0 0 Mcos = Some A /\ mat_entry CFld A (h - 1) h = cr (1 / 2) /\
  exact 1 0 0 cos (freq true (2 * h) (h - 1)) (freq true (2 * h) h) f0.
Proof.
  intros near1 h Hh. assert (Im : implemented 0 0 Mcos) by (unfold implemented; tauto).
  destruct (C54_variable near1 (2 * h) 1 0 0 Mcos Im ltac:(lia) ltac:(intros [E|E]; discriminate)) as (A & H1 & _ & _ & H).
  exists A. split; [exact H1|].
  assert (F1 : freq true (2 * h) (h - 1) = (Z.of_nat h - 1)%Z) by (unfold freq; destruct (Nat.ltb_spec (2 * (h - 1)) (2 * h)); lia).
  assert (F2 : freq true (2 * h) h = (- Z.of_nat h)%Z) by (unfold freq; destruct (Nat.ltb_spec (2 * h) (2 * h)); lia).
  split.
  - rewrite H by lia. change (coeff Mcos) with cos. rewrite F1, F2. assert (HN : (0 < 2 * h)%nat) by lia. rewrite (discrete_trig _ _ _ _ _ _ _ _ HN trig_cos). cbn [lsumC fst snd].
    replace ((- Z.of_nat h - (Z.of_nat h - 1) + -1) mod Z.of_nat (2 * h))%Z with 0%Z.
    2:{ replace (- Z.of_nat h - (Z.of_nat h - 1) + -1)%Z with ((-1) * Z.of_nat (2 * h))%Z by lia. symmetry. apply Z.mod_mul. lia. }
    destruct (Z.eqb_spec ((- Z.of_nat h - (Z.of_nat h - 1) + 1) mod Z.of_nat (2 * h)) 0) as [E|E].
    + exfalso. apply Z.mod_divide in E; [|lia]. destruct E as (q & Hq). rewrite Nat2Z.inj_mul in Hq. change (Z.of_nat 2) with 2%Z in Hq.
      assert (q = -1 \/ q <= -2 \/ 0 <= q)%Z as [-> | [Q|Q]] by lia; [lia|nia|nia].
    + unfold pre. apply Ceq; cbn; field.
  - rewrite F1, F2. pose proof (exact_trig 1 0 0 cos _ (Z.of_nat h - 1)%Z (- Z.of_nat h)%Z trig_cos) as X. cbn [lsumC fst snd] in X.
    rewrite !(proj2 (Z.eqb_neq _ _)) in X by lia.
    replace (f0 : CFld) with (fmul (pre 1 0 0 (Z.of_nat h - 1) (- Z.of_nat h)) (fadd (f0 : CFld) (fadd f0 f0))); [exact X|].
    unfold pre. apply Ceq; cbn; ring.
Qed.
(** FINDING: with 4 points (2 points for cos(x)) two of the keys of the dictionary coincide and only one of the contributions is kept *)
Theorem C54_small_N_refuted : forall near1,
  (exists A, fourier_matrix near1 true 4 1 1 0 0 Mcos2 = Some A /\ mat_entry CFld A 0 2 = cr (1 / 4) /\
    discrete 4 1 0 0 cos2 (freq true 4 0) (freq true 4 2) = cr (1 / 2)) /\
  (exists A, fourier_matrix near1 true 2 1 1 0 0 Mcos = Some A /\ mat_entry CFld A 0 1 = cr (1 / 2) /\
    discrete 2 1 0 0 cos (freq true 2 0) (freq true 2 1) = cr 1).
Proof.
  intros near1. split.
  - destruct (plain_assemble 0 0 Mcos2 4 1 ltac:(discriminate)) as (d & Hd).
    destruct (fourier_matrix near1 true 4 1 1 0 0 Mcos2) as [A|] eqn:HA; [|unfold fourier_matrix in HA; rewrite Hd in HA; discriminate].
    exists A. split; [reflexivity|]. split.
    + rewrite (entry_eq _ _ _ _ _ _ _ _ _ _ 0 2 HA Hd). injection Hd as <-. unfold mscale. destruct (Req_EM_T 1 1); [|lra].
      cbn. apply Ceq; cbn; ring.
    + rewrite (discrete_trig 4 _ _ _ _ _ _ _ ltac:(lia) trig_cos2). cbn. apply Ceq; cbn; field.
  - destruct (plain_assemble 0 0 Mcos 2 1 ltac:(discriminate)) as (d & Hd).
    destruct (fourier_matrix near1 true 2 1 1 0 0 Mcos) as [A|] eqn:HA; [|unfold fourier_matrix in HA; rewrite Hd in HA; discriminate].
    exists A. split; [reflexivity|]. split.
    + rewrite (entry_eq _ _ _ _ _ _ _ _ _ _ 0 1 HA Hd). injection Hd as <-. unfold mscale. destruct (Req_EM_T 1 1); [|lra].
      cbn. apply Ceq; cbn; ring.
    + rewrite (discrete_trig 2 _ _ _ _ _ _ _ ltac:(lia) trig_cos). cbn. apply Ceq; cbn; field.
Qed.
(** FINDING: on another domain (domain factor df = 2 pi / L <> 1) these six matrices lack the factor df that the matrices with
    constant coefficients have; the entries have to be multiplied by df *)
Theorem C54_variable_domain_partial : forall near1 N df scale0 t s m, implemented t s m -> (3 <= N)%nat -> (m = Mcos2 \/ m = Msincos -> N <> 4%nat) -> df <> 0 ->
  exists A, fourier_matrix near1 true N df scale0 t s m = Some A /\
  forall i l, (i < N)%nat -> (l < N)%nat ->
    fmul (mat_entry CFld A i l) (cr df) = fmul (cr scale0) (discrete N df t s (coeff m) (freq true N i) (freq true N l)).
Proof.
  intros near1 N df scale0 t s m Im HN H4 Hdf. destruct (entry_var near1 N df scale0 t s m Im HN H4 Hdf) as (A & H1 & _ & _ & H).
  exists A. split; assumption.
Qed.
Theorem C54_variable_domain_refuted : forall near1 N df, (3 <= N)%nat -> df <> 0 -> df <> 1 ->
  exists A, fourier_matrix near1 true N df 1 0 0 Mcos = Some A /\
    mat_entry CFld A 0 1 <> discrete N df 0 0 cos (freq true N 0) (freq true N 1).
Proof.
  intros near1 N df HN Hdf H1. assert (Im : implemented 0 0 Mcos) by (unfold implemented; tauto).
  destruct (entry_var near1 N df 1 0 0 Mcos Im HN ltac:(intros [E|E]; discriminate) Hdf) as (A & HA & _ & _ & H).
  exists A. split; [exact HA|]. specialize (H 0%nat 1%nat ltac:(lia) ltac:(lia)). change (coeff Mcos) with cos in H. intros E. rewrite <- E in H.
  assert (V : discrete N df 0 0 cos (freq true N 0) (freq true N 1) = cr (1 / 2)).
  { rewrite (discrete_trig N _ _ _ _ _ _ _ ltac:(lia) trig_cos). cbn [lsumC fst snd].
    assert (F0 : freq true N 0 = 0%Z) by (unfold freq; destruct (Nat.ltb_spec (2 * 0) N); lia).
    assert (F1 : freq true N 1 = 1%Z) by (unfold freq; destruct (Nat.ltb_spec (2 * 1) N); lia).
    rewrite F0, F1. change (1 - 0 + 1)%Z with 2%Z. change (1 - 0 + -1)%Z with 0%Z. rewrite (Z.mod_small 2), Z.mod_0_l by lia.
    unfold pre. apply Ceq; cbn; field. }
  rewrite V in E. rewrite E in H. injection H. intros _ Hf. apply H1. lra.
Qed.
(** the quadrature with Vandermonde matrices (kind='vandermonde', and the fallback when nothing is implemented) has the factor:
    it is the discrete inner product for every coefficient and on every domain *)
Theorem C54_vandermonde : forall c2c N df scale0 t s g i l, (0 < N)%nat -> df <> 0 -> (i < fdim c2c N)%nat -> (l < fdim c2c N)%nat ->
  quad_matrix c2c N df scale0 t s g i l = fmul (cr scale0) (discrete N df t s g (freq c2c N i) (freq c2c N l)).
Proof. intros. rewrite quad_ok, !wn_freq by assumption. reflexivity. Qed.
(** the fallback is used for every other coefficient, and for every variable coefficient in a real basis *)
Theorem C54_fallback : forall near1 N df scale0 t s m, (forall c, m <> Mnum c) ->
  fourier_matrix near1 false N df scale0 t s m = None /\
  (~ implemented t s m -> fourier_matrix near1 true N df scale0 t s m = None).
Proof.
  intros near1 N df scale0 t s m Hm. unfold fourier_matrix, assemble. split.
  - cbn [dispatch]. destruct m; try reflexivity. exfalso. eapply Hm. reflexivity.
  - intros Hi. assert (D : dispatch true t s m = Plain).
    { unfold dispatch. destruct t as [|t]; [|reflexivity]. destruct s as [|[|[|s]]]; destruct m; try reflexivity; exfalso; apply Hi; unfold implemented; intuition. }
    rewrite D. destruct m; try reflexivity. exfalso. eapply Hm. reflexivity.
Qed.

(** solve: A u = b row by row; for derivatives the row of the zero frequency is the zero row and its unknown is set to 0 *)
Theorem C54_solve : forall near1 c2c N df scale0 t s c b, (0 < N)%nat -> df <> 0 -> scale0 * c <> 0 ->
  exists A u, fourier_matrix near1 c2c N df scale0 t s (Mnum c) = Some A /\ fourier_solve A b = Some u /\
  forall i, (i < fdim c2c N)%nat ->
    if ((0 <? t + s)%nat && (i =? 0)%nat)%bool then u i = f0
    else mat_vec CFld (fdim c2c N) (mat_entry CFld A) u i = b i.
Proof. exact solve_ok. Qed.

(** non-vacuity: concrete entries of second derivative and sin(x) d/dx matrices with 6 points *)
Example C54_example_d2 : exists A, fourier_matrix (fun _ => false) true 6 2 1 0 2 (Mnum 3) = Some A /\
  mat_entry CFld A 4 4 = cr (-48) /\ mat_entry CFld A 4 3 = f0.
Proof.
  destruct (ent_const true 6 2 0 2 3) as (d & Hd & _).
  destruct (fourier_matrix (fun _ => false) true 6 2 1 0 2 (Mnum 3)) as [A|] eqn:HA; [|unfold fourier_matrix in HA; rewrite Hd in HA; discriminate].
  exists A. split; [reflexivity|]. assert (H2 : 2 <> 0) by lra.
  rewrite !(entry_const _ _ _ _ _ _ _ _ _ _ _ H2 HA). split; [|apply Ceq; cbn; ring].
  rewrite wn_freq by (cbn; lia). cbn. apply Ceq; cbn; ring.
Qed.
Example C54_example_implemented : implemented 0 1 Msin /\ implemented 0 2 Mcos2 /\ implemented 0 1 Msincos.
Proof. unfold implemented. tauto. Qed.
Example C54_example_exact_range : (Z.abs (freq true 8 1 - freq true 8 6) + 2 < 8)%Z.
Proof. reflexivity. Qed.

Print Assumptions C54_derivative.
Print Assumptions C54_constant.
Print Assumptions C54_variable.
Print Assumptions C54_variable_exact.
Print Assumptions C54_exact_refuted.
Print Assumptions C54_small_N_refuted.
Print Assumptions C54_variable_domain_partial.
Print Assumptions C54_variable_domain_refuted.
Print Assumptions C54_vandermonde.
Print Assumptions C54_fallback.
Print Assumptions C54_solve.
