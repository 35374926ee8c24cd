(** Complex.v -- the complex numbers as pairs of reals: the field in which the library's
    transforms live.  Shows that the hypotheses "w is a primitive n-th root of unity" and
    "conj w = 1/w" of the Fourier theorems are met by w = exp(2 pi i / n) for every n.
    (The only file that uses the axioms of the standard library's real numbers.) *)
From Coq Require Import Reals Lra Field Arith Lia.
From Verif Require Import Base Fld FourierSpec.
Local Open Scope R_scope.

Definition Cx : Type := (R * R)%type.
Definition C0 : Cx := (0, 0).
Definition C1 : Cx := (1, 0).
Definition Cadd (a b : Cx) : Cx := (fst a + fst b, snd a + snd b).
Definition Cmul (a b : Cx) : Cx := (fst a * fst b - snd a * snd b, fst a * snd b + snd a * fst b).
Definition Copp (a : Cx) : Cx := (- fst a, - snd a).
Definition Csub (a b : Cx) : Cx := Cadd a (Copp b).
Definition Cinv (a : Cx) : Cx := let d := fst a * fst a + snd a * snd a in (fst a / d, - snd a / d).
Definition Cdiv (a b : Cx) : Cx := Cmul a (Cinv b).
Definition Cconj (a : Cx) : Cx := (fst a, - snd a).

Lemma Ceq (a b : Cx) : fst a = fst b -> snd a = snd b -> a = b.
Proof. destruct a, b; simpl; intros; subst; reflexivity. Qed.
Lemma Cnorm_neq (a : Cx) : a <> C0 -> fst a * fst a + snd a * snd a <> 0.
Proof.
  intros H E. apply H. destruct a as [x y]. simpl in *.
  assert (x = 0 /\ y = 0) as [-> ->]; [|reflexivity].
  assert (0 <= x * x) by apply Rle_0_sqr. assert (0 <= y * y) by apply Rle_0_sqr.
  split; apply Rsqr_0_uniq; unfold Rsqr; lra.
Qed.
Lemma Claws : field_theory C0 C1 Cadd Cmul Csub Copp Cdiv Cinv (@eq Cx).
Proof.
  constructor.
  - constructor; intros; apply Ceq; unfold Csub, Cadd, Cmul, Copp, C0, C1; simpl; ring.
  - intros E. injection E as E. lra.
  - reflexivity.
  - intros p Hp. pose proof (Cnorm_neq p Hp). apply Ceq; unfold Cmul, Cinv, C1; simpl; field; auto.
Qed.
Definition CFld : Fld := mkFld Cx C0 C1 Cadd Cmul Csub Copp Cdiv Cinv Claws.

Lemma Cconj_ok : conj_ok CFld Cconj.
Proof.
  split; [|split]; intros; apply Ceq; unfold Cconj; simpl; ring.
Qed.
Lemma C_two : fadd (f1 : CFld) f1 <> f0.
Proof. intros E. injection E as E. lra. Qed.
Lemma C_nat n : (fnat n : CFld) = (INR n, 0).
Proof. induction n as [|n IH]; [reflexivity|]. change (Cadd (fnat n : CFld) C1 = (INR (S n), 0)). rewrite IH, S_INR. apply Ceq; simpl; ring. Qed.
Lemma C_nat_neq n : (0 < n)%nat -> (fnat n : CFld) <> f0.
Proof. intros H. rewrite C_nat. intros E. injection E as E. apply lt_INR in H. simpl in H. lra. Qed.

(** exp(2 pi i / n) *)
Definition root (n : nat) : CFld := (cos (2 * PI / INR n), sin (2 * PI / INR n)).
Lemma root_pow n k : fpow (root n) k = (cos (INR k * (2 * PI / INR n)), sin (INR k * (2 * PI / INR n))).
Proof.
  induction k as [|k IH].
  - simpl. rewrite Rmult_0_l, cos_0, sin_0. reflexivity.
  - change (Cmul (root n) (fpow (root n) k) = (cos (INR (S k) * (2 * PI / INR n)), sin (INR (S k) * (2 * PI / INR n)))).
    rewrite IH, S_INR. unfold root, Cmul. set (x := 2 * PI / INR n). cbn [fst snd].
    replace ((INR k + 1) * x) with (x + INR k * x) by ring. rewrite cos_plus, sin_plus. apply Ceq; cbn [fst snd]; ring.
Qed.
Lemma root_prim n : (0 < n)%nat -> prim_root CFld n (root n).
Proof.
  intros Hn. assert (Hi : 0 < INR n) by (apply (lt_INR 0); lia). split.
  - rewrite root_pow. replace (INR n * (2 * PI / INR n)) with (2 * PI) by (field; lra).
    rewrite cos_2PI, sin_2PI. reflexivity.
  - intros k Hk E. rewrite root_pow in E. injection E as E1 E2.
    set (x := INR k * (2 * PI / INR n)) in *.
    assert (Hk' : 0 < INR k < INR n) by (split; [apply (lt_INR 0); lia | apply lt_INR; lia]).
    pose proof PI_RGT_0 as HP.
    assert (Hx : x / 2 = PI * (INR k / INR n)) by (unfold x; field; lra).
    assert (Hq : 0 < INR k / INR n < 1).
    { split; [apply Rdiv_lt_0_compat; lra|]. apply (Rmult_lt_reg_r (INR n)); [lra|]. unfold Rdiv. rewrite Rmult_assoc, Rinv_l; lra. }
    assert (S : 0 < sin (x / 2)).
    { apply sin_gt_0; rewrite Hx.
      - apply Rmult_lt_0_compat; lra.
      - rewrite <- (Rmult_1_r PI) at 2. apply Rmult_lt_compat_l; lra. }
    replace x with (2 * (x / 2)) in E1 by lra. rewrite cos_2a_sin in E1.
    assert (0 < sin (x / 2) * sin (x / 2)) by (apply Rmult_lt_0_compat; exact S). lra.
Qed.
Lemma root_conj n : Cconj (root n) = finv (root n).
Proof.
  unfold root. set (x := 2 * PI / INR n). pose proof (sin2_cos2 x) as E. unfold Rsqr in E.
  change (Cconj (cos x, sin x) = Cinv (cos x, sin x)). unfold Cinv, Cconj. cbn [fst snd].
  replace (cos x * cos x + sin x * sin x) with 1 by lra. apply Ceq; cbn [fst snd]; field.
Qed.
