(** Fld.v -- exact scalars.  Every linear-algebra theorem is stated for an
    arbitrary field, so it holds for rationals, reals and complex numbers alike. *)
From Coq Require Import Field QArith Qcanon.
From Verif Require Import Base.

Record Fld : Type := mkFld {
  car :> Type;
  f0 : car;
  f1 : car;
  fadd : car -> car -> car;
  fmul : car -> car -> car;
  fsub : car -> car -> car;
  fopp : car -> car;
  fdiv : car -> car -> car;
  finv : car -> car;
  flaws : field_theory f0 f1 fadd fmul fsub fopp fdiv finv (@eq car)
}.

Arguments f0 {_}.
Arguments f1 {_}.
Arguments fadd {_}.
Arguments fmul {_}.
Arguments fsub {_}.
Arguments fopp {_}.
Arguments fdiv {_}.
Arguments finv {_}.

Declare Scope fld_scope.
Delimit Scope fld_scope with fld.
Notation "0" := f0 : fld_scope.
Notation "1" := f1 : fld_scope.
Infix "+" := fadd : fld_scope.
Infix "*" := fmul : fld_scope.
Infix "-" := fsub : fld_scope.
Infix "/" := fdiv : fld_scope.
Notation "- x" := (fopp x) : fld_scope.

(** sum_{i < n} f i *)
Definition fsum {K : Fld} (n : nat) (f : nat -> K) : K := gsum f0 fadd n f.

(** the canonical image of a natural number / an integer in the field *)
Fixpoint fnat {K : Fld} (n : nat) : K :=
  match n with O => f0 | S m => fadd (fnat m) f1 end.
Fixpoint fpow {K : Fld} (x : K) (n : nat) : K :=
  match n with O => f1 | S m => fmul x (fpow x m) end.

(** the rationals, with Leibniz equality: used for all concrete witnesses *)
Definition QcFld : Fld :=
  mkFld Qc (Q2Qc 0) (Q2Qc 1) Qcplus Qcmult Qcminus Qcopp Qcdiv Qcinv Qcft.

Lemma fringlaws (K : Fld) : ring_theory (@f0 K) f1 fadd fmul fsub fopp (@eq K).
Proof. exact (F_R (flaws K)). Qed.

Section FldFacts.
  Variable K : Fld.
  Local Open Scope fld_scope.
  Add Field KF : (flaws K).

  Lemma f1_neq_0 : (1 : K) <> 0.
  Proof. exact (F_1_neq_0 (flaws K)). Qed.

  Lemma fdiv_mul (a b : K) : b <> 0 -> a / b * b = a.
  Proof. intros; field; assumption. Qed.

  Lemma fmul_integral (a b : K) : a * b = 0 -> b <> 0 -> a = 0.
  Proof.
    intros H Hb.
    transitivity (a * b / b); [ field; assumption | rewrite H; field; assumption ].
  Qed.

  Lemma fmul_neq_0 (a b : K) : a <> 0 -> b <> 0 -> a * b <> 0.
  Proof. intros Ha Hb H. apply Ha. eapply fmul_integral; eauto. Qed.

  Lemma fsum_ext n (f g : nat -> K) :
    (forall i, (i < n)%nat -> f i = g i) -> fsum n f = fsum n g.
  Proof. apply gsum_ext. Qed.

  Lemma fsum_S n (f : nat -> K) : fsum (S n) f = fsum n f + f n.
  Proof. reflexivity. Qed.

  Lemma fsum_zero n (f : nat -> K) : (forall i, (i < n)%nat -> f i = 0) -> fsum n f = 0.
  Proof. apply (gsum_zero _ _ _ _ _ _ _ (fringlaws K)). Qed.

  Lemma fsum_add n (f g : nat -> K) : fsum n (fun i => f i + g i) = fsum n f + fsum n g.
  Proof. apply (gsum_add _ _ _ _ _ _ _ (fringlaws K)). Qed.

  Lemma fsum_sub n (f g : nat -> K) : fsum n (fun i => f i - g i) = fsum n f - fsum n g.
  Proof. apply (gsum_sub _ _ _ _ _ _ _ (fringlaws K)). Qed.

  Lemma fsum_scal n c (f : nat -> K) : fsum n (fun i => c * f i) = c * fsum n f.
  Proof. apply (gsum_scal _ _ _ _ _ _ _ (fringlaws K)). Qed.

  Lemma fsum_scal_r n c (f : nat -> K) : fsum n (fun i => f i * c) = fsum n f * c.
  Proof. apply (gsum_scal_r _ _ _ _ _ _ _ (fringlaws K)). Qed.

  Lemma fsum_delta n c (v : nat -> K) :
    fsum n (fun j => if Nat.eqb j c then v j else 0) = if Nat.ltb c n then v c else 0.
  Proof. apply (gsum_delta _ _ _ _ _ _ _ (fringlaws K)). Qed.

  Lemma fsum_swap n m (f : nat -> nat -> K) :
    fsum n (fun i => fsum m (fun j => f i j)) = fsum m (fun j => fsum n (fun i => f i j)).
  Proof. apply (gsum_swap _ _ _ _ _ _ _ (fringlaws K)). Qed.

  Lemma fsum_split n m (f : nat -> K) :
    fsum (n + m) f = fsum n f + fsum m (fun i => f (n + i)%nat).
  Proof. apply (gsum_split _ _ _ _ _ _ _ (fringlaws K)). Qed.

  Lemma fsum_single n c (f : nat -> K) :
    (c < n)%nat -> (forall j, (j < n)%nat -> j <> c -> f j = 0) -> fsum n f = f c.
  Proof. apply (gsum_single _ _ _ _ _ _ _ (fringlaws K)). Qed.
End FldFacts.
