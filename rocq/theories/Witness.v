(** Witness.v -- boolean checks over the rationals, used only to exhibit concrete
    instances (examples and refutations). *)
From Coq Require Import Arith ZArith List Bool QArith Qcanon.
From Verif Require Import Base Fld SolversSpec.
Local Open Scope nat_scope.

Definition qc (p : Z) : QcFld := Q2Qc (inject_Z p).
Definition qcf (p : Z) (q : positive) : QcFld := Q2Qc (p # q).

Definition qeqb (a b : QcFld) : bool := Qc_eq_bool a b.
Lemma qeqb_true a b : qeqb a b = true -> a = b.
Proof. apply Qc_eq_bool_correct. Qed.
Lemma qeqb_false a b : qeqb a b = false -> a <> b.
Proof.
  unfold qeqb, Qc_eq_bool. destruct (Qc_eq_dec a b); [discriminate | auto].
Qed.

Definition all_below (n : nat) (p : nat -> bool) : bool := forallb p (seq 0 n).
Lemma all_below_spec n p : all_below n p = true -> forall i, i < n -> p i = true.
Proof.
  unfold all_below. rewrite forallb_forall. intros H i Hi. apply H. apply in_seq. auto with arith.
Qed.

Definition nz_below (n : nat) (f : nat -> QcFld) : bool :=
  all_below n (fun i => negb (qeqb (f i) (qc 0))).
Lemma nz_below_spec n f : nz_below n f = true -> forall i, i < n -> f i <> f0.
Proof.
  intros H i Hi. apply qeqb_false. apply (all_below_spec _ _ H) in Hi.
  apply negb_true_iff in Hi. exact Hi.
Qed.

Definition solvesb (n : nat) (A : nat -> nat -> QcFld) (x b : nat -> QcFld) : bool :=
  all_below n (fun i => qeqb (fsum n (fun j => fmul (A i j) (x j))) (b i)).
Lemma solvesb_false n A x b : solvesb n A x b = false -> ~ solves n A x b.
Proof.
  intros H S. assert (E : solvesb n A x b = true).
  { unfold solvesb, all_below. apply forallb_forall. intros i Hi. apply in_seq in Hi.
    rewrite (S i) by tauto. unfold qeqb, Qc_eq_bool. destruct (Qc_eq_dec (b i) (b i)); auto. }
  rewrite E in H. discriminate.
Qed.
