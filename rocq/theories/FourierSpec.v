(** FourierSpec.v -- integer powers, roots of unity, trigonometric expansions. *)
From Coq Require Import Arith ZArith List.
From Verif Require Import Base Fld.
Local Open Scope nat_scope.

Section Spec.
  Variable K : Fld.
  Local Open Scope fld_scope.

  (** x^k for an integer k *)
  Definition zpow (x : K) (k : Z) : K :=
    match k with
    | Z0 => 1
    | Zpos p => fpow x (Pos.to_nat p)
    | Zneg p => fpow (finv x) (Pos.to_nat p)
    end.

  (** w is a primitive n-th root of unity, as exp(2 pi i / n) is in the complex numbers *)
  Definition prim_root (n : nat) (w : K) : Prop :=
    fpow w n = 1 /\ forall k, (0 < k < n)%nat -> fpow w k <> 1.

  (** sum over the integers -h <= f <= h *)
  Definition bandsum (h : nat) (F : Z -> K) : K := fsum (2 * h + 1) (fun t => F (Z.of_nat t - Z.of_nat h)%Z).

  (** the coefficient of exp(i f x) in the (symmetric) expansion with the N coefficients c:
      frequencies |f| <= N/2, the Nyquist coefficient of an even N shared by f = N/2 and
      f = -N/2 *)
  Definition coef (N : nat) (c : nat -> K) (f : Z) : K :=
    if (Z.abs f <=? Z.of_nat (N / 2))%Z
    then (if (N mod 2 =? 0)%nat then (if (Z.abs f =? Z.of_nat (N / 2))%Z then 1 / (1 + 1) else 1) else 1)
         * c (Z.to_nat (f mod Z.of_nat N))
    else 0.

  (** linear (not circular) convolution of two expansions, at frequency f *)
  Definition linconv (N : nat) (u v : nat -> K) (f : Z) : K :=
    bandsum (N / 2) (fun a => coef N u a * coef N v (f - a)%Z).

  (** complex conjugation: an involutive automorphism *)
  Definition conj_ok (conj : K -> K) : Prop :=
    (forall a b, conj (a + b) = conj a + conj b) /\ (forall a b, conj (a * b) = conj a * conj b) /\
    (forall a, conj (conj a) = a).

  (** the N coefficients of the real function with the given N//2+1 coefficients *)
  Definition hermitian (conj : K -> K) (N : nat) (c : nat -> K) (k : nat) : K :=
    if (k =? 0)%nat then (c 0%nat + conj (c 0%nat)) * (1 / (1 + 1))
    else if (2 * k <? N)%nat then c k
    else if (2 * k =? N)%nat then (c k + conj (c k)) * (1 / (1 + 1))
    else conj (c (N - k)%nat).
End Spec.
