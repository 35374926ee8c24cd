(** FMatSpec.v -- inner products of complex exponentials. *)
From Coq Require Import Reals ZArith List Arith.
From Verif Require Import Base Fld Complex MatrixSpec.
Local Open Scope R_scope.

(** With th = df (x - a), df = 2 pi / L, the reference coordinate of the domain (a, a + L): the s-th derivative with respect to
    x of exp(i k th), as a function of th *)
Definition dexp (df : R) (k : Z) (s : nat) (th : R) : CFld :=
  fmul (fpow ((0, IZR k * df) : CFld) s) ((cos (IZR k * th), sin (IZR k * th)) : CFld).

(** the integrand conj(v) g u of the inner product of the t-th derivative of exp(i k th) and g times the s-th of exp(i l th) *)
Definition integrand (df : R) (t s : nat) (g : R -> R) (k l : Z) (th : R) : CFld :=
  fmul (fmul (Cconj (dexp df k t th) : CFld) ((g th, 0) : CFld)) (dexp df l s th).

(** the mean value over N equidistant points *)
Definition discrete (N : nat) (df : R) (t s : nat) (g : R -> R) (k l : Z) : CFld :=
  fdiv (fsum N (fun j => integrand df t s g k l (2 * PI * INR j / INR N))) (fnat N).

(** v is the mean value over the domain, (1/L) times the integral *)
Definition mean (f : R -> CFld) (v : CFld) : Prop :=
  integral (fun x => fst (f x)) 0 (2 * PI) (2 * PI * fst v) /\ integral (fun x => snd (f x)) 0 (2 * PI) (2 * PI * snd v).
Definition exact (df : R) (t s : nat) (g : R -> R) (k l : Z) (v : CFld) : Prop := mean (integrand df t s g k l) v.

(** the coefficients of the matrices *)
Definition cos2 (x : R) : R := cos x * cos x.
Definition sincos (x : R) : R := sin (2 * x) / 2.

(** the frequency of basis function number i: 0, 1, .., -2, -1 (complex) or 0, 1, .., N/2 (real) *)
Definition freq (complex : bool) (N i : nat) : Z :=
  if complex then (if (2 * i <? N)%nat then Z.of_nat i else (Z.of_nat i - Z.of_nat N)%Z) else Z.of_nat i.
