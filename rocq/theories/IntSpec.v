(** IntSpec.v -- specification: what an integral of a function on the domain is. *)
From Coq Require Import Reals List Arith.
From Verif Require Import Base RPoly MatrixSpec.
Import ListNotations.
Local Open Scope R_scope.

(** the integral over [0, infinity) as a limit of Riemann integrals *)
Definition improper (f : R -> R) (v : R) : Prop :=
  forall eps, 0 < eps -> exists B, forall b, B <= b -> exists r, integral f 0 b r /\ Rabs (r - v) < eps.
(** a polynomial with n coefficients *)
Definition degree_below (n : nat) (p : poly) : Prop := (length p <= n)%nat.
(** a trigonometric polynomial of degree below n with period L, at x *)
Definition trig_poly (n : nat) (al be : nat -> R) (a L x : R) : R :=
  gsum 0 Rplus n (fun k => al k * cos (INR k * (2 * PI / L * (x - a))) + be k * sin (INR k * (2 * PI / L * (x - a)))).
(** the n-dimensional sum over all multi-indices *)
Fixpoint msum (axes : list (nat * (nat -> R))) (u : list nat -> R) : R :=
  match axes with [] => u [] | (n, w) :: r => gsum 0 Rplus n (fun i => w i * msum r (fun t => u (i :: t))) end.
