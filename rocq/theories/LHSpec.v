(** LHSpec.v -- Hermite and Laguerre functions, derivatives and integrals over unbounded intervals. *)
From Coq Require Import Reals List Arith.
From Verif Require Import Base RPoly BndModel.
Import ListNotations.
Local Open Scope R_scope.

(** Hermite polynomials: H_0 = 1, H_1 = 2x, H_(n+2) = 2x H_(n+1) - 2(n+1) H_n *)
Definition hermP : nat -> poly := three_term (fun _ => 2) (fun _ => 0) (fun n => 2 * (INR n + 1)) [0; 2].
(** the basis functions in the documentation of the two classes *)
Definition laguerre (n : nat) (x : R) : R := peval (lagL n) x * exp (- x / 2).
Definition hermite (n : nat) (x : R) : R :=
  peval (hermP n) x * (1 / (sqrt (sqrt PI) * sqrt (2 ^ n * INR (fact n)))) * exp (- x ^ 2 / 2).

(** g is the k-th derivative of f *)
Fixpoint nth_derivative (k : nat) (f g : R -> R) : Prop :=
  match k with
  | O => forall x, f x = g x
  | S k => exists f', (forall x, derivable_pt_lim f x (f' x)) /\ nth_derivative k f' g
  end.

(** limits at plus and minus infinity *)
Definition limit_plus (F : R -> R) (l : R) : Prop := forall e, 0 < e -> exists B, forall x, B < x -> Rabs (F x - l) < e.
Definition limit_minus (F : R -> R) (l : R) : Prop := forall e, 0 < e -> exists B, forall x, x < B -> Rabs (F x - l) < e.
(** the improper integrals of f over [0, oo) and over the line, by an antiderivative *)
Definition integral_half (f : R -> R) (v : R) : Prop :=
  exists F l, (forall x, derivable_pt_lim F x (f x)) /\ limit_plus F l /\ v = l - F 0.
Definition integral_line (f : R -> R) (v : R) : Prop :=
  exists F l m, (forall x, derivable_pt_lim F x (f x)) /\ limit_plus F l /\ limit_minus F m /\ v = l - m.
Definition kron (i j : nat) : R := if Nat.eqb i j then 1 else 0.

(** the points x and weights w of a Gauss rule with n points: it is exact for the weighted polynomials of degree below 2n *)
Definition laguerre_gauss (n : nat) (x w : nat -> R) : Prop :=
  forall p v, (length p <= 2 * n)%nat -> integral_half (fun t => peval p t * exp (- t)) v -> rsum n (fun q => w q * peval p (x q)) = v.
Definition hermite_gauss (n : nat) (x w : nat -> R) : Prop :=
  forall p v, (length p <= 2 * n)%nat -> integral_line (fun t => peval p t * exp (- t ^ 2)) v -> rsum n (fun q => w q * peval p (x q)) = v.
