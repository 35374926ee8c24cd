(** Leg2ChebSpec.v -- specification: two coefficient arrays that describe the same polynomial. *)
From Coq Require Import Reals List Arith.
From Verif Require Import Base RPoly.
Local Open Scope R_scope.

(** sum_(k < N) a_k P_k(x) = sum_(k < N) b_k Q_k(x) for every x *)
Definition same_function (N : nat) (a : nat -> R) (P : nat -> poly) (b : nat -> R) (Q : nat -> poly) : Prop :=
  forall x, gsum 0 Rplus N (fun k => a k * peval (P k) x) = gsum 0 Rplus N (fun k => b k * peval (Q k) x).
(** <A c, d> = <c, B d> for all c, d *)
Definition adjoint (N : nat) (A B : (nat -> R) -> nat -> R) : Prop :=
  forall c d, gsum 0 Rplus N (fun k => A c k * d k) = gsum 0 Rplus N (fun k => c k * B d k).
