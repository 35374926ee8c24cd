(** HelmholtzSpec.v -- linear systems. *)
From Coq Require Import Reals Arith.
From Verif Require Import Base.
Local Open Scope R_scope.

(** row k of H u = f for an M x M matrix H *)
Definition row_solved (M : nat) (H : nat -> nat -> R) (f u : nat -> R) (k : nat) : Prop :=
  gsum 0 Rplus M (fun j => H k j * u j) = f k.
(** u is a solution of H u = f *)
Definition solves (M : nat) (H : nat -> nat -> R) (f u : nat -> R) : Prop :=
  forall k, (k < M)%nat -> row_solved M H f u k.
(** u is the solution for a matrix whose first column is zero: it satisfies every equation but the
    first, its free first component is zero, and it satisfies the first equation too whenever the
    system has any solution *)
Definition solves_singular (M : nat) (H : nat -> nat -> R) (f u : nat -> R) : Prop :=
  u 0%nat = 0 /\ (forall k, (1 <= k < M)%nat -> row_solved M H f u k) /\
  ((exists w, solves M H f w) -> solves M H f u).
