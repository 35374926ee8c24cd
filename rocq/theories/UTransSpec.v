(** UTransSpec.v -- specification: the rules of the Chebyshev family of the second kind and its inner product. *)
From Coq Require Import Reals List Arith.
From Verif Require Import Base RPoly MatrixSpec.
Import ListNotations.
Local Open Scope R_scope.

(** The weight is sqrt(1 - x^2); with x = cos(t) the inner product is int_0^pi u(cos t) v(cos t) sin(t)^2 dt *)
Definition chebu_inner (u v : R -> R) (r : R) : Prop := integral (fun t => u (cos t) * v (cos t) * sin t ^ 2) 0 PI r.
(** a result that exists and whose first n values are f *)
Definition yields (r : option (nat -> R)) (n : nat) (f : nat -> R) : Prop := exists v, r = Some v /\ forall i, (i < n)%nat -> v i = f i.
