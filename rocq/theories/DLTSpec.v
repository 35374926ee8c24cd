(** DLTSpec.v -- specification of the discrete Legendre transforms.  Nothing here refers to the model. *)
From Coq Require Import Reals List Arith.
From Verif Require Import Base RPoly Leg2ChebSpec.
Local Open Scope R_scope.

(** sum_(k < N) c_k L_k(x) *)
Definition leg_series (N : nat) (c : nat -> R) (x : R) : R := gsum 0 Rplus N (fun k => c k * peval (legL k) x).
(** sum_(j < N) f_j L_k(x_j) w_j *)
Definition leg_product (N : nat) (x w f : nat -> R) (k : nat) : R := gsum 0 Rplus N (fun j => f j * peval (legL k) (x j) * w j).
(** the points of an N-point rule of Gauss-Legendre type: in [-1, 1] and symmetric about 0 *)
Definition rule_points (N : nat) (x : nat -> R) : Prop := forall j, (j < N)%nat -> -1 <= x j <= 1.
Definition symmetric_rule (N : nat) (x w : nat -> R) : Prop := forall j, (j < N)%nat -> x (N - 1 - j)%nat = - x j /\ w (N - 1 - j)%nat = w j.
(** the angle of the Chebyshev point with number i of N, counted from x = 1, and the distance of the angles of a point x from it *)
Definition cheb_angle (N i : nat) : R := PI * INR (2 * i + 1) / (2 * INR N).
Definition angle_distance (x : nat -> R) (N j : nat) : R := Rabs (acos (x j) - cheb_angle N (N - 1 - j)).
(** the size of the remainder of Taylor's formula for cos with n terms after the first *)
Definition remainder (n : nat) (h : R) : R := h ^ (n + 1) / INR (fact (n + 1)).
