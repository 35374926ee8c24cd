(** LobSpec.v -- what quadrature rules have to satisfy. *)
From Coq Require Import Reals List Arith.
From Verif Require Import Base RPoly MatrixSpec BndModel.
Import ListNotations.
Local Open Scope R_scope.
Definition strictly_increasing (n : nat) (x : nat -> R) : Prop := forall i j, (i < j)%nat -> (j < n)%nat -> x i < x j.
(** the points of the Gauss-Lobatto rule: the ends and the zeros of the derivative of L_(N-1), in order *)
Definition lobatto_points (N : nat) (x : nat -> R) : Prop :=
  strictly_increasing N x /\ x 0%nat = -1 /\ x (N - 1)%nat = 1 /\ forall i, (0 < i < N - 1)%nat -> deriv_at 1 (legL (N - 1)) (x i) = 0.
(** the points of the Gauss rule: the zeros of L_N, in order *)
Definition gauss_points (N : nat) (x : nat -> R) : Prop :=
  strictly_increasing N x /\ forall i, (i < N)%nat -> -1 < x i < 1 /\ peval (legL N) (x i) = 0.
(** the rule gives the integral over [-1, 1] of every polynomial with at most d coefficients (degree below d) *)
Definition exact_below (d N : nat) (x w : nat -> R) : Prop :=
  forall p, (length p <= d)%nat -> integral (peval p) (-1) 1 (rsum N (fun i => w i * peval p (x i))).
(** the zeros of the derivative of L_(N-1) in (-1, 0), in order: there are N/2 - 1 of them *)
Definition lobatto_half (N : nat) (y : list R) : Prop :=
  length y = (N / 2 - 1)%nat /\ strictly_increasing (N / 2 - 1) (fun i => nth i y 0) /\
  forall v, In v y -> -1 < v < 0 /\ deriv_at 1 (legL (N - 1)) v = 0.
