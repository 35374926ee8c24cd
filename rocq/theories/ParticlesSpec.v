(** ParticlesSpec.v -- trajectories of a velocity field. *)
From Coq Require Import Reals.
Local Open Scope R_scope.

(** positions or velocities in D dimensions differ by at most e in every component *)
Definition near (D : nat) (a b : nat -> R) (e : R) : Prop := forall d, (d < D)%nat -> Rabs (a d - b d) <= e.
Definition lipschitz (D : nat) (u : (nat -> R) -> nat -> R) (L : R) : Prop :=
  forall a b e, near D a b e -> near D (u a) (u b) (L * e).
(** y solves y' = u(y) between the times lo and hi *)
Definition trajectory (D : nat) (u : (nat -> R) -> nat -> R) (lo hi : R) (y : R -> nat -> R) : Prop :=
  forall t d, lo <= t <= hi -> (d < D)%nat -> derivable_pt_lim (fun s => y s d) t (u (y t) d).
(** the velocity along the trajectory changes at most at the rate M *)
Definition rate (D : nat) (u : (nat -> R) -> nat -> R) (lo hi : R) (y : R -> nat -> R) (M : R) : Prop :=
  forall s t, lo <= s <= hi -> lo <= t <= hi -> near D (u (y s)) (u (y t)) (M * Rabs (s - t)).

(** the same for a velocity field that changes in time *)
Definition trajectory_t (D : nat) (u : R -> (nat -> R) -> nat -> R) (lo hi : R) (y : R -> nat -> R) : Prop :=
  forall t d, lo <= t <= hi -> (d < D)%nat -> derivable_pt_lim (fun s => y s d) t (u t (y t) d).
Definition rate_t (D : nat) (u : R -> (nat -> R) -> nat -> R) (lo hi : R) (y : R -> nat -> R) (M : R) : Prop :=
  forall s t, lo <= s <= hi -> lo <= t <= hi -> near D (u s (y s)) (u t (y t)) (M * Rabs (s - t)).
