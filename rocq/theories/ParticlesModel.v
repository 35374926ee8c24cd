(** ParticlesModel.v -- shenfun/utilities/lagrangian_particles.py LagrangianParticles (8-33).

    Positions are arrays x[d, p], component d of particle p.  Exact arithmetic.  The
    evaluation of a Function at points (Function.eval, see C34) is the parameter [ev], which
    is applied to every point by itself; [store] is what the user's array keeps of a number
    assigned to it: the number itself for a float array, its integer part for an integer
    array. *)
From Coq Require Import Reals List.
Import ListNotations.
Local Open Scope R_scope.

Section Model.
  Variable Vel : Type.
  Variable ev : Vel -> (nat -> R) -> nat -> R.
  Variable store : R -> R.

  (** 22-26 __init__: self.x is the user's array *)
  Record lp := mkLP { lp_x : nat -> nat -> R; lp_up : nat -> nat -> R; lp_dt : R; lp_vel : Vel }.
  Definition lp_new (points : nat -> nat -> R) (dt : R) (u_hat : Vel) : lp := mkLP points (fun _ _ => 0) dt u_hat.

  (** 32-33 rhs *)
  Definition lp_rhs (s : lp) : nat -> nat -> R := fun d p => ev (lp_vel s) (fun k => lp_x s k p) d.
  (** 28-30 step *)
  Definition lp_step (s : lp) : lp :=
    let up := lp_rhs s in
    mkLP (fun d p => store (lp_x s d p + lp_dt s * up d p)) up (lp_dt s) (lp_vel s).

  (** what a user does with the object: steps, lp.dt = r, new values in u_hat *)
  Inductive lop := Step | SetDt (r : R) | SetVel (v : Vel).
  Definition lp_do (s : lp) (o : lop) : lp :=
    match o with
    | Step => lp_step s
    | SetDt r => mkLP (lp_x s) (lp_up s) r (lp_vel s)
    | SetVel v => mkLP (lp_x s) (lp_up s) (lp_dt s) v
    end.
  Definition lp_run (s : lp) (os : list lop) : lp := fold_left lp_do os s.
End Model.
Arguments Step {Vel}. Arguments SetDt {Vel}. Arguments SetVel {Vel}.
Arguments lp_x {Vel}. Arguments lp_dt {Vel}. Arguments lp_vel {Vel}. Arguments lp_up {Vel}.
