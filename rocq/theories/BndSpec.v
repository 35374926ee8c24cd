(** BndSpec.v -- what the inhomogeneous expansion is. *)
From Coq Require Import Reals ZArith List Bool Arith.
From Verif Require Import Base Fld SparseModel SparseSpec RPoly StencilModel StencilSpec BndModel.
Import ListNotations.
Local Open Scope R_scope.

(** the basis functions and the boundary functions, as polynomials *)
Definition phi (P : nat -> poly) (b : cbase) (k : nat) : poly := basis_function P (cS b) k.
Definition bfun (P : nat -> poly) (b : cbase) (i : nat) : poly := pcomb (cO b) (cB b i) P.
(** the function with coefficients u: the last nb coefficients belong to the boundary functions *)
Definition expansion (P : nat -> poly) (b : cbase) (u : nat -> R) : poly :=
  padd (pcomb (cdim b) u (phi P b)) (pcomb (cnb b) (fun i => u (cdim b + i)%nat) (bfun P b)).
(** the coefficients have the boundary values bcs *)
Definition has_bcs (b : cbase) (bcs u : nat -> R) : Prop := forall j, (j < cnb b)%nat -> u (cdim b + j)%nat = bcs j.
(** the matrices of forward are those of the discrete scalar product (u, v) = sum_q w_q g_q u(x_q) v(x_q): this is C36 and C44 *)
Definition product (Q : quadr) (g : nat -> R) (u v : nat -> R) : R := rsum (qn Q) (fun q => qw Q q * g q * u q * v q).
Definition at_points (Q : quadr) (p : poly) (q : nat) : R := peval p (qx Q q).
Definition correct (P : nat -> poly) (b : cbase) (Q : quadr) (g : nat -> R) (A : assembled) : Prop :=
  (* solve returns the solution, *)
  (forall r i, (i < cdim b)%nat ->
     rsum (cdim b) (fun k => product Q g (at_points Q (phi P b i)) (at_points Q (phi P b k)) * a_solve A r k) = r i) /\
  (* which is the only one *)
  (forall v, (forall i, (i < cdim b)%nat -> rsum (cdim b) (fun k => product Q g (at_points Q (phi P b i)) (at_points Q (phi P b k)) * v k) = 0) ->
     forall k, (k < cdim b)%nat -> v k = 0) /\
  (forall i j, (i < cdim b)%nat -> (j < cnb b)%nat -> a_bcmass A i j = product Q g (at_points Q (phi P b i)) (at_points Q (bfun P b j))).
(** the space is well formed *)
Definition wf_base (b : cbase) : Prop :=
  sm_scale RFld (cS b) = 1 /\ sm_cols RFld (cS b) = cN b /\ NoDup (map fst (sm_items RFld (cS b))) /\ (cnb b <= cN b)%nat /\
  (cO b <= cN b)%nat /\ Forall (fun kv => (- Z.of_nat (cdim b) <= fst kv)%Z) (sm_items RFld (cS b)).
(** a boundary condition: derivative of order k at x (times one, or combined) of a polynomial; F is linear *)
Definition linear_fun (F : poly -> R) : Prop :=
  (forall p q, F (padd p q) = F p + F q) /\ (forall c p, F (pscale c p) = c * F p) /\ F [] = 0.

(** operators along the other axes *)
Definition linear_op {O S : Type} (X : (O -> R) -> S -> R) : Prop :=
  (forall f g s, X (fun p => f p + g p) s = X f s + X g s) /\ (forall c f s, X (fun p => c * f p) s = c * X f s) /\
  (forall f g, (forall p, f p = g p) -> forall s, X f s = X g s).
(** the forward transform along the other axes: the function is multiplied by the measure of these axes and transformed *)
Definition others {OP SP OQ SQ : Type} (T : tensor OP SP OQ SQ) (f : OP -> OQ -> R) (s : SP) (t : SQ) : R :=
  t_after T (fun q => t_gQ T q * t_before T (fun p => t_gP T p * f p q) s) t.
Definition this_const {OP SP OQ SQ : Type} (T : tensor OP SP OQ SQ) : R := match t_last T with LThis => t_c T | _ => 1 end.

(** a history of calls update(time, update_tensor), from the constructor on *)
Definition run (l : list bval) (h : list (option R * bool)) : bstate := fold_left (fun s c => update l (fst c) (snd c) s) h (b_init l).
(** the value of a boundary condition at time t *)
Definition value_at (t : R) (v : bval) : R := match v with BConst v => v | BTime f => f t end.
