(** FormsSpec.v -- what expressions mean.  A point of the domain is nat -> R (its coordinates);
    functions of the coordinates are pt -> R.  The meaning of an Expr component is
      x |-> sum over its terms of scale(x) * (partial derivative of the basis function)(x). *)
From Coq Require Import Reals ZArith List Bool Arith.
From Verif Require Import FormsModel.
Import ListNotations.
Local Open Scope R_scope.

Definition pt := nat -> R.
Definition shift (x : pt) (i : nat) (h : R) : pt := fun j => if Nat.eqb j i then x j + h else x j.
(** f has at x the partial derivative d in direction i *)
Definition partial (i : nat) (f : pt -> R) (x : pt) (d : R) : Prop := derivable_pt_lim (fun h => f (shift x i h)) 0 d.

(** What is assumed of sympy: expressions have values ([ev]) at points; [dom] is the set of points where the
    assumptions of the coordinates hold (r > 0, for example); [good a x] says that x is in that set and the
    expression and its derivatives are defined in a neighbourhood of x (no division by zero); simplify and refine
    do not change values there; an expression that equals 0 is zero. *)
Record SymLaws (S : Sym) := mkLaws {
  ev : S -> pt -> R;
  good : S -> pt -> Prop;
  dom : pt -> Prop;
  ev_int : forall z x, ev (s_int z) x = IZR z;
  ev_add : forall a b x, ev (s_add a b) x = ev a x + ev b x;
  ev_mul : forall a b x, ev (s_mul a b) x = ev a x * ev b x;
  ev_opp : forall a x, ev (s_opp a) x = - ev a x;
  ev_inv : forall a x, ev (s_inv a) x = / ev a x;
  good_dom : forall a x, good a x -> dom x;
  good_int : forall z x, dom x -> good (s_int z) x;
  good_add : forall a b x, good a x -> good b x -> good (s_add a b) x;
  good_mul : forall a b x, good a x -> good b x -> good (s_mul a b) x;
  good_opp : forall a x, good a x -> good (s_opp a) x;
  good_inv : forall a x, good a x -> ev a x <> 0 -> good (s_inv a) x;
  good_diff : forall i a x, good a x -> good (s_diff i a) x;
  good_simplify : forall a x, good a x -> good (s_simplify a) x;
  good_refine : forall a x, good a x -> good (s_refine a) x;
  good_open : forall a x i, good a x -> exists d, 0 < d /\ forall h, Rabs h < d -> good a (shift x i h);
  ev_diff : forall i a x, good a x -> partial i (ev a) x (ev (s_diff i a) x);
  ev_diff_swap : forall i j a x, good a x -> ev (s_diff i (s_diff j a)) x = ev (s_diff j (s_diff i a)) x;
  ev_simplify : forall a x, good a x -> ev (s_simplify a) x = ev a x;
  ev_refine : forall a x, good a x -> ev (s_refine a) x = ev a x;
  ev_is0 : forall a x, s_is0 a = true -> ev a x = 0
}.
Arguments ev {_}. Arguments good {_}. Arguments dom {_}.

(** A smooth basis function with its partial derivatives: [U k l] is component k, differentiated
    nth i l 0 times in direction i *)
Definition one_more (i : nat) (l l' : list nat) : Prop :=
  length l' = length l /\ forall j, nth j l' 0%nat = (nth j l 0%nat + if Nat.eqb j i then 1 else 0)%nat.
Definition smooth (dim : nat) (U : nat -> list nat -> pt -> R) (x : pt) : Prop :=
  forall k l l' i, length l = dim -> (i < dim)%nat -> one_more i l l' ->
    partial i (U k l) x (U k l' x).

Section Meaning.
  Context {S : Sym} (L : SymLaws S).
  Definition mean_comp (c : list (term S)) (U : nat -> list nat -> pt -> R) (x : pt) : R :=
    fold_right (fun t acc => ev L (t_sc t) x * U (t_ind t) (t_der t) x + acc) 0 c.
  (** component i of the expression *)
  Definition mean (e : expr S) (i : nat) (U : nat -> list nat -> pt -> R) (x : pt) : R :=
    mean_comp (nth i (e_comps e) []) U x.
  (** every term has dim derivative counters; x is in the domain and every scale is defined near x *)
  Definition wf (e : expr S) : Prop := forall c, In c (e_comps e) -> forall t, In t c -> length (t_der t) = e_dim e.
  Definition defined (e : expr S) (x : pt) : Prop :=
    dom L x /\ forall c, In c (e_comps e) -> forall t, In t c -> good L (t_sc t) x.
End Meaning.

Fixpoint rsum (n : nat) (f : nat -> R) : R := match n with O => 0 | Datatypes.S n => rsum n f + f n end.
