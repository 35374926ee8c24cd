(** ProjSpec.v -- what a projection is. *)
From Coq Require Import Reals List Arith.
From Verif Require Import Base RPoly MatrixSpec BndModel BndSpec ProjModel.
Import ListNotations.
Local Open Scope R_scope.

Definition polys (f : family) : nat -> poly := match f with Chebyshev => chebT | Legendre => legL | ChebyshevU => chebU end.
(** the affine map from the domain to [-1, 1] and back *)
Definition to_ref (d : R * R) (x : R) : R := -1 + 2 * (x - fst d) / (snd d - fst d).
Definition to_true (d : R * R) (X : R) : R := fst d + (X + 1) * (snd d - fst d) / 2.
(** the function of the space s with coefficients u, on the domain of s (boundary functions included) *)
Definition function (s : space) (u : nat -> R) (x : R) : R :=
  peval (expansion (polys (s_family s)) (s_base s) u) (to_ref (s_domain s) x).
Definition basis (s : space) (k : nat) (x : R) : R :=
  peval (phi (polys (s_family s)) (s_base s) k) (to_ref (s_domain s) x).
(** the weighted integral of a function over [-1, 1], with the weight of the family: 1/sqrt(1-x^2), 1 and sqrt(1-x^2)
    (x = cos t for the Chebyshev families) *)
Definition weighted (f : family) (h : R -> R) (v : R) : Prop :=
  match f with
  | Legendre => integral h (-1) 1 v
  | Chebyshev => integral (fun t => h (cos t)) 0 PI v
  | ChebyshevU => integral (fun t => h (cos t) * (sin t) ^ 2) 0 PI v
  end.
(** (f, g)_w over the domain of s, up to the constant factor of the affine map *)
Definition inner_w (s : space) (f g : R -> R) (v : R) : Prop :=
  weighted (s_family s) (fun X => f (to_true (s_domain s) X) * g (to_true (s_domain s) X)) v.
(** c in T is the projection of u in W: (c - u, v)_w = 0 for every basis function v of T *)
Definition is_projection (W T : space) (u c : nat -> R) : Prop :=
  forall i, (i < sdim T)%nat -> inner_w T (fun x => function T c x - function W u x) (basis T i) 0.
(** the coefficients belong to a function of s: without inhomogeneous boundary conditions the boundary coefficients are zero *)
Definition member (s : space) (u : nat -> R) : Prop :=
  s_nh s = false -> forall i, (i < cnb (s_base s))%nat -> u (sdim s + i)%nat = 0.
Definition good_space (s : space) : Prop := fst (s_domain s) < snd (s_domain s) /\ wf_base (s_base s).
(** the same kind of space: the same family, domain and boundary functions, and the basis functions of the smaller space are
    the first basis functions of the larger one *)
Definition same_kind (W T : space) : Prop :=
  s_family W = s_family T /\ s_domain W = s_domain T /\ cnb (s_base W) = cnb (s_base T) /\
  (forall k X, (k < sdim W)%nat -> (k < sdim T)%nat ->
     peval (phi (polys (s_family W)) (s_base W) k) X = peval (phi (polys (s_family T)) (s_base T) k) X) /\
  (forall i X, (i < cnb (s_base W))%nat ->
     peval (bfun (polys (s_family W)) (s_base W) i) X = peval (bfun (polys (s_family T)) (s_base T) i) X).
(** the linear system of the Galerkin projection is assembled and solved correctly (C36, C44, C38): rhs holds the inner products
    of the two bases, and solve returns a solution with the mass matrix of T *)
Definition right_system (G : system) (W T : space) : Prop :=
  (forall i j, (i < sdim T)%nat -> (j < sdim W)%nat -> inner_w T (basis W j) (basis T i) (g_rhs G i j)) /\
  exists A, (forall i k, (i < sdim T)%nat -> (k < sdim T)%nat -> inner_w T (basis T k) (basis T i) (A i k)) /\
            (forall r i, (i < sdim T)%nat -> rsum (sdim T) (fun k => A i k * g_solve G r k) = r i).
