(** CoordSpec.v -- the calculus that grad, div and curl in curvilinear coordinates must agree with.
    A point z of the computational domain is mapped to the point X(z) of R^m, X_a(z) = the value of rv[a]. *)
From Coq Require Import Reals ZArith List Bool Arith.
From Verif Require Import FormsModel FormsSpec CoordModel.
Import ListNotations.
Local Open Scope R_scope.

(** what is assumed of sympy's sqrt and == 1, besides FormsSpec.SymLaws *)
Record SymSLaws (S : SymS) := mkSLaws {
  laws :> SymLaws S;
  ev_sqrt : forall a x, ev laws (s_sqrt a) x = sqrt (ev laws a x);
  good_sqrt : forall a x, good laws a x -> 0 < ev laws a x -> good laws (s_sqrt a) x;
  ev_is1 : forall a x, s_is1 a = true -> ev laws a x = 1
}.
Arguments laws {_}.

(** F has at p the gradient G: F(q) = F(p) + G.(q - p) + o(|q - p|) *)
Definition frechet (m : nat) (F : (nat -> R) -> R) (p : nat -> R) (G : nat -> R) : Prop :=
  forall eps, 0 < eps -> exists d, 0 < d /\ forall q, (forall a, (a < m)%nat -> Rabs (q a - p a) < d) ->
    Rabs (F q - F p - rsum m (fun a => G a * (q a - p a))) <= eps * rsum m (fun a => Rabs (q a - p a)).

(** the determinant of the k x k matrix M *)
Definition rsign (k : nat) : R := if Nat.even k then 1 else -1.
Fixpoint rdet (k : nat) (M : nat -> nat -> R) : R :=
  match k with
  | O => 1
  | Datatypes.S k => rsum (k + 1) (fun j => rsign j * M 0%nat j * rdet k (fun p q => M (p + 1)%nat (skipi j q)))
  end.

Definition dot (m : nat) (u v : nat -> R) : R := rsum m (fun a => u a * v a).

(** curl, given DF a c = the derivative of component a in direction c *)
Definition curl_of (DF : nat -> nat -> R) (a : nat) : R :=
  match a with 0%nat => DF 2%nat 1%nat - DF 1%nat 2%nat | 1%nat => DF 0%nat 2%nat - DF 2%nat 0%nat | _ => DF 1%nat 0%nat - DF 0%nat 1%nat end.
Definition cross (u v : nat -> R) (a : nat) : R :=
  match a with 0%nat => u 1%nat * v 2%nat - u 2%nat * v 1%nat | 1%nat => u 2%nat * v 0%nat - u 0%nat * v 2%nat | _ => u 0%nat * v 1%nat - u 1%nat * v 0%nat end.

Section Geometry.
  Context {S : SymS} (L : SymSLaws S) (n m : nat) (rv : nat -> S).
  (** the position *)
  Definition pos (z : pt) (a : nat) : R := ev L (rv a) z.
  (** the tangent vectors: the derivative of the position in direction i (FormsSpec.ev_diff) *)
  Definition tangent (z : pt) (i a : nat) : R := ev L (s_diff i (rv a)) z.
  Definition gram (z : pt) (i j : nat) : R := dot m (tangent z i) (tangent z j).
  (** the position is smooth near z and the tangent vectors are linearly independent (positive Gram determinant) *)
  Definition regular (z : pt) : Prop := (forall a, (a < m)%nat -> good L (rv a) z) /\ dom L z /\ 0 < rdet n (gram z).
  (** the basis vectors that components of vectors refer to: config['basisvectors'] is 'normal' or 'covariant' *)
  Definition bvec (normal : bool) (z : pt) (i a : nat) : R :=
    if normal then tangent z i a / sqrt (dot m (tangent z i) (tangent z i)) else tangent z i a.
  (** the vector and the tensor that an expression with n and n*n components denotes *)
  Definition vec (normal : bool) (e : expr S) U (z : pt) (a : nat) : R :=
    rsum n (fun i => mean L e i U z * bvec normal z i a).
  Definition ten (normal : bool) (e : expr S) U (z : pt) (a c : nat) : R :=
    rsum n (fun i => rsum n (fun j => mean L e (i * n + j) U z * bvec normal z i a * bvec normal z j c)).
  (** P is the orthogonal projection on the space of the tangent vectors *)
  Definition projection (P : nat -> nat -> R) (z : pt) : Prop :=
    (forall k a, (k < n)%nat -> (a < m)%nat -> rsum m (fun c => P a c * tangent z k c) = tangent z k a) /\
    (forall u, (forall k, (k < n)%nat -> dot m u (tangent z k) = 0) -> forall a, (a < m)%nat -> rsum m (fun c => P a c * u c) = 0).
  (** F, as a function of the position, is f near y *)
  Definition pulls (F : (nat -> R) -> R) (f : pt -> R) (y : pt) : Prop :=
    forall i, (i < n)%nat -> exists d, 0 < d /\ forall h, Rabs h < d -> f (shift y i h) = F (pos (shift y i h)).
End Geometry.
