(** CoordModel.v -- coordinates.py: class Coordinates.

    The caches (self._b, self._g, ...) are not modelled: a getter always returns the same value.  Of sympy the
    class uses, besides what is in FormsModel.Sym, the square root and the test == 1 (Matrix.is_Identity). *)
From Coq Require Import Arith ZArith List Bool.
From Verif Require Import FormsModel.
Import ListNotations.

Record SymS := mkSymS {
  base :> Sym;
  s_sqrt : base -> base;            (* sp.sqrt(a) *)
  s_is1 : base -> bool              (* a == 1 *)
}.
Arguments s_sqrt {_}. Arguments s_is1 {_}.

Section Coord.
Context {S : SymS}.
(** sums as by np.dot and np.sum; the leading 0 is ours *)
Fixpoint ssum (k : nat) (f : nat -> S) : S := match k with O => s_int 0 | Datatypes.S k => s_add (ssum k f) (f k) end.
(** sp.Matrix(M).det() and .inv(): the expansion along the first row, and the adjugate over the determinant *)
Definition skipi (j k : nat) : nat := if k <? j then k else k + 1.
Definition sign (k : nat) : S := s_int (if Nat.even k then 1 else -1).
Fixpoint det (k : nat) (M : nat -> nat -> S) : S :=
  match k with
  | O => s_int 1
  | Datatypes.S k => ssum (k + 1) (fun j => s_mul (s_mul (sign j) (M 0 j)) (det k (fun p q => M (p + 1) (skipi j q))))
  end.
Definition inv (k : nat) (M : nat -> nat -> S) (i j : nat) : S :=
  s_mul (s_mul (sign (i + j)) (det (k - 1) (fun p q => M (skipi j p) (skipi i q)))) (s_inv (det k M)).

(** len(psi), len(rv) and the position vector *)
Variables (n m : nat) (rv : nat -> S).

(** coordinates.py 156-175 get_covariant_basis *)
Definition cov_basis (i a : nat) : S := s_refine (s_simplify (s_diff i (rv a))).
(** 205-218 get_covariant_metric_tensor (without .expand()) *)
Definition cov_metric (i j : nat) : S := s_refine (s_simplify (ssum m (fun a => s_mul (cov_basis i a) (cov_basis j a)))).
(** 220-231 get_contravariant_metric_tensor *)
Definition contra_metric (i j : nat) : S := s_simplify (inv n cov_metric i j).
(** 76-90 get_det_g(True) (without .factor()) *)
Definition det_g : S := s_simplify (s_refine (det n cov_metric)).
(** 92-109 get_sqrt_det_g(True) (a number becomes a float) *)
Definition sqrt_det_g : S := s_refine (s_simplify (s_sqrt det_g)).
(** 115-126 get_scaling_factors *)
Definition scaling (i : nat) : S := s_refine (s_sqrt (s_refine (s_simplify (ssum m (fun a => s_mul (cov_basis i a) (cov_basis i a)))))).
(** 128-138 get_normal_basis *)
Definition normal_basis (i a : nat) : S :=
  s_mul (cov_basis i a) (s_inv (s_refine (s_sqrt (s_simplify (ssum m (fun c => s_mul (cov_basis i c) (cov_basis i c))))))).
(** 177-191 get_contravariant_basis; the simplification loop (188-190) runs over len(psi) columns *)
Definition contra_basis (i a : nat) : S :=
  let v := ssum n (fun j => s_mul (contra_metric i j) (cov_basis j a)) in if a <? n then s_simplify v else v.
(** 193-203 get_normal_metric_tensor *)
Definition normal_metric (i j : nat) : S := s_refine (s_simplify (ssum m (fun a => s_mul (normal_basis i a) (normal_basis j a)))).
(** 233-244 get_christoffel_second, ct[k, i, j] *)
Definition christoffel (k i j : nat) : S := s_simplify (ssum m (fun a => s_mul (s_diff j (cov_basis i a)) (contra_basis k a))).
(** 66-68 is_orthogonal: Matrix.is_diagonal() *)
Definition offdiag : bool :=
  forallb (fun i => forallb (fun j => (i =? j) || s_is0 (cov_metric i j)) (seq 0 n)) (seq 0 n).
Definition is_orthogonal : bool := offdiag.
(** 70-74 is_cartesian: Matrix.is_Identity *)
Definition is_cartesian : bool :=
  if negb (n =? m) then false else offdiag && forallb (fun i => s_is1 (cov_metric i i)) (seq 0 n).

(** what the operators of forms/operators.py ask of the coordinates; config['basisvectors'] is 'normal' or 'covariant' *)
Definition coords_of (normal : bool) : coords S :=
  mkCoords is_cartesian is_orthogonal normal scaling sqrt_det_g cov_metric contra_metric christoffel.
End Coord.
