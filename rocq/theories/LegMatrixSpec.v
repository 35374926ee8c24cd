(** LegMatrixSpec.v -- specification: the basis functions of the Legendre spaces, and the inner
    product an entry of the dictionary promises. *)
From Coq Require Import Reals List Arith ZArith String.
From Verif Require Import Base Fld SparseModel SparseSpec RPoly StencilModel StencilSpec MatrixSpec LegMatrixModel.
Import ListNotations.
Local Open Scope R_scope.

Definition space_class (sc : bool) (s : lspace) : stencil_class :=
  match s with
  | SpL => mkClass ""%string [] []
  | SpSD => if sc then legendre_ShenDirichlet_scaled else legendre_ShenDirichlet
  | SpSB => legendre_ShenBiharmonic
  | SpSN => legendre_ShenNeumann
  | SpUD => legendre_UpperDirichlet
  | SpLD => legendre_LowerDirichlet
  | SpDN => legendre_DirichletNeumann
  | SpBF => legendre_BeamFixedFree
  end.
(** basis function k of the space of size N: a Legendre polynomial, or row k of the stencil *)
Definition space_basis (sc : bool) (s : lspace) (N k : nat) : poly :=
  match s with SpL => legL k | _ => basis_function legL (stencil_matrix (space_class sc s) N) k end.
Definition space_dim (sc : bool) (s : lspace) (N : nat) : nat := (N - List.length (sc_bcs (space_class sc s)))%nat.
Definition weight_fun (w : weight) (x : R) : R := match w with W1 => 1 | W1x => 1 + x | W1x2 => (1 + x) ^ 2 end.

(** the matrix holds the integrals of w (D^a test_k) (D^b trial_j) *)
Definition entry_ok (sc : bool) (N : nat) (e : lentry) : Prop :=
  holds (space_dim sc (le_test e) N) (space_dim sc (le_trial e) N) (le_mat e)
    (fun k j r => leg_inner (weight_fun (le_weight e))
       (deriv_at (le_testd e) (space_basis sc (le_test e) N k))
       (deriv_at (le_triald e) (space_basis sc (le_trial e) N j)) r).

(** the same with a quadrature rule (points and weights) instead of the integral *)
Definition quad_sum (rule : list (R * R)) (f : R -> R) : R := fold_right (fun xw acc => snd xw * f (fst xw) + acc) 0 rule.
Definition entry_quad_ok (rule : list (R * R)) (sc : bool) (N : nat) (e : lentry) : Prop :=
  holds (space_dim sc (le_test e) N) (space_dim sc (le_trial e) N) (le_mat e)
    (fun k j r => quad_sum rule (fun x => weight_fun (le_weight e) x
       * deriv_at (le_testd e) (space_basis sc (le_test e) N k) x
       * deriv_at (le_triald e) (space_basis sc (le_trial e) N j) x) = r).
(** the Legendre polynomials are orthogonal under the rule, with squared norms h *)
Definition rule_orthogonal (rule : list (R * R)) (h : nat -> R) (N : nat) : Prop :=
  forall n m, (n < N)%nat -> (m < N)%nat ->
    quad_sum rule (fun x => peval (legL n) x * peval (legL m) x) = if Nat.eqb n m then h n else 0.
