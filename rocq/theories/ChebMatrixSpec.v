(** ChebMatrixSpec.v -- specification: the basis functions of the Chebyshev spaces, and the inner
    product an entry of the dictionary promises. *)
From Coq Require Import Reals List Arith ZArith String.
From Verif Require Import Base Fld SparseModel SparseSpec RPoly StencilModel StencilModel2 StencilSpec MatrixSpec LegMatrixSpec ChebMatrixModel.
Import ListNotations.
Local Open Scope R_scope.

(** the stencil matrix of a composite space *)
Definition cspace_matrix (sc : bool) (s : cspace) (N : nat) : smat RFld :=
  match s with
  | CT => mkSmat RFld N N 1 [(0%Z, Scal RFld 1)]
  | CSD => stencil_matrix chebyshev_ShenDirichlet N
  | CHH => heinrichs_matrix sc N
  | CSB => stencil_matrix chebyshev_ShenBiharmonic N
  | CSN => stencil_matrix chebyshev_ShenNeumann N
  | CCN => combined_shen_neumann_matrix N
  | CMN => mik_neumann_matrix N
  | CLD => stencil_matrix chebyshev_LowerDirichlet N
  end.
(** basis function k: a Chebyshev polynomial, or row k of the stencil matrix *)
Definition cspace_basis (sc : bool) (s : cspace) (N k : nat) : poly :=
  match s with CT => chebT k | _ => basis_function chebT (cspace_matrix sc s N) k end.
Definition cspace_dim (s : cspace) (N : nat) : nat :=
  match s with CT => N | CSB => N - 4 | CLD => N - 1 | _ => N - 2 end%nat.

(** the matrix holds the products (D^b trial_j, test_k) with weight 1/sqrt(1-x^2) *)
Definition centry_ok (sc : bool) (N : nat) (e : centry) : Prop :=
  holds (cspace_dim (ce_test e) N) (cspace_dim (ce_trial e) N) (ce_mat e)
    (fun k j r => cheb_inner (deriv_at 0 (cspace_basis sc (ce_test e) N k))
                             (deriv_at (ce_triald e) (cspace_basis sc (ce_trial e) N j)) r).
(** the same with a quadrature rule (points, weights that contain 1/sqrt(1-x^2)) *)
Definition centry_quad_ok (rule : list (R * R)) (sc : bool) (N : nat) (e : centry) : Prop :=
  holds (cspace_dim (ce_test e) N) (cspace_dim (ce_trial e) N) (ce_mat e)
    (fun k j r => quad_sum rule (fun x => deriv_at 0 (cspace_basis sc (ce_test e) N k) x
                             * deriv_at (ce_triald e) (cspace_basis sc (ce_trial e) N j) x) = r).
Definition crule_orthogonal (rule : list (R * R)) (h : nat -> R) (N : nat) : Prop :=
  forall n m, (n < N)%nat -> (m < N)%nat ->
    quad_sum rule (fun x => peval (chebT n) x * peval (chebT m) x) = if Nat.eqb n m then h n else 0.
