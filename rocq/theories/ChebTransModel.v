(** ChebTransModel.v -- the transforms of the Chebyshev family.

    FFTW's real transforms (REDFT10, REDFT01, REDFT00) are modelled by their defining sums; that the
    plan leaves its input intact is assumed.  Exact real arithmetic, one axis; for complex data the
    code transforms the real and the imaginary part (DCTWrap, chebyshev/bases.py 101-116). *)
From Coq Require Import Reals ZArith List Arith.
From Verif Require Import Base Fld SparseModel RPoly StencilModel StencilModel2 LegMatrixModel ChebMatrixModel ChebQuadModel.
Import ListNotations.
Local Open Scope R_scope.

Notation rsum := (gsum 0 Rplus).
(** FFTW's REDFT10 (type 2), REDFT01 (type 3), REDFT00 (type 1) of length n *)
Definition dct2 (n : nat) (X : nat -> R) (k : nat) : R := 2 * rsum n (fun j => X j * cos (PI * (INR j + 1 / 2) * INR k / INR n)).
Definition dct3 (n : nat) (X : nat -> R) (k : nat) : R :=
  X 0%nat + 2 * rsum (n - 1) (fun i => X (S i) * cos (PI * INR (S i) * (INR k + 1 / 2) / INR n)).
Definition dct1 (n : nat) (X : nat -> R) (k : nat) : R :=
  X 0%nat + (-1) ^ k * X (n - 1)%nat + 2 * rsum (n - 2) (fun i => X (S i) * cos (PI * INR (S i) * INR k / INR (n - 1))).

(** chebyshev/bases.py 175-184: the forward plan is type 2 (GC) or 1 (GL), the backward plan 3 or 1 *)
Definition xfftn_fwd (q : quad) : nat -> (nat -> R) -> nat -> R := match q with LG => dct2 | GL => dct1 end.
Definition xfftn_bck (q : quad) : nat -> (nat -> R) -> nat -> R := match q with LG => dct3 | GL => dct1 end.

(** 313-335 _evaluate_expansion_all(kind='fast'): n is the (padded) length *)
Definition evaluate_expansion_fast (q : quad) (n : nat) (c : nat -> R) (i : nat) : R :=
  let out := xfftn_bck q n c i in
  match q with
  | LG => out * (1 / 2) + c 0%nat / 2
  | GL => let o1 := out * (1 / 2) + c 0%nat / 2 in
          if Nat.even i then o1 + c (n - 1)%nat / 2 else o1 - c (n - 1)%nat / 2
  end.
(** 337-353 _evaluate_scalar_product(kind='fast'); self.N * self.padding_factor is the padded length n
    (spectralbase.py 51-53), df the domain factor *)
Definition scalar_product_fast (q : quad) (n : nat) (df : R) (u : nat -> R) (k : nat) : R :=
  let out := xfftn_fwd q n u k in
  match q with
  | LG => out * (PI / (2 * df * INR n))
  | GL => out * (PI / (2 * df * (INR n - 1)))
  end.
(** spectralbase.py 1363-1381 _truncation_forward and _padding_backward of a space with N modes *)
Definition truncate (N : nat) (a : nat -> R) : nat -> R := fun k => if Nat.ltb k N then a k else 0.
(** chebyshev/matrices.py 140-169 BTTmat.solve, reached from apply_inverse_mass (spectralbase.py 560-576) *)
Definition btt_solve (q : quad) (N : nat) (df : R) (b : nat -> R) (k : nat) : R :=
  let u0 := b k * (2 / PI * df) in
  let u1 := if Nat.eqb k 0 then u0 / 2 else u0 in
  match q with GL => if Nat.eqb k (N - 1) then u1 / 2 else u1 | LG => u1 end.
(** spectralbase.py 265-312 backward and 235-263 forward: N modes, n points (n = N without padding) *)
Definition cheb_backward (q : quad) (N n : nat) (c : nat -> R) : nat -> R := evaluate_expansion_fast q n (truncate N c).
Definition cheb_scalar_product (q : quad) (N n : nat) (df : R) (u : nat -> R) : nat -> R := truncate N (scalar_product_fast q n df u).
Definition cheb_forward (q : quad) (N n : nat) (df : R) (u : nat -> R) : nat -> R := btt_solve q N df (cheb_scalar_product q N n df u).

(** ** composite spaces (spectralbase.py 1448-1474), homogeneous boundary conditions, kind='fast' *)
(** 1448-1459 with _padding_backward: the dim modes are padded, to_ortho uses the stencil of size N *)
Definition comp_dim (cls : stencil_class) (N : nat) : nat := (N - List.length (sc_bcs cls))%nat.
Definition comp_backward (q : quad) (cls : stencil_class) (N n : nat) (c : nat -> R) : nat -> R :=
  evaluate_expansion_fast q n (to_ortho (stencil_matrix cls N) (comp_dim cls N) (truncate (comp_dim cls N) c)).
(** 1461-1474 with _truncation_forward: the stencil of the padded size multiplies the scalar product with
    the orthogonal basis; without padding the array is returned as it is *)
Definition comp_scalar_product (q : quad) (cls : stencil_class) (N n : nat) (df : R) (u : nat -> R) : option (nat -> R) :=
  match matvec RFld (stencil_matrix cls n) n n (scalar_product_fast q n df u) with
  | Some out => Some (if Nat.eqb n N then out else truncate (comp_dim cls N) out)
  | None => None
  end.
(** chebyshev/matrices.py 119-138 BTTmat(test, trial, scale=s), 'self' matvec: the diagonal is get_norm_sq(method) times
    the scale s / df (matrixbase.py 692-697); [h] the array of norms *)
Definition btt_matvec (h : nat -> R) (s df : R) (v : nat -> R) (k : nat) : R := h k * (s / df) * v k.
