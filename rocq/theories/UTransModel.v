(** UTransModel.v -- the transforms of the Chebyshev family of the second kind (shenfun/chebyshevu/bases.py).

    FFTW's real odd transforms (RODFT00, RODFT10, RODFT01) are modelled by their defining sums; that the plan leaves its input
    intact is assumed.  Exact real arithmetic, one axis; for complex data the code transforms real and imaginary part
    (DCTWrap, chebyshevu/bases.py 328-340). *)
From Coq Require Import Reals ZArith List Arith Bool.
From Verif Require Import Base Fld SparseModel RPoly StencilModel StencilModel2 ChebTransModel.
Import ListNotations.
Local Open Scope R_scope.

(** FFTW's RODFT00 (type 1), RODFT10 (type 2), RODFT01 (type 3) of length n *)
Definition dst1 (n : nat) (X : nat -> R) (k : nat) : R := 2 * rsum n (fun j => X j * sin (PI * (INR j + 1) * (INR k + 1) / (INR n + 1))).
Definition dst2 (n : nat) (X : nat -> R) (k : nat) : R := 2 * rsum n (fun j => X j * sin (PI * (INR j + 1 / 2) * (INR k + 1) / INR n)).
Definition dst3 (n : nat) (X : nat -> R) (k : nat) : R :=
  (-1) ^ k * X (n - 1)%nat + 2 * rsum (n - 1) (fun j => X j * sin (PI * (INR j + 1) * (INR k + 1 / 2) / INR n)).

Inductive uquad := GU | GC.
(** 115-130 points_and_weights(N, weighted=True): numpy's chebgauss(N) has the points cos(pi (2 i + 1) / (2 N)) and weights pi/N *)
Definition u_point (q : uquad) (N i : nat) : R :=
  match q with
  | GU => cos ((INR i + 1) * PI / (INR N + 1))
  | GC => cos (PI * INR (2 * i + 1) / (2 * INR N))
  end.
Definition u_weight (q : uquad) (N i : nat) : R :=
  let x := u_point q N i in
  match q with
  | GU => PI / (INR N + 1) * (1 - x * x)
  | GC => PI / INR N * (1 - x * x)
  end.
(** 98-108: the forward plan is type 2 (GC) or 1 (GU), the backward plan 3 or 1 *)
Definition u_fwd (q : uquad) : nat -> (nat -> R) -> nat -> R := match q with GC => dst2 | GU => dst1 end.
Definition u_bck (q : uquad) : nat -> (nat -> R) -> nat -> R := match q with GC => dst3 | GU => dst1 end.
(** numpy's in-place product of an array of length n with one of length N: ValueError (None) unless the lengths agree or N = 1 *)
Definition times (n N : nat) (a b : nat -> R) : option (nat -> R) :=
  if (N =? n)%nat then Some (fun i => a i * b i) else if (N =? 1)%nat then Some (fun i => a i * b 0%nat) else None.
(** 98-100 _sinGC and 232: the factors sin(theta) have the length N of the space without padding *)
Definition sines (q : uquad) (N i : nat) : R :=
  match q with GU => sin (PI / (INR N + 1) * (INR i + 1)) | GC => sin ((INR i + 1 / 2) * PI / INR N) end.
(** 226-240 _evaluate_scalar_product(kind='fast'): N modes, arrays of (padded) length n, padding factor n/N, df the domain factor *)
Definition u_scalar_product_fast (q : uquad) (N n : nat) (df : R) (u : nat -> R) : option (nat -> R) :=
  match times n N u (sines q N) with
  | None => None
  | Some a => Some (fun k =>
    let out := u_fwd q n a k in
    match q with
    | GU => out * (PI / (2 * (INR N + 1) * (INR n / INR N) * df))
    | GC => out * (PI / (2 * INR N * (INR n / INR N) * df))
    end)
  end.
(** 242-264 _evaluate_expansion_all(kind='fast') *)
Definition u_expansion_fast (q : uquad) (N n : nat) (c : nat -> R) : option (nat -> R) :=
  let out := u_bck q n c in
  match q with
  | GU => times n N out (fun i => 1 / (2 * sines GU N i))
  | GC =>
    let a := fun i => out i * (1 / 2) in
    let b := fun i => if (i <? N)%nat then (if Nat.even i then a i + c (N - 1)%nat / 2 else a i - c (N - 1)%nat / 2) else a i in
    times n N b (fun i => 1 / sines GC N i)
  end.
(** spectralbase.py 1363-1381 _truncation_forward and _padding_backward *)
Definition utrunc (N : nat) (a : nat -> R) : nat -> R := fun k => if Nat.ltb k N then a k else 0.
(** 183-192 l2_norm_sq and 180-181 L2_norm_sq; get_norm_sq (spectralbase.py 2344-2381) takes the former for quadrature *)
Definition u_l2_norm_sq (q : uquad) (N k : nat) : R :=
  match q with GC => if (k =? N - 1)%nat then PI / 2 * 2 else PI / 2 | GU => PI / 2 end.
Definition u_L2_norm_sq : R := PI / 2.
(** chebyshevu/matrices.py 83-87 BUUmat and matrixbase.py 692-697: the diagonal of the mass matrix *)
Definition buu (q : uquad) (N : nat) (df : R) (quadrature : bool) (k : nat) : R := (if quadrature then u_l2_norm_sq q N k else u_L2_norm_sq) / df.
(** spectralbase.py 265-312 backward, 235-263 forward (560-576 apply_inverse_mass divides by the diagonal) *)
Definition u_backward (q : uquad) (N n : nat) (c : nat -> R) : option (nat -> R) := u_expansion_fast q N n (utrunc N c).
Definition u_scalar_product (q : uquad) (N n : nat) (df : R) (u : nat -> R) : option (nat -> R) :=
  option_map (utrunc N) (u_scalar_product_fast q N n df u).
Definition u_forward (q : uquad) (N n : nat) (df : R) (u : nat -> R) : option (nat -> R) :=
  option_map (fun b k => b k / buu q N df true k) (u_scalar_product q N n df u).

(** ** composite spaces (spectralbase.py 1448-1474), homogeneous boundary conditions, kind='fast'; the stencil of the padded size *)
Definition u_comp_backward (q : uquad) (cls : stencil_class) (N n : nat) (c : nat -> R) : option (nat -> R) :=
  u_expansion_fast q N n (to_ortho (stencil_matrix cls N) (comp_dim cls N) (utrunc (comp_dim cls N) c)).
Definition u_comp_scalar_product (q : uquad) (cls : stencil_class) (N n : nat) (df : R) (u : nat -> R) : option (nat -> R) :=
  match u_scalar_product_fast q N n df u with
  | None => None
  | Some w => match matvec RFld (stencil_matrix cls n) n n w with
              | Some out => Some (if Nat.eqb n N then out else utrunc (comp_dim cls N) out)
              | None => None
              end
  end.
