(** ProjModel.v -- project(uh, T) for a Function uh of a one-dimensional space (forms/project.py).

    Coefficient arrays are functions of the index.  The polynomial families are Chebyshev of the first and second kind and
    Legendre.  Not modelled: sympy functions and Arrays as uh (the forward transform), tensor product spaces, MPI. *)
From Coq Require Import Reals ZArith List Bool Arith String.
From Verif Require Import Base Fld SparseModel SparseSpec RPoly StencilModel StencilModel2 BndModel.
Import ListNotations.
Local Open Scope R_scope.

Inductive family := Chebyshev | Legendre | ChebyshevU.
Inductive quad := QGC | QGL | QLG | QGU.
(** one-dimensional function space: what SpectralBase.__eq__ and __hash__ look at, and what they do not look at *)
Record space := mkSpace {
  s_class : string;              (* __class__.__name__ *)
  s_family : family;             (* family() *)
  s_quad : quad;                 (* quad *)
  s_orth : bool;                 (* is_orthogonal *)
  s_nh : bool;                   (* has_nonhomogeneous_bcs *)
  s_domain : R * R;              (* domain *)
  s_base : cbase                 (* N, boundary conditions, stencil matrix *)
}.
Definition sN (s : space) : nat := cN (s_base s).
Definition sdim (s : space) : nat := cdim (s_base s).

Definition family_eqb (a b : family) : bool :=
  match a, b with Chebyshev, Chebyshev | Legendre, Legendre | ChebyshevU, ChebyshevU => true | _, _ => false end.
Definition quad_eqb (a b : quad) : bool :=
  match a, b with QGC, QGC | QGL, QGL | QLG, QLG | QGU, QGU => true | _, _ => false end.
(** spectralbase.py 921-925 __eq__ (one-dimensional spaces have axis 0) *)
Definition spaces_equal (W T : space) : bool :=
  String.eqb (s_class W) (s_class T) && quad_eqb (s_quad W) (s_quad T) && Nat.eqb (sN W) (sN T).
(** spectralbase.py 1024-1035 compatible_base: hash((N, quad, family())) (hashes of different tuples are taken to differ) *)
Definition compatible_base (W T : space) : bool :=
  Nat.eqb (sN W) (sN T) && quad_eqb (s_quad W) (s_quad T) && family_eqb (s_family W) (s_family T).

(** arguments.py 1693-1711 Function.assign in one dimension, to a Function of a space with arrays of length n; with
    spectralbase.py 1363-1367 _truncation_forward (trunc_array[0:dim] = padded_array[0:dim], where NumPy raises when
    the lengths min(dim, n) and dim differ) and 1369-1390 _padding_backward *)
Definition assign (W : space) (n : nat) (u : nat -> R) : option (nat -> R) :=
  if (sN W <? n)%nat then Some (padding (s_base W) n u)
  else if (sN W =? n)%nat then Some u
  else if (sdim W <=? n)%nat then Some (fun k => if (k <? sdim W)%nat then u k else 0) else None.
(** arguments.py 1657-1687 Function.to_ortho in one dimension into an array of length n, with spectralbase.py 1616-1634.  Each step
    output_array[s1] += val*input_array[s0] raises when the array is too short (a slice of length one broadcasts).  The first
    component is false when a step raises; the array is then left as it was before that step. *)
Definition step_fits (N dim n : nat) (kv : Z * dval RFld) : bool :=
  let key := fst kv in
  let M := if (0 <=? key)%Z then Z.of_nat N else Z.of_nat dim in
  let Q := (Z.min (Z.of_nat dim) (M - Z.max 0 key) - Z.max 0 (- key))%Z in
  ((Z.max 0 key + Q <=? Z.of_nat n) || (Q <=? 1))%Z.
Fixpoint to_ortho_try (N dim n : nat) (u : nat -> R) (items : list (Z * dval RFld)) (out : nat -> R) : bool * (nat -> R) :=
  match items with
  | [] => (true, out)
  | kv :: rest => if step_fits N dim n kv then to_ortho_try N dim n u rest (to_ortho_step N dim u out kv) else (false, out)
  end.
(** chebyshev/bases.py 382-387, legendre/bases.py 250-255: to_ortho of an orthogonal space raises (assertion, or truth value of an
    array); tensorproductspace.py 2070-2089 _add_to_orthogonal *)
Definition fun_to_ortho (W : space) (n : nat) (u : nat -> R) : bool * (nat -> R) :=
  if s_orth W then (false, fun _ => 0) else
  let '(ok, v) := to_ortho_try (sN W) (sdim W) n u (sm_items RFld (cS (s_base W))) (fun _ => 0) in
  if ok then (true, if s_nh W then add_to_orthogonal (s_base W) (sN W) v u else v) else (false, v).
(** project.py 126-130, 159-160: inner(v, uh, output_array) adds a matrix-vector product to output_array (inner.py 498-511; rhs has
    sdim T rows and sdim W columns), then B.solve *)
Record system := mkSystem { g_rhs : nat -> nat -> R; g_solve : (nat -> R) -> nat -> R }.
Definition galerkin (G : system) (W T : space) (out u : nat -> R) : nat -> R :=
  let c := g_solve G (fun i => out i + rsum (sdim W) (fun j => g_rhs G i j * u j)) in
  fun k => if (k <? sdim T)%nat then c k else 0.
(** project.py 15-171, with the default output_array (zeros) *)
Definition project (use_assign use_to_ortho : bool) (G : system) (W T : space) (u : nat -> R) : nat -> R :=
  if spaces_equal W T then u
  else if negb (compatible_base W T) && use_assign then
    match assign W (sN T) u with Some v => v | None => galerkin G W T (fun _ => 0) u end
  else if s_orth T && use_to_ortho then
    match fun_to_ortho W (sN T) u with (true, v) => v | (false, v) => galerkin G W T v u end
  else galerkin G W T (fun _ => 0) u.

(** ** the spaces of the library *)
(** stencil_matrix() of an orthogonal space: {0: 1} (chebyshev/bases.py 374-375) *)
Definition orth_base (N : nat) : cbase := mkCbase N 0 (mkSmat RFld N N 1 [(0%Z, Scal RFld 1)]) 0 (fun _ _ => 0).
Definition orth_space (f : family) (q : quad) (d : R * R) (N : nat) : space :=
  mkSpace "Orthogonal" f q true false d (orth_base N).
Definition comp_space (name : string) (f : family) (q : quad) (d : R * R) (nh : bool) (cls : stencil_class) (O : nat) (B : nat -> nat -> R) (N : nat) : space :=
  mkSpace name f q false nh d (mkCbase N (List.length (sc_bcs cls)) (stencil_matrix cls N) O B).
