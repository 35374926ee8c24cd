(** BndModel.v -- inhomogeneous boundary conditions: CompositeBase.to_ortho, _padding_backward, backward and forward of
    spectralbase.py along one axis, and class BoundaryValues of tensorproductspace.py.

    Coefficient arrays and arrays of function values along the axis are functions of the index. *)
From Coq Require Import Reals ZArith List Bool Arith.
From Verif Require Import Base Fld SparseModel SparseSpec RPoly StencilModel2 PencilModel.
Import ListNotations.
Local Open Scope R_scope.
Notation rsum := (gsum 0 Rplus).

(** a composite space with its boundary space (BCGeneric) *)
Record cbase := mkCbase {
  cN : nat;                      (* N, the length of coefficient arrays *)
  cnb : nat;                     (* bcs.num_bcs() *)
  cS : smat RFld;                (* stencil_matrix() *)
  cO : nat;                      (* get_bc_space().dim_ortho *)
  cB : nat -> nat -> R           (* get_bc_space().stencil_matrix(), cnb rows and cO columns *)
}.
(** spectralbase.py 1435-1436 slice(), dim() *)
Definition cdim (b : cbase) : nat := cN b - cnb b.

(** tensorproductspace.py 2130-2143 has_nonhomogeneous_bcs, for numbers (and arrays, entry by entry) *)
Definition nonhom (nb : nat) (vals : nat -> R) : bool :=
  existsb (fun i => if Req_EM_T (vals i) 0 then false else true) (seq 0 nb).

(** tensorproductspace.py 2108-2128 set_boundary_dofs: u[si[-M+i]] = bcs[i] in an array of length n *)
Definition set_boundary_dofs (n nb : nat) (bcs : nat -> R) (u : nat -> R) : nat -> R :=
  fun k => if ((n - nb <=? k) && (k <? n))%nat then bcs (k - (n - nb))%nat else u k.

(** tensorproductspace.py 2068-2089 _add_to_orthogonal: uh has length n; with ds = n - N the boundary dofs are
    uh[N-nb+ds : N+ds] *)
Definition add_to_orthogonal (b : cbase) (n : nat) (out uh : nat -> R) : nat -> R :=
  let start := (cN b - cnb b + (n - cN b))%nat in
  fun j => if (j <? cO b)%nat then out j + rsum (cnb b) (fun i => cB b i j * uh (start + i)%nat) else out j.

(** spectralbase.py 1616-1634 to_ortho *)
Definition to_ortho_bc (b : cbase) (nh : bool) (n : nat) (uh : nat -> R) : nat -> R :=
  let out := to_ortho (cS b) (cdim b) uh in
  if nh then add_to_orthogonal b n out uh else out.

(** spectralbase.py 1369-1390 _padding_backward, into an array of length n > N (a different array) *)
Definition padding (b : cbase) (n : nat) (u : nat -> R) : nat -> R :=
  let p := fun k => if (k <? cdim b)%nat then u k else 0 in
  fun k => if ((n - cnb b <=? k) && (k <? n))%nat then u (cN b - cnb b + (k - (n - cnb b)))%nat else p k.
(** and without padding, where the two arrays are the same object: with the 2/3-rule the upper third is zeroed, and then the
    boundary dofs of the array are copied to themselves *)
Definition padding_same (b : cbase) (dealias_direct : bool) (u : nat -> R) : nat -> R :=
  if dealias_direct then
    let p := fun k => if (2 * cN b / 3 <=? k)%nat then 0 else u k in
    fun k => if ((cN b - cnb b <=? k) && (k <? cN b))%nat then p (cN b - cnb b + (k - (cN b - cnb b)))%nat else p k
  else u.
(** the orthogonal polynomials P at the points x *)
Definition evaluate (P : nat -> poly) (n : nat) (c : nat -> R) (x : R) : R := rsum n (fun j => c j * peval (P j) x).

(** spectralbase.py 265-308 backward with 1448-1459 _evaluate_expansion_all: to_ortho, then the orthogonal expansion (whose fast
    versions are the subject of C44); n is the (padded) length *)
Definition backward (b : cbase) (P : nat -> poly) (nh dealias_direct : bool) (n : nat) (u : nat -> R) (x : R) : R :=
  let v := if (n =? cN b)%nat then padding_same b dealias_direct u else padding b n u in
  evaluate P n (to_ortho_bc b nh n v) x.
(** the same with kind='vandermonde' (1577-1592 _composite with argument=1): columns of the Vandermonde matrix of n polynomials
    are combined by the stencil matrix of size n, and the last nb columns are the boundary functions *)
Definition backward_vandermonde (b : cbase) (Sn : smat RFld) (P : nat -> poly) (dealias_direct : bool) (n : nat) (u : nat -> R) (x : R) : R :=
  let v := if (n =? cN b)%nat then padding_same b dealias_direct u else padding b n u in
  rsum n (fun k => v k * (if (n - cnb b <=? k)%nat then rsum (cO b) (fun j => peval (P j) x * cB b (k - (n - cnb b))%nat j)
                          else rsum n (fun j => peval (P j) x * mat_entry RFld Sn k j))).

(** ** forward *)
(** quadrature points and weights, and what forward has assembled *)
Record quadr := mkQuadr { qn : nat; qx : nat -> R; qw : nat -> R }.
Record assembled := mkAssembled {
  a_solve : (nat -> R) -> nat -> R;   (* self._mass.solve on the first dim entries *)
  a_bcmass : nat -> nat -> R          (* get_bcmass_matrix(sqrt_det_g), dim x nb *)
}.
(** spectralbase.py 200-233 scalar_product, 1461-1474 _evaluate_scalar_product (kind 'vandermonde'; the entries of the boundary
    dofs are set to zero, and truncation keeps the first dim entries); the array is already measured *)
Definition scalar_product (b : cbase) (P : nat -> poly) (Q : quadr) (u : nat -> R) : nat -> R :=
  fun i => if (i <? cdim b)%nat then
    rsum (qn Q) (fun q => u q * qw Q q * rsum (cN b) (fun j => peval (P j) (qx Q q) * mat_entry RFld (cS b) i j)) else 0.
(** tensorproductspace.py 2091-2106 _add_mass_rhs *)
Definition add_mass_rhs (b : cbase) (A : assembled) (nh : bool) (bcs : nat -> R) (u : nat -> R) : nat -> R :=
  let u := set_boundary_dofs (cN b) (cnb b) bcs u in
  if nh then fun i => u i - (if (i <? cdim b)%nat then rsum (cnb b) (fun j => a_bcmass A i j * u (cdim b + j)%nat) else 0) else u.
(** spectralbase.py 235-263 forward, 560-577 apply_inverse_mass *)
Definition forward_measured (b : cbase) (P : nat -> poly) (Q : quadr) (A : assembled) (nh : bool) (bcs u : nat -> R) : nat -> R :=
  let r := add_mass_rhs b A nh bcs (scalar_product b P Q u) in
  fun i => if (i <? cdim b)%nat then a_solve A r i else r i.
(** 1073-1112 get_measured_array: g is the measure at the points *)
Definition forward (b : cbase) (P : nat -> poly) (Q : quadr) (A : assembled) (nh : bool) (bcs : nat -> R) (g u : nat -> R) : nat -> R :=
  forward_measured b P Q A nh bcs (fun q => g q * u q).

(** ** tensorproductspace.py: a space with one inhomogeneous axis *)
(** The other axes are those transformed before this one (physical index OP, spectral index SP) and after it (OQ, SQ).
    sqrt(det g) = c * gA * gP * gQ (utilities split).  x_before and x_after are the transforms along these axes as planned;
    each divides by its own measured mass matrix (get_mass_matrix, 994-1019), and the constant c is divided out by the
    mass matrix of the last dimension. *)
Inductive last_axis := LBefore | LThis | LAfter.
Record tensor (OP SP OQ SQ : Type) := mkTensor {
  t_c : R; t_gA : nat -> R; t_gP : OP -> R; t_gQ : OQ -> R;
  t_before : (OP -> R) -> SP -> R;  (* with measured mass matrices, without c *)
  t_after : (OQ -> R) -> SQ -> R;
  t_last : last_axis;
  t_first : bool                    (* number_of_bases_after_this == 0: this axis is the first to be transformed *)
}.
Arguments t_c {_ _ _ _}. Arguments t_gA {_ _ _ _}. Arguments t_gP {_ _ _ _}. Arguments t_gQ {_ _ _ _}.
Arguments t_before {_ _ _ _}. Arguments t_after {_ _ _ _}. Arguments t_last {_ _ _ _}. Arguments t_first {_ _ _ _}.
Section Tensor.
Context {OP SP OQ SQ : Type} (T : tensor OP SP OQ SQ) (b : cbase) (P : nat -> poly) (Q : quadr).
Definition x_before (f : OP -> R) : SP -> R := match t_last T with LBefore => fun s => t_before T f s / t_c T | _ => t_before T f end.
Definition x_after (f : OQ -> R) : SQ -> R := match t_last T with LAfter => fun s => t_after T f s / t_c T | _ => t_after T f end.
(** 193-259 ForwardTransform.__call__: bcs are the intermediate values self.bcs *)
Definition tensor_forward (A : assembled) (nh : bool) (bcs : nat -> SP -> OQ -> R) (u : nat -> OP -> OQ -> R) (k : nat) (s : SP) (t : SQ) : R :=
  let m := fun k p q => t_c T * t_gA T k * t_gP T p * t_gQ T q * u k p q in
  let v := fun k s q => x_before (fun p => m k p q) s in
  let w := fun k s q => forward_measured b P Q A nh (fun j => bcs j s q) (fun k => v k s q) k in
  x_after (fun q => w k s q) t.
(** 1999-2022 the intermediate values: vals j holds the values of boundary condition j at the points of the other axes.
    If this axis is the first, b_hat = b: there is no axis before it, and t_before is the identity *)
Definition tensor_bcs (vals : nat -> OP -> OQ -> R) (j : nat) (s : SP) (q : OQ) : R :=
  if t_first T then t_before T (fun p => vals j p q) s else x_before (fun p => t_c T * vals j p q) s.
(** 2023-2026: b_hat = T.forward(b), b is zero but for the rows of the boundary values *)
Definition tensor_b (vals : nat -> OP -> OQ -> R) (k : nat) (p : OP) (q : OQ) : R :=
  if ((qn Q - cnb b <=? k) && (k <? qn Q))%nat then vals (k - (qn Q - cnb b))%nat p q else 0.
Definition tensor_bcs_final (A : assembled) (nh : bool) (vals : nat -> OP -> OQ -> R) (j : nat) (s : SP) (t : SQ) : R :=
  tensor_forward A nh (tensor_bcs vals) (tensor_b vals) (cN b - cnb b + j)%nat s t.
End Tensor.

(** 1959-1997: the array b of process [rank] out of [size] that share the Np rows along this axis.  None: IndexError.
    uses_mesh: the value is a sympy expression with free symbols, so that X[k][si[j]] is read *)
Definition place_rows {V : Type} (zero : V) (Np size rank nb : nat) (uses_mesh : bool) (vals : nat -> V) : option (nat -> V) :=
  let len := blen Np size rank in
  if uses_mesh && (len <? nb)%nat then None
  else if (bstart Np size rank + len =? Np)%nat then
    (if (len <? nb)%nat then None
     else Some (fun k => if ((len - nb <=? k) && (k <? len))%nat then vals (k - (len - nb))%nat else zero))
  else Some (fun _ => zero).

(** ** 1878-1907 BoundaryValues: values that may depend on time *)
Inductive bval := BConst (v : R) | BTime (f : R -> R).           (* a number, or a sympy expression in t *)
Record bstate := mkBstate { s_bcs : list (R + (R -> R)); s_time : R }.   (* self.bcs = self.bcs_final; inr: an unevaluated expression *)
Definition raw (v : bval) : R + (R -> R) := match v with BConst v => inl v | BTime f => inr f end.
Definition b_init (l : list bval) : bstate := mkBstate (map raw l) 0.
Definition is_time (v : bval) : bool := match v with BTime _ => true | BConst _ => false end.
Definition update (l : list bval) (time : option R) (update_tensor : bool) (s : bstate) : bstate :=
  match time with
  | Some t =>
      let tm := if existsb is_time l then t else s_time s in
      if update_tensor || existsb is_time l
      then mkBstate (map (fun v => match v with BConst v => inl v | BTime f => inl (f t) end) l) tm else mkBstate (s_bcs s) tm
  | None => if update_tensor then mkBstate (map raw l) (s_time s) else s
  end.
(** 1947-1958 the values that set_tensor_bcs uses *)
Definition tensor_values (l : list bval) (s : bstate) : list R := map (fun v => match v with BConst v => v | BTime f => f (s_time s) end) l.
