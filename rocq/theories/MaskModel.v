(** MaskModel.v -- Nyquist masks of tensor product spaces: shenfun/tensorproductspace.py
    1038-1081, shenfun/optimization/cython/applymask.pyx.  Arrays are flat C-contiguous
    buffers; the Cython code is compiled with boundscheck off, so an index outside the
    array writes whatever memory is there. *)
From Coq Require Import Arith ZArith List Bool.
From Verif Require Import Base Fld FourierModel.
Import ListNotations.
Local Open Scope nat_scope.

(** a base of the space: a Fourier base (C2C or R2C) with N quadrature points, or another *)
Inductive axis_base := FourierC2C (N : nat) | FourierR2C (N : nat) | OtherBase.
Definition base_mask (b : axis_base) : option (nat -> bool) :=
  match b with FourierC2C N => mask_c2c N | FourierR2C N => mask_r2c N | OtherBase => None end.

(** 1054-1081 get_mask_nyquist: None when no Fourier base has even N; otherwise the product
    of the one-dimensional masks, each restricted to the local slice that starts at
    start(axis); entry at the local multi-index idx *)
Definition do_mask (bases : list axis_base) : bool :=
  existsb (fun b => match b with FourierC2C N | FourierR2C N => N mod 2 =? 0 | OtherBase => false end) bases.
Fixpoint mask_entry (bases : list axis_base) (start idx : list nat) : nat :=
  match bases, start, idx with
  | b :: bs, s :: ss, i :: is =>
      (match base_mask b with None => 1 | Some m => if m (s + i) then 1 else 0 end) * mask_entry bs ss is
  | _, _, _ => 1
  end.

(** nested loops over an index set, with the flat C index of the entry *)
Fixpoint nest {S : Type} (shape : list nat) (base : nat) (body : nat -> S -> S) (s : S) : S :=
  match shape with
  | [] => body base s
  | n :: r => for_up n 0 (fun i s => nest r (base * n + i) body s) s
  end.
Definition prod (shape : list nat) : nat := fold_right Nat.mul 1 shape.

Section Apply.
  Variable K : Fld.
  Notation vec := (nat -> K).
  Local Open Scope fld_scope.
  (** applymask.pyx 55-91 apply_mask_1D .. apply_mask_4D *)
  Definition apply_mask_nd (mshape : list nat) (mask : nat -> nat) (u : vec) : vec :=
    nest mshape 0 (fun t u => if (mask t =? 0)%nat then upd u t 0 else u) u.
  (** 93-128 apply_bmask_1D .. apply_bmask_4D: vector fields, u has shape [I] ++ mshape *)
  Definition apply_bmask_nd (I : nat) (mshape : list nat) (mask : nat -> nat) (u : vec) : vec :=
    nest mshape 0 (fun t u => if (mask t =? 0)%nat
      then for_up I 0 (fun i u => upd u (i * prod mshape + t)%nat 0) u else u) u.
  (** 130-173 apply_b2mask_2D and _4D: tensor fields, u has shape [I; J] ++ mshape *)
  Definition apply_b2mask_nd (I J : nat) (mshape : list nat) (mask : nat -> nat) (u : vec) : vec :=
    nest mshape 0 (fun t u => if (mask t =? 0)%nat
      then for_up I 0 (fun i u => for_up J 0 (fun j u => upd u ((i * J + j) * prod mshape + t)%nat 0) u) u else u) u.
  (** 130-137 apply_b2mask_1D as it stands: k runs over range(u.shape[1]) = range(J) *)
  Definition apply_b2mask_1D (I J n : nat) (mask : nat -> nat) (u : vec) : vec :=
    for_up J 0 (fun t u => if (mask t =? 0)%nat
      then for_up I 0 (fun i u => for_up J 0 (fun j u => upd u ((i * J + j) * n + t)%nat 0) u) u else u) u.
  (** 150-160 apply_b2mask_3D as it stands: j runs over range(u.shape[2]) = range(n0) *)
  Definition apply_b2mask_3D (I J n0 n1 n2 : nat) (mask : nat -> nat) (u : vec) : vec :=
    nest [n0; n1; n2] 0 (fun t u => if (mask t =? 0)%nat
      then for_up I 0 (fun i u => for_up n0 0 (fun j u => upd u ((i * J + j) * (n0 * (n1 * n2)) + t)%nat 0) u) u else u) u.
End Apply.

(** C-order flat index of a multi-index and back *)
Fixpoint ravel (shape idx : list nat) : nat :=
  match shape, idx with _ :: r, i :: is => i * prod r + ravel r is | _, _ => 0 end.
Fixpoint unravel (shape : list nat) (t : nat) : list nat :=
  match shape with [] => [] | _ :: r => (t / prod r) :: unravel r (t mod prod r) end.
(** 1038-1052 mask_nyquist of a scalar, vector or tensor field with local shape [shape] *)
Definition mask_nyquist_nd (K : Fld) (bases : list axis_base) (start shape : list nat) (u : nat -> K) : nat -> K :=
  if do_mask bases then apply_mask_nd K shape (fun t => mask_entry bases start (unravel shape t)) u else u.
Definition mask_nyquist_vec (K : Fld) (I : nat) (bases : list axis_base) (start shape : list nat) (u : nat -> K) : nat -> K :=
  if do_mask bases then apply_bmask_nd K I shape (fun t => mask_entry bases start (unravel shape t)) u else u.
Definition mask_nyquist_tensor (K : Fld) (I J : nat) (bases : list axis_base) (start shape : list nat) (u : nat -> K) : nat -> K :=
  if do_mask bases then
    let mask := fun t => mask_entry bases start (unravel shape t) in
    match shape with
    | [n] => apply_b2mask_1D K I J n mask u
    | [n0; n1; n2] => apply_b2mask_3D K I J n0 n1 n2 mask u
    | _ => apply_b2mask_nd K I J shape mask u
    end
  else u.
