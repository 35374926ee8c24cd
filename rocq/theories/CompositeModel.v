(** CompositeModel.v -- composite spaces: flatten, component offsets, views, flattened vectors
    (tensorproductspace.py CompositeSpace, forms/arguments.py Function/BasisFunction). *)
From Coq Require Import Arith ZArith List Bool Lia.
From Verif Require Import Base.
Import ListNotations.

(** one axis of a TensorProductSpace: the slice of its degrees of freedom (base.slice()) *)
Record axis := mkAxis { alo : nat; ahi : nat }.
(** a TensorProductSpace is its list of axes; a CompositeSpace a list of spaces (tensorproductspace.py 1375-1391) *)
Inductive space := Leaf (axes : list axis) | Comp (spaces : list space).

(** tensorproductspace.py 1599-1608 CompositeSpace.flatten *)
Fixpoint flatten (s : space) : list (list axis) :=
  match s with Leaf a => [a] | Comp l => flat_map flatten l end.
(** tensorproductspace.py 1595-1597, 1124 num_components *)
Definition num_components (s : space) : nat := length (flatten s).

(** Python's l[i] for a list *)
Definition py_nth {A} (l : list A) (i : Z) : option A :=
  if (i <? 0)%Z then (if (Z.of_nat (length l) + i <? 0)%Z then None else nth_error l (Z.to_nat (Z.of_nat (length l) + i)))
  else nth_error l (Z.to_nat i).
(** offset = 0; for k in range(i): offset += space[k].num_components() -- range(i) is empty for i < 0 *)
Definition range_offset (l : list space) (i : Z) : nat :=
  fold_left (fun o s => o + num_components s) (firstn (Z.to_nat i) l) 0.
(** forms/arguments.py 1125-1133 BasisFunction.__getitem__: the sub-space and its offset *)
Definition basis_item (st : space * nat) (i : Z) : option (space * nat) :=
  match fst st with
  | Leaf _ => None                                           (* assert is_composite_space *)
  | Comp l => match py_nth l i with Some s => Some (s, snd st + range_offset l i) | None => None end
  end.
Fixpoint basis_path (st : space * nat) (p : list Z) : option (space * nat) :=
  match p with [] => Some st | i :: p => match basis_item st i with Some st' => basis_path st' p | None => None end end.

(** a Function or a view into one: its space, the first component of the base array it shows, its number
    of components, its _offset, and whether the component axis is gone (an integer index was used) *)
Record view := mkView { vspace : space; vstart : nat; voffset : nat; vscalar : bool }.
(** forms/arguments.py 1387-1404 ShenfunBaseArray.__getitem__ with an integer; None if the result is not a
    view of components (IndexError, or the integer selects along another axis) *)
Definition view_item (v : view) (i : Z) : option view :=
  match vspace v with
  | Leaf _ => None
  | Comp l =>
      if vscalar v then None                                 (* the first axis is no longer the component axis *)
      else match py_nth l i with
           | None => None
           | Some s => let o := range_offset l i in let ns := num_components s in
                       Some (mkView s (vstart v + o) (o + voffset v) (negb (1 <? ns)))
           end
  end.
Fixpoint view_path (v : view) (p : list Z) : option view :=
  match p with [] => Some v | i :: p => match view_item v i with Some v' => view_path v' p | None => None end end.

(** an entry of the array of slices: an integer (diagonal axis) or a slice *)
Inductive sel := Fix (j : nat) | Rng (lo hi : nat).
(** tensorproductspace.py 1511-1521 CompositeSpace._get_ndiag_slices, one component: the slices of the space
    with those of the diagonal axes ([mask]) replaced by the integers j.  The component number, first entry of
    the row in the code, is the position in the list here. *)
Fixpoint ndiag_sel (axes : list axis) (mask : list bool) (js : list nat) : list sel :=
  match axes, mask with
  | a :: axes, true :: mask => match js with j :: js => Fix j :: ndiag_sel axes mask js | [] => [] end
  | a :: axes, false :: mask => Rng (alo a) (ahi a) :: ndiag_sel axes mask js
  | _, _ => []
  end.
Definition ndiag_slices (s : space) (mask : list bool) (js : list nat) : list (list sel) :=
  map (fun axes => ndiag_sel axes mask js) (flatten s).
(** tensorproductspace.py 1356-1368 TensorProductSpace._get_ndiag_slices: the target of the assignment has shape (k,),
    the value shape (k, 1), which NumPy refuses unless k = 1 (ValueError: None) *)
Definition ndiag_slices_scalar (axes : list axis) (mask : list bool) (js : list nat) : option (list (list sel)) :=
  let k := length (filter (fun b => b) mask) in
  if (k =? 0) || (k =? 1) then Some [ndiag_sel axes mask js] else None.

(** np.cumsum with a leading 0 *)
Fixpoint cumsum_from (c : nat) (l : list nat) : list nat := c :: match l with [] => [] | x :: l => cumsum_from (c + x) l end.
Definition prod (l : list nat) : nat := fold_right Nat.mul 1 l.
(** tensorproductspace.py 1502-1509 _get_ndiag_cum_dofs: dims_composite (1488-1493) with ones on the diagonal axes *)
Fixpoint masked_dims (axes : list axis) (mask : list bool) : list nat :=
  match axes, mask with
  | a :: axes, m :: mask => (if m then 1 else ahi a - alo a) :: masked_dims axes mask
  | _, _ => []
  end.
Definition ndiag_cum_dofs (s : space) (mask : list bool) : list nat :=
  cumsum_from 0 (map (fun axes => prod (masked_dims axes mask)) (flatten s)).
(** tensorproductspace.py 1523-1529 _get_ndiag_slices_and_dims: dims from the slices *)
Definition sel_size (s : sel) : nat := match s with Fix _ => 1 | Rng a b => b - a end.
Definition slices_dims (sl : list (list sel)) : list nat := cumsum_from 0 (map (fun s => prod (map sel_size s)) sl).

(** the multi-indices selected by a row of slices, in C order (numpy ravel/reshape) *)
Fixpoint enum (s : list sel) : list (list nat) :=
  match s with
  | [] => [[]]
  | Fix j :: r => map (cons j) (enum r)
  | Rng a b :: r => flat_map (fun i => map (cons i) (enum r)) (seq a (b - a))
  end.
Fixpoint idx_eqb (a b : list nat) : bool :=
  match a, b with [], [] => true | x :: a, y :: b => (x =? y) && idx_eqb a b | _, _ => false end.
(** a composite Function: component -> multi-index -> value; u[i][idx] = v *)
Definition updm {V} (u : nat -> list nat -> V) (i : nat) (idx : list nat) (v : V) : nat -> list nat -> V :=
  fun i' idx' => if (i' =? i) && idx_eqb idx' idx then v else u i' idx'.
(** forms/arguments.py 1829-1858 copy_to_flattened: f[dims[i]:dims[i+1]] = self[tuple(s)].ravel() *)
Definition copy_to {V} (f : nat -> V) (dims : list nat) (sl : list (list sel)) (u : nat -> list nat -> V) : nat -> V :=
  for_up (length sl) 0 (fun i f =>
    for_up (nth (i + 1) dims 0 - nth i dims 0) 0 (fun t f =>
      upd f (nth i dims 0 + t) (u i (nth t (enum (nth i sl [])) []))) f) f.
(** forms/arguments.py 1860-1889 copy_from_flattened: self[si] = f[dims[i]:dims[i+1]].reshape(...) *)
Definition copy_from {V} (u : nat -> list nat -> V) (f : nat -> V) (dims : list nat) (sl : list (list sel)) : nat -> list nat -> V :=
  for_up (length sl) 0 (fun i u =>
    for_up (nth (i + 1) dims 0 - nth i dims 0) 0 (fun t u =>
      updm u i (nth t (enum (nth i sl [])) []) (f (nth i dims 0 + t))) u) u.
