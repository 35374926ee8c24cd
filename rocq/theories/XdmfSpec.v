(** XdmfSpec.v -- what an XDMF file says about the data, read as a viewer reads it; nothing here refers to how generate_xdmf works. *)
From Coq Require Import Reals List Arith Bool Sorted.
From Verif Require Import Base XdmfModel.
Import ListNotations.
Local Open Scope R_scope.

(** the datasets with slice name t stored at time tau, in the order of the file *)
Definition stored (t : tag) (ds : list dset) (tau : nat) : list nat :=
  map d_id (filter (fun d => Nat.eqb (d_time d) tau && tag_eqb t (d_tag d)) ds).
(** tau is the earliest time in the file *)
Definition first_time (ds : list dset) (tau : nat) : Prop :=
  (exists d, In d ds /\ d_time d = tau) /\ forall d, In d ds -> (tau <= d_time d)%nat.
Definition non_empty {A} (l : list A) : bool := match l with [] => false | _ => true end.
(** the datasets a <Grid> shows *)
Definition shown (g : grid) : list nat := map fst (gr_attrs g).

(** the axes a dataset keeps: all of them, or those named 'slice' *)
Fixpoint free_axes (i : nat) (ss : list (option nat)) : list nat :=
  match ss with [] => [] | None :: r => i :: free_axes (S i) r | Some _ :: r => free_axes (S i) r end.
Definition axes (g : group) (t : tag) : list nat := match t with None => seq 0 (length (g_shape g)) | Some ss => free_axes 0 ss end.
(** position of point q along an axis: the mesh point, or origin + q * length / M for M points of a periodic axis and
    origin + q * length / (M-1) for an axis that includes both ends *)
Definition coordinate (g : group) (per : nat -> nat) (a q : nat) : R :=
  if g_domain g then fst (g_dom g a) + snd (g_dom g a) * INR q / (INR (nth a (g_shape g) 0%nat) - INR (per a)) else g_mesh g a q.

(** how the viewer reads a <Grid>: the entry of the geometry for axis a of the data.  3D data: origins and spacings come in the order
    of the dimensions, arrays in opposite order (VXVYVZ); 2D data: Paraview in the order of the dimensions, Visit opposite. *)
Definition entry (order : order_t) (gr : grid) (a : nat) : nat :=
  match length (gr_dims gr) with
  | 2%nat => match order with Paraview => a | Visit => (1 - a)%nat end
  | _ => match gr_geo gr with Origin _ _ => a | Arrays _ => (2 - a)%nat end
  end.
Definition grid_point (order : order_t) (g : group) (gr : grid) (a q : nat) : R :=
  match gr_geo gr with
  | Origin o dx => nth (entry order gr a) o 0 + INR q * nth (entry order gr a) dx 0
  | Arrays it => match snd (nth (entry order gr a) it (0%nat, Constant 0)) with FromFile ax => g_mesh g ax q | Constant v => v end
  end.
(** every array declares as many points as the grid has along its axis *)
Definition lengths_agree (order : order_t) (gr : grid) : Prop :=
  match gr_geo gr with
  | Origin _ _ => True
  | Arrays it => forall a, (a < length (gr_dims gr))%nat -> fst (nth (entry order gr a) it (0%nat, Constant 0)) = nth a (gr_dims gr) 0%nat
  end.

(** a dataset as the library writes it: it keeps ndim axes and has their lengths *)
Definition well_formed (ndim : nat) (groups : nat -> group) (d : dset) : Prop :=
  let g := groups (d_group d) in
  length (axes g (d_tag d)) = ndim /\ d_shape d = map (fun a => nth a (g_shape g) 0%nat) (axes g (d_tag d))
  /\ match d_tag d with Some ss => length ss = length (g_shape g) | None => True end.
(** a plane of a 3D field: index s along axis k *)
Definition plane (k s : nat) : tag := Some (map (fun a => if Nat.eqb a k then Some s else None) (seq 0 3)).
