(** XdmfModel.v -- generate_xdmf (io/generate_xdmf.py 97-288): which files are written, and what each says.

    Simplifications: the HDF5 file is the list of its scalar 2D (or 3D) datasets in the order h5py visits them, each with its
    group, slice description, time step and shape; the loop body for one value of ndim is modelled (137-285).  Text is
    replaced by the data it shows: a file has the list of times and one record (geometry, topology, attributes) per <Grid>.
    Real arithmetic.  An exception is [None].  Every group has either 'domain' or 'mesh'. *)
From Coq Require Import Reals List Arith Bool.
From Verif Require Import Base.
Import ListNotations.
Local Open Scope R_scope.

(** the part of a key between the dimension and the time step: None for a complete field, otherwise one component for each axis,
    None for 'slice' and Some k for the index k (io/generate_xdmf.py 167-170, 177-186) *)
Definition tag := option (list (option nat)).
Record dset := mkD { d_id : nat; d_group : nat; d_tag : tag; d_time : nat; d_shape : list nat }.
(** a group: does it have 'domain' (else 'mesh'), (origin, length) of every axis, the points of every axis, attrs['shape'] *)
Record group := mkG { g_domain : bool; g_dom : nat -> R * R; g_mesh : nat -> nat -> R; g_shape : list nat }.
Inductive source := FromFile (axis : nat) | Constant (v : R).
(** geometry: origins and spacings, or arrays with their declared lengths *)
Inductive geometry := Origin (o dx : list R) | Arrays (items : list (nat * source)).
Record grid := mkGrid { gr_geo : geometry; gr_dims : list nat; gr_attrs : list (nat * list nat) }.
Inductive order_t := Visit | Paraview.

Definition comp_eqb (a b : option nat) : bool := match a, b with None, None => true | Some x, Some y => Nat.eqb x y | _, _ => false end.
Fixpoint comps_eqb (a b : list (option nat)) : bool :=
  match a, b with [] , [] => true | x :: a, y :: b => comp_eqb x y && comps_eqb a b | _, _ => false end.
Definition tag_eqb (a b : tag) : bool := match a, b with None, None => true | Some x, Some y => comps_eqb x y | _, _ => false end.

(** list.insert(i, v) *)
Definition insert_at {A} (i : nat) (v : A) (l : list A) : list A := firstn i l ++ v :: skipn i l.
(** 175-186: the axes of the slice, the fixed axis and its index (the last ones, 0 if none), and the shape; [three]: the group is 3D *)
Fixpoint scan (three : bool) (i : nat) (ss : list (option nat)) (ii : list nat) (kk sl : nat) (N : list nat) : list nat * nat * nat * list nat :=
  match ss with
  | [] => (ii, kk, sl, N)
  | None :: r => scan three (S i) r (ii ++ [i]) kk sl N
  | Some s :: r => if three then scan three (S i) r ii i s (insert_at i 1%nat N) else scan three (S i) r ii kk sl N
  end.
(** per[kk] = 0 *)
Definition upd (per : nat -> nat) (k v : nat) : nat -> nat := fun i => if Nat.eqb i k then v else per i.
Definition nthn (l : list nat) (i : nat) : nat := nth i l 0%nat.
Definition spacing (g : group) (per : nat -> nat) (axis n : nat) : R := snd (g_dom g axis) / (INR n - INR (per axis)).
Definition set_nth {A} (i : nat) (v : A) (l : list A) : list A := firstn i l ++ v :: skipn (S i) l.

(** 173-253 for one new slice name: the shape, the geometry, and per afterwards *)
Definition describe (order : order_t) (ndim : nat) (g : group) (t : tag) (shape : list nat) (per : nat -> nat) : list nat * geometry * (nat -> nat) :=
  let '(ii, kk, sl, N) :=
    match t with None => (seq 0 ndim, 0%nat, 0%nat, shape) | Some ss => scan (Nat.eqb (length (g_shape g)) 3) 0 ss [] 0 0 shape end in
  let flat := Nat.eqb ndim 2 && (match t with None => true | Some _ => Nat.ltb 3 (length (g_shape g)) end) in
  if g_domain g then
    if flat then
      let i := nthn ii 0 in let j := nthn ii 1 in
      let geo := match order with
        | Paraview => Origin [fst (g_dom g i); fst (g_dom g j)] [spacing g per i (nthn N 0); spacing g per j (nthn N 1)]
        | Visit => Origin [fst (g_dom g j); fst (g_dom g i)] [spacing g per j (nthn N 0); spacing g per i (nthn N 1)]
        end in (N, geo, per)
    else
      let ii' := if Nat.eqb ndim 2 then insert_at kk kk ii else ii in
      let per' := if Nat.eqb ndim 2 then upd per kk 0 else per in
      let o := map (fun a => fst (g_dom g (nthn ii' a))) (seq 0 3) in
      let dx := map (fun a => spacing g per' (nthn ii' a) (nthn N a)) (seq 0 3) in
      if Nat.eqb ndim 2 then
        let pos := fst (g_dom g kk) + spacing g per' kk (nthn (g_shape g) kk) * INR sl in
        (N, Origin (set_nth kk pos o) (set_nth kk pos dx), per')
      else (N, Origin o dx, per')
  else
    let cc := map FromFile ii in
    if flat then
      let geo := match order with
        | Paraview => Arrays [(nthn N 0, nth 0 cc (Constant 0)); (nthn N 1, nth 1 cc (Constant 0)); (1%nat, Constant 0)]
        | Visit => Arrays [(nthn N 1, nth 1 cc (Constant 0)); (nthn N 0, nth 0 cc (Constant 0)); (1%nat, Constant 0)]
        end in (N, geo, per)
    else
      let cc' := if Nat.eqb ndim 2 then insert_at kk (Constant (g_mesh g kk sl)) cc else cc in
      (N, Arrays [(nthn N 2, nth 2 cc' (Constant 0)); (nthn N 1, nth 1 cc' (Constant 0)); (nthn N 0, nth 0 cc' (Constant 0))], per).

(** the dictionaries NN, geometry, topology keyed by slice name *)
Definition table := list (tag * (list nat * geometry)).
Fixpoint lookup (t : tag) (T : table) : option (list nat * geometry) :=
  match T with [] => None | (s, v) :: r => if tag_eqb t s then Some v else lookup t r end.
(** 165-255: loop over the datasets of the first time step *)
Fixpoint first_pass (order : order_t) (ndim : nat) (groups : nat -> group) (ds : list dset) (T : table) (per : nat -> nat) : table :=
  match ds with
  | [] => T
  | d :: r => match lookup (d_tag d) T with
              | Some _ => first_pass order ndim groups r T per
              | None => let '(N, geo, per') := describe order ndim (groups (d_group d)) (d_tag d) (d_shape d) per in
                        first_pass order ndim groups r (T ++ [(d_tag d, (N, geo))]) per'
              end
  end.
(** timesteps.sort(), of the distinct time steps (139-146) *)
Fixpoint ins (n : nat) (l : list nat) : list nat := match l with [] => [n] | m :: r => if Nat.leb n m then n :: m :: r else m :: ins n r end.
Definition isort (l : list nat) : list nat := fold_right ins [] l.
Definition timesteps (ds : list dset) : list nat := isort (nodup Nat.eq_dec (map d_time ds)).
Definition at_time (tau : nat) (ds : list dset) : list dset := filter (fun d => Nat.eqb (d_time d) tau) ds.
Definition with_tag (t : tag) (ds : list dset) : list dset := filter (fun d => tag_eqb t (d_tag d)) ds.
(** 260-273 for one slice name: a <Grid> for every time step that has data with this name *)
Definition grids_of (t : tag) (N : list nat) (geo : geometry) (ds : list dset) : list grid :=
  flat_map (fun tau => match with_tag t (at_time tau ds) with
                       | [] => []
                       | l => [mkGrid geo N (map (fun d => (d_id d, N)) l)]
                       end) (timesteps ds).
(** 137-285: None when NN[slices] fails with KeyError; periodic gives the initial per (0 periodic, 1 not) *)
Definition xdmf (order : order_t) (ndim : nat) (groups : nat -> group) (periodic : nat -> nat) (ds : list dset) : option (list (tag * (list nat * list grid))) :=
  match timesteps ds with
  | [] => Some []
  | t0 :: _ =>
      let T := first_pass order ndim groups (at_time t0 ds) [] periodic in
      if forallb (fun d => match lookup (d_tag d) T with Some _ => true | None => false end) ds
      then Some (map (fun e => (fst e, (timesteps ds, grids_of (fst e) (fst (snd e)) (snd (snd e)) ds))) T)
      else None
  end.
