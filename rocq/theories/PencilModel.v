(** PencilModel.v -- TensorProductSpace: planning and running the distributed transforms.

    shenfun/tensorproductspace.py.  The classes Subcomm, Pencil and Transfer and the block
    distribution come from mpi4py_fft (not part of /repo); they are modelled here by what they
    do: a Pencil distributes every axis of a global array in contiguous blocks over one of the
    communicators of a Cartesian process grid, one axis is complete on every process, and a
    Transfer is an Alltoallw within the communicator that two pencils exchange.
    All processes run the same program and the exchanges are collective, so the state of a
    computation is one local array for every process of the grid. *)
From Coq Require Import Arith List Bool Lia.
Import ListNotations.
Local Open Scope nat_scope.

(** mpi4py_fft _blockdist: number of entries and first entry of the block of process [rank] *)
Definition blockdist (N size rank : nat) : nat * nat :=
  (N / size + (if rank <? N mod size then 1 else 0),
   rank * (N / size) + Nat.min rank (N mod size)).
Definition blen (N size rank : nat) : nat := fst (blockdist N size rank).
Definition bstart (N size rank : nat) : nat := snd (blockdist N size rank).

(** the process whose block holds entry [j] *)
Definition owner (N size j : nat) : nat :=
  match find (fun r => (bstart N size r <=? j) && (j <? bstart N size r + blen N size r))
             (seq 0 size) with
  | Some r => r
  | None => 0
  end.

(** list with entry [k] replaced *)
Definition lset (l : list nat) (k v : nat) : list nat :=
  map (fun i => if i =? k then v else nth i l 0) (seq 0 (length l)).

(** mpi4py_fft Pencil: which communicator of the grid distributes each axis, the global shape
    and the axis that is complete *)
Record pencil := mkPencil { p_sub : list nat; p_shape : list nat; p_axis : nat }.

Section Grid.
  (** sizes of the communicators of the process grid *)
  Variable dims : list nat.

  Definition psize (p : pencil) (i : nat) : nat := nth (nth i (p_sub p) 0) dims 1.
  (** coordinate, in the communicator of axis [i], of the process with grid coordinates [c] *)
  Definition prank (p : pencil) (c : list nat) (i : nat) : nat := nth (nth i (p_sub p) 0) c 0.
  Definition plen (p : pencil) (c : list nat) (i : nat) : nat :=
    blen (nth i (p_shape p) 0) (psize p i) (prank p c i).
  Definition pstart (p : pencil) (c : list nat) (i : nat) : nat :=
    bstart (nth i (p_shape p) 0) (psize p i) (prank p c i).
  Definition subshape (p : pencil) (c : list nat) : list nat :=
    map (plen p c) (seq 0 (length (p_shape p))).

  (** Pencil.__init__ with its assertions: the aligned axis is complete and no axis has fewer
      entries than processes *)
  Definition mk_pencil (sub shape : list nat) (axis : nat) : option pencil :=
    let p := mkPencil sub shape axis in
    if (axis <? length shape) && (psize p axis =? 1) &&
       forallb (fun i => (1 <=? nth i shape 0) && (psize p i <=? nth i shape 0))
               (seq 0 (length shape))
    then Some p else None.

  (** Pencil.pencil(axis): exchange the communicators of the aligned axis and of [axis] *)
  Definition pencil_to (p : pencil) (axis : nat) : option pencil :=
    mk_pencil (lset (lset (p_sub p) axis (nth (p_axis p) (p_sub p) 0))
                    (p_axis p) (nth axis (p_sub p) 0))
              (p_shape p) axis.

  (** mpi4py_fft Transfer(penA, penB, dtype); [true] is a complex dtype *)
  Record transfer := mkTransfer { t_A : pencil; t_B : pencil; t_dt : bool }.
  Definition mk_transfer (a b : pencil) (dt : bool) : option transfer :=
    if p_axis a =? p_axis b then None else Some (mkTransfer a b dt).

  (** all processes of the grid *)
  Fixpoint all_coords (ds : list nat) : list (list nat) :=
    match ds with
    | [] => [[]]
    | n :: r => flat_map (fun i => map (cons i) (all_coords r)) (seq 0 n)
    end.

  Definition shape_eqb (a b : list nat) : bool := if list_eq_dec Nat.eq_dec a b then true else false.
  (** the local shape is the same on every process *)
  Definition same_shapes (f g : list nat -> list nat) : bool :=
    forallb (fun c => shape_eqb (f c) (g c)) (all_coords dims).

  Section Values.
    Context {V : Type}.
    (** a distributed array: grid coordinates -> local index -> value *)
    Definition darr := list nat -> list nat -> V.
    (** with its local shape on every process and its dtype *)
    Record buf := mkBuf { b_shape : list nat -> list nat; b_dt : bool; b_dat : darr }.

    (** Alltoallw of Transfer: the receiver with rank [r] in the communicator gets, for every
        sender [i], the part of the sender's array that lies in its own block of axis [a] and
        stores it at the place of block [i] of axis [b] *)
    Definition alltoallw (comm size : nat) (a Na b Nb : nat) (L : darr) : darr :=
      fun c idx =>
        let r := nth comm c 0 in
        let i := owner Nb size (nth b idx 0) in
        L (lset c comm i)
          (lset (lset idx b (nth b idx 0 - bstart Nb size i)) a
                (nth a idx 0 + bstart Na size r)).

    (** Transfer.forward / Transfer.backward (arrayA -> arrayB, arrayB -> arrayA) with the
        assertions on shapes and dtypes; [dst] gives shape and dtype of the receiving buffer *)
    Definition transfer_forward (t : transfer) (x : buf) (dshape : list nat -> list nat) (ddt : bool)
        : option buf :=
      let A := t_A t in let B := t_B t in
      if same_shapes (b_shape x) (subshape A) && same_shapes dshape (subshape B)
         && eqb (b_dt x) (t_dt t) && eqb ddt (t_dt t)
      then let comm := nth (p_axis B) (p_sub A) 0 in
           Some (mkBuf dshape ddt
                   (alltoallw comm (nth comm dims 1)
                      (p_axis A) (nth (p_axis A) (p_shape A) 0)
                      (p_axis B) (nth (p_axis B) (p_shape A) 0) (b_dat x)))
      else None.
    Definition transfer_backward (t : transfer) (x : buf) (dshape : list nat -> list nat) (ddt : bool)
        : option buf :=
      transfer_forward (mkTransfer (t_B t) (t_A t) (t_dt t)) x dshape ddt.

    (** a one-dimensional function space as TensorProductSpace sees it: number of points in
        physical space, of modes before truncation and of modes, and the serial transforms of
        one line: [b_raw] (scalar product or fast transform), [b_trunc] (truncation and
        division by the mass matrix), [b_pad] (padding or masking) and [b_eval] (evaluation);
        spectralbase.py 602-645, fourier/bases.py 120-140, 218-276 *)
    Inductive kind := R2C | C2C | Poly.
    Record base := mkBase {
      bs_kind : kind; bs_phys : nat; bs_mid : nat; bs_spec : nat;
      bs_raw : (nat -> V) -> nat -> V; bs_trunc : (nat -> V) -> nat -> V;
      bs_pad : (nat -> V) -> nat -> V; bs_eval : (nat -> V) -> nat -> V;
      (** scalar_product ends with the truncation only *)
      bs_cut : (nat -> V) -> nat -> V;
      bs_padded : bool (* abs(padding_factor - 1) > 1e-6 *) }.

    (** apply a transform of lines along axis [k] of an array *)
    Definition along (k : nat) (F : (nat -> V) -> nat -> V) (g : list nat -> V) : list nat -> V :=
      fun idx => F (fun j => g (lset idx k j)) (nth k idx 0).
    Definition along_d (k : nat) (F : (nat -> V) -> nat -> V) (L : darr) : darr :=
      fun c => along k F (L c).

    Definition is_fourier (b : base) : bool :=
      match bs_kind b with Poly => false | _ => true end.

    (** a planned serial transform: the (collapsed) axes with their bases, last axis last, the
        local shapes in physical and spectral space and their dtypes *)
    Record stage := mkStage {
      s_axes : list (nat * base);
      s_pshape : list nat -> list nat; s_pdt : bool;
      s_sshape : list nat -> list nat; s_sdt : bool }.

    Definition s_last (s : stage) (d : nat * base) : nat * base := last (s_axes s) d.

    Definition dtype_out (b : base) (dt : bool) : bool :=
      match bs_kind b with R2C => true | C2C => true | Poly => dt end.
    (** fftw.rfftn wants real input, fftw.fftn complex input; bases that are not Fourier
        plan one axis only *)
    Definition plan_ok (g : list (nat * base)) (b : base) (dt : bool) : bool :=
      match bs_kind b with
      | R2C => negb dt
      | C2C => dt
      | Poly => match g with [_] => true | _ => false end
      end.

    (** base.plan(subshape, axes, dtype): the physical shape is given *)
    Definition plan (g : list (nat * base)) (k : nat) (b : base)
        (sh : list nat -> list nat) (dt : bool) : option stage :=
      if plan_ok g b dt
      then Some (mkStage g sh dt (fun c => lset (sh c) k (bs_spec b)) (dtype_out b dt))
      else None.

    (** serial transform of a stage.  Several axes: fftn over all of them, planned by the base
        of the last one, whose truncation, masking and mass matrix act on the last axis only *)
    Definition fold_axes (F : base -> (nat -> V) -> nat -> V) (l : list (nat * base)) (L : darr) : darr :=
      fold_left (fun L kb => along_d (fst kb) (F (snd kb)) L) l L.
    Definition stage_forward (fin : base -> (nat -> V) -> nat -> V) (s : stage) (L : darr) : darr :=
      match rev (s_axes s) with
      | [] => L
      | kb :: others =>
          along_d (fst kb) (fin (snd kb)) (fold_axes bs_raw (kb :: others) L)
      end.
    Definition stage_backward (s : stage) (L : darr) : darr :=
      match rev (s_axes s) with
      | [] => L
      | kb :: others =>
          along_d (fst kb) (bs_eval (snd kb))
            (fold_axes bs_eval (rev others) (along_d (fst kb) (bs_pad (snd kb)) L))
      end.

    Definition with_base (bases : list base) (d : base) (g : list nat) : list (nat * base) :=
      map (fun k => (k, nth k bases d)) g.

    (** tensorproductspace.py 432-446: transforms after the first one, in the order in which the
        forward transform runs them *)
    Fixpoint plan_rest (bases : list base) (d : base) (pA : pencil) (dt : bool)
        (gs : list (list nat)) : option (list stage * list transfer * pencil) :=
      match gs with
      | [] => Some ([], [], pA)
      | g :: gs =>
          let k := last g 0 in
          let b := nth k bases d in
          match pencil_to pA k with
          | None => None
          | Some pB =>
              match mk_transfer pA pB dt, plan (with_base bases d g) k b (subshape pB) dt with
              | Some t, Some s =>
                  let shape' := lset (p_shape pB) k (bs_spec b) in
                  let pA' := if (nth k (p_shape pB) 0 =? bs_spec b) && eqb (s_pdt s) (s_sdt s)
                             then Some pB
                             else mk_pencil (p_sub pB) shape' k in
                  match pA' with
                  | None => None
                  | Some pA' =>
                      match plan_rest bases d pA' (s_sdt s) gs with
                      | None => None
                      | Some (ss, ts, pe) => Some (s :: ss, t :: ts, pe)
                      end
                  end
              | _, _ => None
              end
          end
      end.

    (** a planned TensorProductSpace: serial transforms, redistributions and the pencils of
        physical and spectral space, in the order of the forward transform *)
    Record space := mkSpace {
      sp_stages : list stage; sp_transfers : list transfer; sp_in : pencil; sp_out : pencil }.

    (** dtype of forward.output_array (Function(T)); for a space configured backwards, of
        backward.output_array *)
    Definition no_stage : stage := mkStage [] (fun _ => []) false (fun _ => []) false.
    Definition output_dtype (sp : space) : bool := s_sdt (last (sp_stages sp) no_stage).
    Definition padded_dtype (sp : space) : bool := s_pdt (last (sp_stages sp) no_stage).

    (** tensorproductspace.py 398-412: collapse consecutive Fourier axes that are not
        distributed; [gs] are the groups found so far (first transformed last in the list) and
        [F0] tells whether the previous axis can be joined.  [sub] is the process grid *)
    Fixpoint collapse_loop (F : nat -> bool) (groups : list (list nat)) (F0 : bool) (todo : list nat)
        : list (list nat) :=
      match todo with
      | [] => groups
      | ax :: r =>
          let groups' :=
            match groups with
            | g :: gs => if F0 && F ax then (ax :: g) :: gs else [ax] :: groups
            | [] => [[ax]]
            end in
          collapse_loop F groups' (F ax) r
      end.
    Definition collapse (bases : list base) (d : base) (axes : list nat) : list (list nat) :=
      let F ax := is_fourier (nth ax bases d) && (nth ax dims 1 =? 1) in
      match rev axes with
      | [] => []
      | ax :: r => collapse_loop F [[ax]] (F ax) r
      end.
    Definition groups_of (coll : bool) (bases : list base) (d : base) (axes : list nat) : list (list nat) :=
      if coll && negb (existsb bs_padded bases) then collapse bases d axes
      else map (fun k => [k]) axes.

    (** tensorproductspace.py 376-446 (forward configuration); [gs]: self.axes.
        The k-th communicator of the grid distributes the k-th axis of physical space *)
    Definition configure (bases : list base) (d : base) (gs : list (list nat)) (dt : bool)
        : option space :=
      match rev gs with
      | [] => None
      | g :: rest =>
          let k := last g 0 in
          let b := nth k bases d in
          match mk_pencil (seq 0 (length bases)) (map bs_phys bases) k with
          | None => None
          | Some p0 =>
              match plan (with_base bases d g) k b (subshape p0) dt with
              | None => None
              | Some s =>
                  let pA := if (nth k (p_shape p0) 0 =? bs_spec b) && eqb (s_pdt s) (s_sdt s)
                            then Some p0
                            else mk_pencil (p_sub p0) (lset (p_shape p0) k (bs_spec b)) k in
                  match pA with
                  | None => None
                  | Some pA =>
                      match plan_rest bases d pA (s_sdt s) rest with
                      | None => None
                      | Some (ss, ts, pe) => Some (mkSpace (s :: ss) ts p0 pe)
                      end
                  end
              end
          end
      end.

    (** ForwardTransform / ScalarTransform.__call__, tensorproductspace.py 177-183, 243-249:
        transform, redistribute, ..., transform.  [fin] is b_trunc for forward, b_cut for
        scalar_product *)
    Fixpoint run_forward (fin : base -> (nat -> V) -> nat -> V)
        (move : transfer -> buf -> (list nat -> list nat) -> bool -> option buf)
        (ss : list stage) (ts : list transfer) (x : buf) : option buf :=
      match ss with
      | [] => None
      | s :: ss =>
          let y := mkBuf (s_sshape s) (s_sdt s) (stage_forward fin s (b_dat x)) in
          match ss, ts with
          | [], [] => Some y
          | s' :: _, t :: ts =>
              match move t y (s_pshape s') (s_pdt s') with
              | None => None
              | Some z => run_forward fin move ss ts z
              end
          | _, _ => None
          end
      end.
    Fixpoint run_backward
        (move : transfer -> buf -> (list nat -> list nat) -> bool -> option buf)
        (ss : list stage) (ts : list transfer) (x : buf) : option buf :=
      match ss with
      | [] => None
      | s :: ss =>
          let y := mkBuf (s_pshape s) (s_pdt s) (stage_backward s (b_dat x)) in
          match ss, ts with
          | [], [] => Some y
          | s' :: _, t :: ts =>
              match move t y (s_sshape s') (s_sdt s') with
              | None => None
              | Some z => run_backward move ss ts z
              end
          | _, _ => None
          end
      end.

    (** self.input_array[...] = input_array: the array given has the shape of the plan *)
    Definition load (sh : list nat -> list nat) (dt : bool) (x : buf) : option buf :=
      if same_shapes (b_shape x) sh && eqb (b_dt x) dt then Some x else None.

    Definition forward (sp : space) (x : buf) : option buf :=
      match sp_stages sp with
      | [] => None
      | s :: _ =>
          match load (s_pshape s) (s_pdt s) x with
          | None => None
          | Some x => run_forward bs_trunc transfer_forward (sp_stages sp) (sp_transfers sp) x
          end
      end.
    Definition scalar_product (sp : space) (x : buf) : option buf :=
      match sp_stages sp with
      | [] => None
      | s :: _ =>
          match load (s_pshape s) (s_pdt s) x with
          | None => None
          | Some x => run_forward bs_cut transfer_forward (sp_stages sp) (sp_transfers sp) x
          end
      end.
    (** tensorproductspace.py 452-455: stages and transfers reversed, transfers backward *)
    Definition backward (sp : space) (x : buf) : option buf :=
      match rev (sp_stages sp) with
      | [] => None
      | s :: _ =>
          match load (s_sshape s) (s_sdt s) x with
          | None => None
          | Some x => run_backward transfer_backward (rev (sp_stages sp)) (rev (sp_transfers sp)) x
          end
      end.

    (** configure_backwards, tensorproductspace.py 471-541: from the pencil [p] of spectral
        space towards physical space; [gs]: self.axes (one axis each).  Stages and transfers in
        the order of the backward transform *)
    Definition dtype_in (b : base) (dt : bool) : bool :=
      match bs_kind b with R2C => false | _ => dt end.
    Definition plan_back (k : nat) (b : base) (p : pencil) (dt : bool) : option stage :=
      (* the truncated array must have the shape of the pencil *)
      if plan_ok [(k, b)] b (dtype_in b dt) && (nth k (p_shape p) 0 =? bs_spec b)
      then Some (mkStage [(k, b)] (fun c => lset (subshape p c) k (bs_phys b)) (dtype_in b dt)
                         (subshape p) dt)
      else None.
    Fixpoint plan_back_rest (bases : list base) (d : base) (pA : pencil) (dt : bool) (axes : list nat)
        : option (list stage * list transfer * pencil) :=
      match axes with
      | [] => Some ([], [], pA)
      | k :: axes =>
          let b := nth k bases d in
          match pencil_to pA k with
          | None => None
          | Some pB =>
              match mk_transfer pA pB dt, plan_back k b pB dt with
              | Some t, Some s =>
                  let pA' := if (nth k (p_shape pB) 0 =? bs_phys b) && eqb (s_pdt s) (s_sdt s)
                             then Some pB
                             else mk_pencil (p_sub pB) (lset (p_shape pB) k (bs_phys b)) k in
                  match pA' with
                  | None => None
                  | Some pA' =>
                      match plan_back_rest bases d pA' (s_pdt s) axes with
                      | None => None
                      | Some (ss, ts, pe) => Some (s :: ss, t :: ts, pe)
                      end
                  end
              | _, _ => None
              end
          end
      end.
    Definition configure_backwards (bases : list base) (d : base) (axes : list nat) (p : pencil)
        (dt : bool) : option space :=
      match axes with
      | [] => None
      | k :: rest =>
          let b := nth k bases d in
          match plan_back k b p dt with
          | None => None
          | Some s =>
              match mk_pencil (p_sub p) (lset (p_shape p) k (bs_phys b)) k with
              | None => None
              | Some pA =>
                  match plan_back_rest bases d pA (s_pdt s) rest with
                  | None => None
                  | Some (ss, ts, pe) => Some (mkSpace (s :: ss) ts pA pe)
                  end
              end
          end
      end.
    (** tensorproductspace.py 528-541 *)
    Definition padded_backward (sp : space) (x : buf) : option buf :=
      match sp_stages sp with
      | [] => None
      | s :: _ =>
          match load (s_sshape s) (s_sdt s) x with
          | None => None
          | Some x => run_backward transfer_forward (sp_stages sp) (sp_transfers sp) x
          end
      end.
    Definition padded_forward_with (fin : base -> (nat -> V) -> nat -> V)
        (move : transfer -> buf -> (list nat -> list nat) -> bool -> option buf)
        (sp : space) (x : buf) : option buf :=
      match rev (sp_stages sp) with
      | [] => None
      | s :: _ =>
          match load (s_pshape s) (s_pdt s) x with
          | None => None
          | Some x => run_forward fin move (rev (sp_stages sp)) (rev (sp_transfers sp)) x
          end
      end.
    Definition padded_forward (sp : space) (x : buf) : option buf :=
      padded_forward_with bs_trunc transfer_backward sp x.
    (** scalar_product: [o.forward for o in self.transfer[::-1]] *)
    Definition padded_scalar_product (sp : space) (x : buf) : option buf :=
      padded_forward_with bs_cut transfer_forward sp x.
  End Values.
End Grid.
