(** PencilSpec.v -- what distributed tensor product transforms should do. *)
From Coq Require Import Arith List Bool Lia Permutation.
From Verif Require Import Base Fld PencilModel.
Import ListNotations.
Local Open Scope nat_scope.

(** a process of the grid *)
Definition on_grid (dims c : list nat) : Prop :=
  length c = length dims /\ forall i, i < length dims -> nth i c 0 < nth i dims 1.

(** an index of an array of shape [sh] *)
Definition inside (sh idx : list nat) : Prop :=
  length idx = length sh /\ forall i, i < length sh -> nth i idx 0 < nth i sh 0.

(** the place, in the global array, of local index [idx] of process [c] *)
Definition global_index (dims : list nat) (p : pencil) (c idx : list nat) : list nat :=
  map (fun i => pstart dims p c i + nth i idx 0) (seq 0 (length (p_shape p))).

Section Spec.
  Context {V : Type}.
  Notation garr := (list nat -> V).

  (** the processes hold the global array [g], each its own block *)
  Definition distributed (dims : list nat) (p : pencil) (x : @buf V) (g : garr) : Prop :=
    (forall c, on_grid dims c -> b_shape x c = subshape dims p c) /\
    (forall c idx, on_grid dims c -> inside (subshape dims p c) idx ->
       b_dat x c idx = g (global_index dims p c idx)).

  (** a transform of lines that looks at the first [n] entries only *)
  Definition depends (n : nat) (F : (nat -> V) -> nat -> V) : Prop :=
    forall l l', (forall j, j < n -> l j = l' j) -> forall i, F l i = F l' i.
  Definition base_ok (b : @base V) : Prop :=
    depends (bs_phys b) (bs_raw b) /\ depends (bs_mid b) (bs_trunc b) /\
    depends (bs_mid b) (bs_cut b) /\ depends (bs_spec b) (bs_pad b) /\
    depends (bs_mid b) (bs_eval b).
  (** a Fourier base without padding, masking (2/3-rule) and mass matrix *)
  Definition plain (b : @base V) : Prop :=
    bs_mid b = bs_spec b /\ (bs_kind b = C2C -> bs_phys b = bs_spec b) /\
    forall l i, bs_trunc b l i = l i /\ bs_cut b l i = l i /\ bs_pad b l i = l i.

  (** the three transforms of one line by a function space on its own *)
  Definition line_forward (b : @base V) (l : nat -> V) : nat -> V := bs_trunc b (bs_raw b l).
  Definition line_scalar_product (b : @base V) (l : nat -> V) : nat -> V := bs_cut b (bs_raw b l).
  Definition line_backward (b : @base V) (l : nat -> V) : nat -> V := bs_eval b (bs_pad b l).

  (** one line transform for every axis, in the given order *)
  Definition tensor (T : @base V -> (nat -> V) -> nat -> V) (bases : list base) (d : base)
      (axes : list nat) (g : garr) : garr :=
    fold_left (fun g k => along k (T (nth k bases d)) g) axes g.

  (** axes (last one transformed first) in which real to complex transforms come first *)
  Definition r2c_first (bases : list (@base V)) (d : base) (axes : list nat) : Prop :=
    forall k, In k (removelast axes) -> bs_kind (nth k bases d) <> R2C.

  (** a tensor product space that makes sense: one basis for every axis, [axes] a permutation
      of the axes, serial transforms that look at their own line only, and at least one process
      in every communicator.  Collapsed Fourier transforms use no 2/3-rule *)
  Record setup (dims : list nat) (bases : list (@base V)) (d : base) (axes : list nat) (coll : bool) : Prop := {
    su_len : length bases = length dims;
    su_some : dims <> [];
    su_perm : Permutation axes (seq 0 (length dims));
    su_base : forall b, In b bases -> base_ok b;
    su_coll : coll = true ->
      (forall b, In b bases -> is_fourier b = true -> plain b) /\ r2c_first bases d axes }.

  (** real to complex transforms get real data, complex to complex ones complex data, when the
      transforms run in the order [l] on data of type [dt] *)
  Fixpoint dtypes_ok (bases : list (@base V)) (d : base) (dt : bool) (l : list nat) : Prop :=
    match l with
    | [] => True
    | k :: l =>
        match bs_kind (nth k bases d) with R2C => dt = false | C2C => dt = true | Poly => True end /\
        dtypes_ok bases d (dtype_out (nth k bases d) dt) l
    end.

  (** backward undoes forward on one line (for real data if the transform is real to complex);
      real data stay real under a transform that is not a Fourier transform *)
  Definition undoes (real : V -> Prop) (b : @base V) : Prop :=
    forall l, (bs_kind b = R2C -> forall j, j < bs_phys b -> real (l j)) ->
      forall i, i < bs_phys b -> line_backward b (line_forward b l) i = l i.
  Definition keeps_real (real : V -> Prop) (b : @base V) : Prop :=
    bs_kind b = Poly -> forall l, (forall j, j < bs_phys b -> real (l j)) ->
      forall i, i < bs_spec b -> real (line_forward b l i).

  (** no axis has fewer entries than a communicator has processes *)
  Definition roomy (dims sh : list nat) : Prop :=
    length sh = length dims /\
    forall i j, i < length dims -> j < length dims -> nth j dims 1 <= nth i sh 0.
End Spec.

(** sum_{j_0 < n_0, ..., j_{d-1} < n_{d-1}} M_0[i_0,j_0] ... M_{d-1}[i_{d-1},j_{d-1}] v[j_0,...,j_{d-1}] *)
Fixpoint matrix_transform {K : Fld} (ms : list (nat * (nat -> nat -> K))) (v : list nat -> K)
    (idx : list nat) : K :=
  match ms, idx with
  | [], [] => v []
  | (n, M) :: ms, i :: idx =>
      fsum n (fun j => fmul (M i j) (matrix_transform ms (fun r => v (j :: r)) idx))
  | _, _ => f0
  end.
