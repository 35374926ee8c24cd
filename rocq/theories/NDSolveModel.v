(** NDSolveModel.v -- shenfun/la.py Solver2D, Solver3D, SolverND (1051-1181) and
    SolverGeneric2ND (846-1021), with matrixbase.py TPMatrix.diags (1615-1646).

    Arrays are functions of index lists; [ds] is space.dims() and base.slice() is
    slice(0, dim) on every axis.  Simplifications: exact arithmetic, one process; a complex
    right hand side with a real matrix, solved part by part (1119-1121, 1000-1001, 1016-1017),
    is one solution over the complex field; u and b are different arrays or there are no
    boundary matrices; scipy's sparse matrices are functions of row and column.  SuperLU is
    the parameter [lu_solve]. *)
From Coq Require Import Arith ZArith List Bool.
From Verif Require Import Base Fld SparseModel MDSolveModel.
Import ListNotations.
Local Open Scope nat_scope.

Section Model.
  Variable K : Fld.
  Variable lu_solve : nat -> (nat -> nat -> K) -> (nat -> K) -> (nat -> K).
  Notation vec := (nat -> K).
  Notation dia := (nat -> nat -> K).
  Notation arr := (list nat -> K).

  (** numpy's flatten and reshape: row-major order *)
  Fixpoint prod (ds : list nat) : nat := match ds with [] => 1 | d :: ds => d * prod ds end.
  Fixpoint flat (ds idx : list nat) : nat :=
    match ds, idx with
    | _ :: ds, i :: idx => i * prod ds + flat ds idx
    | _, _ => 0
    end.
  Fixpoint unflat (ds : list nat) (k : nat) : list nat :=
    match ds with [] => [] | _ :: ds => (k / prod ds) :: unflat ds (k mod prod ds) end.
  (** is the index in the slices s0? *)
  Fixpoint inside (ds idx : list nat) : bool :=
    match ds, idx with
    | [], [] => true
    | d :: ds, i :: idx => (i <? d) && inside ds idx
    | _, _ => false
    end.
  (** b[s0].flatten() *)
  Definition flatten (ds : list nat) (b : arr) : vec := fun k => b (unflat ds k).
  (** u[s0] = x.reshape(dims) *)
  Definition put (ds : list nat) (u : arr) (x : vec) : arr :=
    fun idx => if inside ds idx then x (flat ds idx) else u idx.

  (** a scipy sparse matrix, and scipy.sparse.kron *)
  Record smx := mkSmx { x_rows : nat; x_cols : nat; x_e : dia }.
  Definition csc (A : smat K) : smx := mkSmx (sm_rows K A) (sm_cols K A) (csc_entry K A).
  Definition skron (A B : smx) : smx :=
    mkSmx (x_rows A * x_rows B) (x_cols A * x_cols B)
      (fun i j => fmul (x_e A (i / x_rows B) (j / x_cols B)) (x_e B (i mod x_rows B) (j mod x_cols B))).

  (** a TPMatrix with a scalar scale *)
  Record ndterm := mkNd { nd_scale : K; nd_mats : list (smat K) }.
  (** matrixbase.py 1615-1646 diags: nested kron, times scale.item() *)
  Fixpoint kron_diags (ms : list (smat K)) : smx :=
    match ms with
    | [] => mkSmx 1 1 (fun _ _ => f1)
    | [A] => csc A
    | A :: ms => skron (csc A) (kron_diags ms)
    end.
  Definition tp_diags (t : ndterm) : dia := fun i j => fmul (x_e (kron_diags (nd_mats t)) i j) (nd_scale t).

  (** la.py 1076-1079 (and 898-902): sum over the terms *)
  Definition nd_mat (ts : list ndterm) : dia :=
    match ts with
    | [] => fun _ _ => f0
    | t :: ts => fold_left (fun m t => fun i j => fadd (m i j) (tp_diags t i j)) ts (tp_diags t)
    end.

  (** la.py 1087-1097 Solver2D.apply_constraints *)
  Definition pin_row (A : dia) (row : nat) : dia :=
    fun i j => if i =? row then (if j =? row then f1 else f0) else A i j.
  Definition nd_constrain (A : dia) (b : vec) (cs : list (nat * K)) : dia * vec :=
    fold_left (fun Ab rv => (pin_row (fst Ab) (fst rv), upd (snd Ab) (fst rv) (snd rv))) cs (A, b).

  (** the object: mat, and the matrix that _lu was made of *)
  Record ndsolver := mkNs { ns_mat : dia; ns_lu : option dia }.
  Definition nd_new (ts : list ndterm) : ndsolver := mkNs (nd_mat ts) None.

  (** boundary values: set_boundary_dofs writes [gval] at the boundary indices; nothing
      when u is no Function *)
  Definition set_bnd (bnd : list nat -> bool) (gval : arr) (u : arr) : arr :=
    fun idx => if bnd idx then gval idx else u idx.

  (** la.py 1099-1139 Solver2D.__call__; [bcs]: matvec of the boundary matrices *)
  Definition nd_call (ds : list nat) (bnd : list nat -> bool) (gval : arr) (bcs : list (arr -> arr))
      (g : ndsolver) (cs : list (nat * K)) (b u : arr) : ndsolver * arr :=
    let u := match bcs with [] => u | _ => set_bnd bnd gval u end in
    let b := fold_left (fun b bc => fun idx => fsub (b idx) (bc u idx)) bcs b in
    let bs := flatten ds b in
    let '(A, bs) := nd_constrain (ns_mat g) bs cs in
    let L := match ns_lu g with Some L => L | None => A end in
    let u := put ds u (lu_solve (prod ds) L bs) in
    (mkNs A (Some L), set_bnd bnd gval u).

  (** a history of calls of one object: the last result *)
  Fixpoint nd_calls (ds : list nat) bnd gval bcs (g : ndsolver) (h : list (list (nat * K) * arr * arr))
      (cs : list (nat * K)) (b u : arr) : arr :=
    match h with
    | [] => snd (nd_call ds bnd gval bcs g cs b u)
    | (cs', b', u') :: h => nd_calls ds bnd gval bcs (fst (nd_call ds bnd gval bcs g cs' b' u')) h cs b u
    end.

  (** ** SolverGeneric2ND.  In two dimensions [diag] is None; in three it is the diagonal
      axis, whose mats are identities after simplification *)
  Record g2term := mkG2t { g2_scale : nat -> K; g2_A0 : smat K; g2_A1 : smat K }.
  (** la.py 882-925 diags(i); in two dimensions scale is g2_scale 0 and i = 0 *)
  Definition g2_tp (i : nat) (t : g2term) : dia :=
    fun r c => fmul (x_e (skron (csc (g2_A0 t)) (csc (g2_A1 t))) r c) (g2_scale t i).
  Definition g2_diags (ts : list g2term) (i : nat) : dia :=
    match ts with
    | [] => fun _ _ => f0
    | t :: ts => fold_left (fun m t => fun r c => fadd (m r c) (g2_tp i t r c)) ts (g2_tp i t)
    end.
  (** the object: mats2D and _lu *)
  Record g2 := mkG2 { g2_mats : option (nat -> dia); g2_lu : option (nat -> dia) }.
  Definition g2_new : g2 := mkG2 None None.
  (** la.py 942-955 assemble *)
  Definition g2_assemble (ts : list g2term) (g : g2) : nat -> dia :=
    match g2_mats g with Some M => M | None => g2_diags ts end.
  (** la.py 927-940 apply_constraints: [b[row] = val] on the whole array b *)
  Definition set_slab (b : arr) (row : nat) (v : K) : arr :=
    fun idx => match idx with i :: _ => if i =? row then v else b idx | [] => b idx end.
  Definition g2_constrain (M : nat -> dia) (lu : option (nat -> dia)) (b : arr) (cs : list (nat * K)) : (nat -> dia) * arr :=
    (match lu with
     | Some _ => M
     | None => fun i => if i =? 0 then fold_left (fun A rv => pin_row A (fst rv)) cs (M 0) else M i
     end,
     fold_left (fun b rv => set_slab b (fst rv) (snd rv)) cs b).

  (** the index of an array: place i on the diagonal axis between the other two *)
  Definition g2_index (diag : option nat) (i r c : nat) : list nat :=
    match diag with
    | None => [r; c]
    | Some 0 => [i; r; c] | Some 1 => [r; i; c] | Some _ => [r; c; i]
    end.
  Definition g2_split (diag : option nat) (idx : list nat) : option (nat * nat * nat) :=
    match diag, idx with
    | None, [r; c] => Some (0, r, c)
    | Some 0, [i; r; c] => Some (i, r, c)
    | Some 1, [r; i; c] => Some (i, r, c)
    | Some (S (S _)), [r; c; i] => Some (i, r, c)
    | _, _ => None
    end.
  (** la.py 970-1021 __call__ without boundary matrices; N: extent of the diagonal axis (1 in
      two dimensions), d0 x d1 the dimensions of the others *)
  Definition g2_call (diag : option nat) (N d0 d1 : nat) (ts : list g2term) (g : g2)
      (cs : list (nat * K)) (b u : arr) : g2 * arr :=
    let M := g2_assemble ts g in
    let '(M, b) := g2_constrain M (g2_lu g) b cs in
    let L := match g2_lu g with Some L => L | None => M end in
    (mkG2 (Some M) (Some L),
     fun idx => match g2_split diag idx with
       | Some (i, r, c) =>
           if (i <? N) && (r <? d0) && (c <? d1)
           then lu_solve (d0 * d1) (L i) (fun k => b (g2_index diag i (k / d1) (k mod d1))) (r * d1 + c)
           else u idx
       | None => u idx
       end).
  Fixpoint g2_calls (diag : option nat) (N d0 d1 : nat) (ts : list g2term) (g : g2)
      (h : list (list (nat * K) * arr * arr)) (cs : list (nat * K)) (b u : arr) : arr :=
    match h with
    | [] => snd (g2_call diag N d0 d1 ts g cs b u)
    | (cs', b', u') :: h => g2_calls diag N d0 d1 ts (fst (g2_call diag N d0 d1 ts g cs' b' u')) h cs b u
    end.
End Model.
