(** MDSolveModel.v -- shenfun/la.py SolverGeneric1ND (1183-1434): systems of tensor product
    matrices with one non-diagonal axis and one or two diagonal (Fourier) axes.

    The local array of one rank is modelled line by line: [u i j r] is entry r along the
    non-diagonal axis for the local wavenumber indices i, j of the two other axes.  In two
    dimensions the second diagonal axis has extent 1 and the source's u[i] is u i 0.
    Simplifications: exact arithmetic; boundary matrices (bc_mats) are empty; constraints
    are () or ((0, val),); the result is written over b (u = b, or the copy of 1338-1340 and
    1367-1369); np.broadcast_to(mat.scale, shape) is the function [t_scale].  SuperLU is
    the parameter [lu_solve]; [re] is what a float array keeps of a number (its real part). *)
From Coq Require Import Arith ZArith List Bool.
From Verif Require Import Base Fld SolversModel SparseModel.
Import ListNotations.
Local Open Scope nat_scope.

Section Model.
  Variable K : Fld.
  Variables small16 near1 is0 : K -> bool.          (* tolerance tests, see SparseModel.v *)
  Variable deq : dval K -> dval K -> bool.
  Variable lu_solve : nat -> (nat -> nat -> K) -> (nat -> K) -> (nat -> K).
  Variable re : K -> K.
  Notation vec := (nat -> K).
  Notation dia := (nat -> nat -> K).
  Notation arr := (nat -> nat -> nat -> K).

  (** one simplified TPMatrix: mat.mats[naxes] and mat.scale *)
  Record tterm := mkTerm { t_scale : nat -> nat -> K; t_mat : smat K }.

  (** la.py 1235-1241 and 1251-1258: the loop over self.mats for one line.  [if sol:] is
      false for None and for a matrix without diagonals (SparseMatrix is a Mapping). *)
  Definition line_step (i j : nat) (sol : option (smat K)) (t : tterm) : option (smat K) :=
    let m := smul K (t_mat t) (t_scale t i j) in
    match sol with
    | Some A => match sm_items K A with
                | [] => Some m
                | _ => Some (fst (iadd K small16 near1 A m))
                end
    | None => Some m
    end.
  Definition line_mat (ts : list tterm) (i j : nat) : option (smat K) :=
    fold_left (line_step i j) ts None.

  (** a solver of one line: a banded solver or the generic Solve (la.py 823-844), which
      holds a csc matrix and, once factored, SuperLU's factors of it *)
  Inductive lsol := LBand (s : solver K) | LGen (n : nat) (A : dia) (lu : bool).

  (** entry (i, j) of diags('csc') (matrixbase.py 133-166) *)
  Definition csc_entry (A : smat K) (i j : nat) : K := fmul (unscaled_entry K A i j) (sm_scale K A).

  (** la.py 17-40 Solver(sol) *)
  Definition line_solver (A : smat K) : lsol :=
    match get_solver K is0 deq A with
    | Some k => LBand (new_solver K k (sm_rows K A) (dia_data K A))
    | None => LGen (sm_rows K A) (csc_entry A) false
    end.

  (** the class chosen for line (i, j); None is the generic Solve *)
  Definition line_kind (ts : list tterm) (i j : nat) : option solver_kind :=
    match line_mat ts i j with Some A => get_solver K is0 deq A | None => None end.

  (** the object: solvers1D, _lu, _data *)
  Record g1 := mkG1 { g_line : nat -> nat -> lsol; g_lu : bool; g_data : option (nat -> nat -> dia) }.

  (** la.py 1204-1217 __init__ and 1231-1259 assemble; None when a line has no matrix *)
  Definition g1_new (ts : list tterm) : g1 :=
    mkG1 (fun i j => match line_mat ts i j with
                     | Some A => line_solver A
                     | None => LGen 0 (fun _ _ => f0) false
                     end) false None.

  (** la.py 77-129 for a csc matrix and the overrides, constraints = ((0, val),) *)
  Definition line_constrain (s : lsol) (v : K) (b : vec) : lsol * vec :=
    match s with
    | LBand s => let '(s', b') := apply_constraint0 K s v b in (LBand s', b')
    | LGen n A lu =>
        (LGen n (if lu then A
                 else fun i j => if i =? 0 then (if j =? 0 then f1 else f0) else A i j) lu,
         upd b 0 v)
    end.

  (** la.py 131-142 perform_lu of a csc matrix: nothing is done when fewer than two entries
      are left after eliminate_zeros *)
  Definition nnz (n : nat) (A : dia) : nat :=
    length (filter (fun p => negb (is0 (A (fst p) (snd p))))
              (list_prod (seq 0 n) (seq 0 n))).
  Definition line_lu (s : lsol) : lsol :=
    match s with
    | LBand s => LBand (perform_lu K s)
    | LGen n A lu => LGen n A (lu || (2 <=? nnz n A))
    end.

  (** sol.inner_solve(u, sol._inner_arg); None when _inner_arg is None *)
  Definition line_inner (s : lsol) (u : vec) : option vec :=
    match s with
    | LBand s => if s_factored s then Some (solve_of K (s_kind s) (s_n s) (s_data s) u) else None
    | LGen n A true => Some (lu_solve n A u)
    | LGen _ _ false => None
    end.

  (** replace one line *)
  Definition upd_line {A} (f : nat -> nat -> A) (i j : nat) (x : A) : nat -> nat -> A :=
    fun i' j' => if (i' =? i) && (j' =? j) then x else f i' j'.

  (** la.py 1261-1279 apply_constraints; st0, st1: local_slice().start of the diagonal axes *)
  Definition g1_constrain (st0 st1 : nat) (g : g1) (c : option K) (b : arr) : g1 * arr :=
    match c with
    | None => (g, b)
    | Some v =>
        if negb (st0 * st1 =? 0) then (g, b)
        else let '(s, b0) := line_constrain (g_line g 0 0) v (b 0 0) in
             (mkG1 (upd_line (g_line g) 0 0 s) (g_lu g) (g_data g), upd_line b 0 0 b0)
    end.

  (** la.py 1281-1294 perform_lu *)
  Definition g1_perform_lu (g : g1) : g1 :=
    if g_lu g then g else mkG1 (fun i j => line_lu (g_line g i j)) true (g_data g).

  (** la.py 1296-1318 get_data.  [data = np.zeros(... + shape of the last _inner_arg)] is a
      float array; data[i, j] = sol._inner_arg copies an array of the same shape and
      broadcasts an array with one row; other shapes raise ValueError, a tuple raises
      TypeError/ValueError and None stores nan: all None here. *)
  Definition is00 (rank0 : bool) (i j : nat) : bool := (i =? 0) && (j =? 0) && rank0.
  Definition data_entry (R : nat) (s : lsol) : option dia :=
    match s with
    | LBand s =>
        let r := length (kind_offsets (s_kind s)) in
        if negb (s_factored s) then None
        else if r =? R then Some (fun k c => re (s_data s k c))
        else if r =? 1 then Some (fun k c => re (s_data s 0 c))
        else None
    | LGen _ _ _ => None
    end.
  Definition all_lines (N0 N1 : nat) : list (nat * nat) := list_prod (seq 0 N0) (seq 0 N1).
  Definition get_data (N0 N1 : nat) (rank0 : bool) (R : nat) (g : g1) : option (nat -> nat -> dia) :=
    match g_data g with
    | Some d => Some d
    | None =>
        if forallb (fun p => is00 rank0 (fst p) (snd p) ||
                     match data_entry R (g_line g (fst p) (snd p)) with Some _ => true | None => false end)
             (all_lines N0 N1)
        then Some (fun i j => if is00 rank0 i j then (fun _ _ => f0)
                              else match data_entry R (g_line g i j) with
                                   | Some d => d | None => (fun _ _ => f0) end)
        else None
    end.

  (** la.py 1320-1362 solve_data and fast_solve.  [rank0] is comm.Get_rank() == 0 of
      COMM_WORLD.  sol1 is the solver of the last line, [k1] its class. *)
  Definition fast_solve (N0 N1 : nat) (rank0 : bool) (g : g1) (u : arr) : option (g1 * arr) :=
    match g_line g (N0 - 1) (N1 - 1) with
    | LGen _ _ _ => None
    | LBand s1 =>
        if negb (s_factored s1) then None
        else
          match (if rank0 then line_inner (g_line g 0 0) (u 0 0) else Some (u 0 0)) with
          | None => None
          | Some l0 =>
              match get_data N0 N1 rank0 (length (kind_offsets (s_kind s1))) g with
              | None => None
              | Some data =>
                  Some (mkG1 (g_line g) (g_lu g) (Some data),
                        fun i j => if is00 rank0 i j then l0
                                   else if (i <? N0) && (j <? N1)
                                   then solve_of K (s_kind s1) (s_n s1) (data i j) (u i j)
                                   else u i j)
              end
          end
    end.

  (** la.py 1364-1387 solve *)
  Definition slow_solve (N0 N1 : nat) (g : g1) (u : arr) : arr :=
    fun i j => if (i <? N0) && (j <? N1)
               then match line_inner (g_line g i j) (u i j) with Some l => l | None => u i j end
               else u i j.

  (** la.py 1389-1434 __call__ *)
  Definition g1_call (N0 N1 : nat) (rank0 : bool) (st0 st1 : nat) (fast : bool)
      (g : g1) (c : option K) (b : arr) : option (g1 * arr) :=
    let '(g, b) := g1_constrain st0 st1 g c b in
    let g := g1_perform_lu g in
    let fast := match g_line g (N0 - 1) (N1 - 1) with LGen _ _ true => false | _ => fast end in
    if fast then fast_solve N0 N1 rank0 g b
    else Some (g, slow_solve N0 N1 g b).

  (** a history of calls of one object: the last result *)
  Fixpoint g1_calls (N0 N1 : nat) (rank0 : bool) (st0 st1 : nat) (fast : bool)
      (g : g1) (h : list (option K * arr)) (c : option K) (b : arr) : option arr :=
    match h with
    | [] => option_map snd (g1_call N0 N1 rank0 st0 st1 fast g c b)
    | (c', b') :: h =>
        match g1_call N0 N1 rank0 st0 st1 fast g c' b' with
        | None => None
        | Some (g', _) => g1_calls N0 N1 rank0 st0 st1 fast g' h c b
        end
    end.
End Model.
