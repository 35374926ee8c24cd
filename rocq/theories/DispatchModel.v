(** DispatchModel.v -- shenfun/optimization/__init__.py: the choice of an implementation at
    runtime, and the tables of functions it chooses from.

    A function is described by its __name__, its __qualname__, the numbers of positional
    arguments it must and may be given, and what its Python body does.  The tables list every
    function decorated with runtimeoptimizer and the functions in the namespaces of the two
    backends.  Simplifications: the other names of those namespaces (np, nb, the submodules) are
    left out, none of them is the name of a decorated function; arguments given by keyword count
    as positional; the verbose switch (only prints) is left out. *)
From Coq Require Import String Ascii List Bool Arith.
Import ListNotations.
Local Open Scope string_scope.

(** what the Python body of a decorated function does *)
Inductive body := Works | Raises | Noop.
Record fn := mkFn { f_name : string; f_qual : string; f_req : nat; f_max : nat; f_body : body }.
(** a backend module: name -> (least, largest) number of positional arguments *)
Definition namespace := list (string * (nat * nat)).

(** getattr(mod, name, func) on a module that may be missing: 14-17 cython = None *)
Fixpoint find (k : string) (l : namespace) : option (nat * nat) :=
  match l with [] => None | (k', x) :: r => if String.eqb k k' then Some x else find k r end.
Definition getattr (m : option namespace) (k : string) : option (nat * nat) :=
  match m with None => None | Some l => find k l end.

(** mod.lower() on ASCII letters *)
Definition lower_ascii (a : ascii) : ascii :=
  let n := nat_of_ascii a in if (65 <=? n)%nat && (n <=? 90)%nat then ascii_of_nat (n + 32) else a.
Fixpoint lower (s : string) : string :=
  match s with EmptyString => EmptyString | String a r => String (lower_ascii a) (lower r) end.
(** func.__qualname__.replace('.', '_') *)
Fixpoint dots (s : string) : string :=
  match s with EmptyString => EmptyString | String a r => String (if Ascii.eqb a "." then "_"%char else a) (dots r) end.

(** what is called in the end: the Python function or the function of that name in the backend *)
Inductive callee := Py (f : fn) | Opt (name : string) (arity : nat * nat).

(** optimization/__init__.py 68-75: cython and numba are the imported modules *)
Definition optimizer (cython numba : option namespace) (mode : string) (f : fn) : callee :=
  let m := lower mode in
  if negb (String.eqb m "cython") && negb (String.eqb m "numba") then Py f
  else
    let md := if String.eqb m "cython" then cython else numba in
    match getattr md (f_name f) with
    | Some a => Opt (f_name f) a
    | None => match getattr md (dots (f_qual f)) with
              | Some a => Opt (dots (f_qual f)) a
              | None => Py f
              end
    end.

(** a call with k positional arguments *)
Inductive outcome := Runs | ArgumentError | NotImplemented | NoEffect.
Definition call (c : callee) (k : nat) : outcome :=
  match c with
  | Py f => if (f_req f <=? k)%nat && (k <=? f_max f)%nat
            then match f_body f with Works => Runs | Raises => NotImplemented | Noop => NoEffect end
            else ArgumentError
  | Opt _ (a, b) => if (a <=? k)%nat && (k <=? b)%nat then Runs else ArgumentError
  end.

(** 37-45 runtimeoptimizer: the configuration is read at every call; a session is a sequence of
    assignments to config['optimization']['mode'] and of calls *)
Inductive event := SetMode (m : string) | Call (f : fn).
Fixpoint session (cython numba : option namespace) (mode : string) (h : list event) : list callee :=
  match h with
  | [] => []
  | SetMode m :: r => session cython numba m r
  | Call f :: r => optimizer cython numba mode f :: session cython numba mode r
  end.

(** chebyshev/bases.py 95 chebval = optimizer(n_cheb.chebval): the mode is read once, when the
    module is imported *)
Definition n_chebval := mkFn "chebval" "chebval" 2 3 Works.
Fixpoint chebval_session (at_import : string) (cython numba : option namespace) (h : list event) : list callee :=
  match h with
  | [] => []
  | SetMode m :: r => chebval_session at_import cython numba r
  | Call _ :: r => optimizer cython numba at_import n_chebval :: chebval_session at_import cython numba r
  end.

(** la.py: the classes with a method inner_solve(u, data) of their own (318, 373, 428, 518, 591,
    643, 690, 789), whose optimized version SolverGeneric1ND.fast_solve looks up (1363);
    SparseMatrixSolver.inner_solve (192) has a tuple as data and goes to solve() (1427-1429) *)
Definition inner_solvers : list fn :=
  map (fun c => mkFn "inner_solve" (c ++ ".inner_solve") 2 2 Works)
      ["DiagMA"; "TDMA"; "TDMA_O"; "PDMA"; "FDMA"; "TwoDMA"; "ThreeDMA"; "HeptaDMA"].
(** optimization/cython/la.pyx 307-325 func_from_name: NULL for every other name *)
Definition func_from_name (n : string) : bool :=
  existsb (String.eqb n) ["PDMA_inner_solve"; "TDMA_inner_solve"; "TDMA_O_inner_solve"; "FDMA_inner_solve";
                          "ThreeDMA_inner_solve"; "TwoDMA_inner_solve"; "DiagMA_inner_solve"; "HeptaDMA_inner_solve"].

(** every function decorated with runtimeoptimizer: file and line *)
Definition decorated : list fn :=
  [ mkFn "Poisson_Solve_ADD" "ADDSolver.Poisson_Solve_ADD" 3 4 Works (* chebyshev/la.py 28 *);
    mkFn "LU_Helmholtz" "Helmholtz.LU_Helmholtz" 9 10 Raises (* chebyshev/la.py 280 *);
    mkFn "Solve_Helmholtz" "Helmholtz.Solve_Helmholtz" 7 8 Raises (* chebyshev/la.py 285 *);
    mkFn "Helmholtz_matvec" "Helmholtz.Helmholtz_matvec" 6 7 Raises (* chebyshev/la.py 345 *);
    mkFn "Helmholtz_Neumann_matvec" "Helmholtz.Helmholtz_Neumann_matvec" 6 7 Raises (* chebyshev/la.py 350 *);
    mkFn "LU_Biharmonic" "Biharmonic.LU_Biharmonic" 20 20 Raises (* chebyshev/la.py 506 *);
    mkFn "Biharmonic_factor_pr" "Biharmonic.Biharmonic_factor_pr" 5 5 Raises (* chebyshev/la.py 512 *);
    mkFn "Biharmonic_Solve" "Biharmonic.Biharmonic_Solve" 11 11 Raises (* chebyshev/la.py 517 *);
    mkFn "Biharmonic_matvec" "Biharmonic.Biharmonic_matvec" 16 17 Raises (* chebyshev/la.py 522 *);
    mkFn "Solve" "DiagMA.Solve" 3 3 Works (* la.py 324 *);
    mkFn "LU" "TDMA.LU" 1 1 Works (* la.py 346 *);
    mkFn "Solve" "TDMA.Solve" 3 3 Works (* la.py 388 *);
    mkFn "LU" "TDMA_O.LU" 1 1 Works (* la.py 418 *);
    mkFn "Solve" "TDMA_O.Solve" 3 3 Works (* la.py 442 *);
    mkFn "LU" "PDMA.LU" 1 1 Works (* la.py 482 *);
    mkFn "Solve" "PDMA.Solve" 3 3 Works (* la.py 538 *);
    mkFn "LU" "FDMA.LU" 1 1 Works (* la.py 566 *);
    mkFn "Solve" "FDMA.Solve" 3 3 Works (* la.py 608 *);
    mkFn "Solve" "TwoDMA.Solve" 3 3 Works (* la.py 654 *);
    mkFn "Solve" "ThreeDMA.Solve" 3 3 Works (* la.py 704 *);
    mkFn "LU" "HeptaDMA.LU" 1 1 Works (* la.py 745 *);
    mkFn "Solve" "HeptaDMA.Solve" 3 3 Works (* la.py 815 *);
    mkFn "solve_data" "SolverGeneric1ND.solve_data" 5 5 Works (* la.py 1323 *);
    mkFn "leg2cheb" "leg2cheb" 1 4 Works (* legendre/dlt.py 353 *);
    mkFn "cheb2leg" "cheb2leg" 1 3 Works (* legendre/dlt.py 423 *);
    mkFn "restricted_product" "restricted_product" 9 9 Works (* legendre/dlt.py 708 *);
    mkFn "_cheb2leg" "_cheb2leg" 4 4 Noop (* legendre/dlt.py 1191 *);
    mkFn "_leg2cheb" "_leg2cheb" 4 4 Noop (* legendre/dlt.py 1195 *);
    mkFn "FMMdirect1" "FMMdirect1" 6 6 Works (* legendre/dlt.py 1199 *);
    mkFn "FMMdirect2" "FMMdirect2" 8 8 Works (* legendre/dlt.py 1209 *);
    mkFn "FMMdirect3" "FMMdirect3" 8 8 Works (* legendre/dlt.py 1227 *);
    mkFn "FMMdirect4" "FMMdirect4" 6 6 Works (* legendre/dlt.py 1238 *);
    mkFn "FMMcheb" "FMMcheb" 14 14 Works (* legendre/dlt.py 1245 *);
    mkFn "cross2D" "cross2D" 3 3 Works (* utilities/__init__.py 199 *);
    mkFn "cross3D" "cross3D" 3 3 Works (* utilities/__init__.py 203 *);
    mkFn "crossND" "crossND" 3 3 Works (* utilities/__init__.py 209 *);
    mkFn "outer2D" "outer2D" 4 4 Works (* utilities/__init__.py 235 *);
    mkFn "outer3D" "outer3D" 4 4 Works (* utilities/__init__.py 245 *);
    mkFn "apply_mask" "apply_mask" 2 2 Works (* utilities/__init__.py 441 *) ].

(** optimization/cython/__init__.py: the imported functions, with file and line *)
Definition cython_ns : namespace :=
  [ ("TDMA_LU", (1, 1)) (* la.pyx 243 *);
    ("TDMA_Solve", (3, 3)) (* la.pyx 77 *);
    ("PDMA_LU", (1, 1)) (* la.pyx 213 *);
    ("PDMA_Solve", (3, 3)) (* la.pyx 61 *);
    ("LU_Helmholtz", (10, 10)) (* la.pyx 708 *);
    ("Solve_Helmholtz", (8, 8)) (* la.pyx 845 *);
    ("LU_Biharmonic", (20, 20)) (* la.pyx 975 *);
    ("Biharmonic_factor_pr", (5, 5)) (* la.pyx 1195 *);
    ("Biharmonic_Solve", (10, 11)) (* la.pyx 1235 *);
    ("TDMA_O_Solve", (3, 3)) (* la.pyx 93 *);
    ("TDMA_O_LU", (1, 1)) (* la.pyx 254 *);
    ("Poisson_Solve_ADD", (3, 4)) (* la.pyx 614 *);
    ("FDMA_Solve", (3, 3)) (* la.pyx 165 *);
    ("TwoDMA_Solve", (3, 3)) (* la.pyx 45 *);
    ("ThreeDMA_Solve", (3, 3)) (* la.pyx 29 *);
    ("FDMA_LU", (1, 1)) (* la.pyx 199 *);
    ("DiagMA_Solve", (3, 3)) (* la.pyx 109 *);
    ("TDMA_inner_solve", (2, 2)) (* la.pyx 516 *);
    ("TDMA_O_inner_solve", (2, 2)) (* la.pyx 534 *);
    ("DiagMA_inner_solve", (2, 2)) (* la.pyx 582 *);
    ("PDMA_inner_solve", (2, 2)) (* la.pyx 492 *);
    ("FDMA_inner_solve", (2, 2)) (* la.pyx 592 *);
    ("TwoDMA_inner_solve", (2, 2)) (* la.pyx 551 *);
    ("ThreeDMA_inner_solve", (2, 2)) (* la.pyx 565 *);
    ("HeptaDMA_inner_solve", (2, 2)) (* la.pyx 462 *);
    ("HeptaDMA_Solve", (3, 3)) (* la.pyx 181 *);
    ("HeptaDMA_LU", (1, 1)) (* la.pyx 265 *);
    ("SolverGeneric1ND_solve_data", (5, 5)) (* la.pyx 371 *);
    ("Helmholtz_matvec", (7, 7)) (* Matvec.pyx 697 *);
    ("Helmholtz_Neumann_matvec", (7, 7)) (* Matvec.pyx 769 *);
    ("Biharmonic_matvec", (16, 17)) (* Matvec.pyx 908 *);
    ("outer2D", (4, 4)) (* outer.pyx 13 *);
    ("outer3D", (4, 4)) (* outer.pyx 31 *);
    ("apply_mask", (2, 2)) (* applymask.pyx 15 *);
    ("chebval", (2, 2)) (* Cheb.pyx 12 *);
    ("evaluate_expansion_all", (5, 5)) (* transforms.pyx 199 *);
    ("scalar_product", (6, 6)) (* transforms.pyx 175 *);
    ("leg2cheb", (2, 4)) (* transforms.pyx 569 *);
    ("cheb2leg", (2, 3)) (* transforms.pyx 544 *);
    ("restricted_product", (9, 9)) (* transforms.pyx 136 *);
    ("FMMcheb", (14, 14)) (* transforms.pyx 688 *);
    ("FMMdirect1", (6, 6)) (* transforms.pyx 889 *);
    ("FMMdirect2", (8, 8)) (* transforms.pyx 943 *);
    ("FMMdirect3", (8, 8)) (* transforms.pyx 1006 *);
    ("FMMdirect4", (6, 6)) (* transforms.pyx 1085 *);
    ("_leg2cheb", (4, 4)) (* transforms.pyx 528 *);
    ("_cheb2leg", (4, 4)) (* transforms.pyx 540 *);
    ("Lambda", (1, 1)) (* transforms.pyx 482 *);
    ("evaluate_2D", (6, 6)) (* evaluate.pyx 24 *);
    ("evaluate_3D", (6, 6)) (* evaluate.pyx 176 *);
    ("evaluate_lm_2D", (10, 10)) (* evaluate.pyx 529 *);
    ("evaluate_lm_3D", (12, 12)) (* evaluate.pyx 725 *);
    ("convolve_1D", (4, 4)) (* convolve.pyx 9 *);
    ("convolve_real_1D", (4, 4)) (* convolve.pyx 34 *) ].

(** optimization/numba/__init__.py 3-14 (the names in the __all__ of the submodules) and its own
    functions.  The functions decorated with NDim (transforms.py 13-26) take axis in addition. *)
Definition numba_ns : namespace :=
  [ ("DiagMA_inner_solve", (2, 2)) (* diagma.py 25 *);
    ("DiagMA_Solve", (2, 3)) (* diagma.py 7 *);
    ("ThreeDMA_Solve", (2, 3)) (* threedma.py 7 *);
    ("ThreeDMA_inner_solve", (2, 2)) (* threedma.py 25 *);
    ("TwoDMA_Solve", (2, 3)) (* twodma.py 7 *);
    ("TwoDMA_inner_solve", (2, 2)) (* twodma.py 25 *);
    ("TDMA_LU", (1, 1)) (* tdma.py 44 *);
    ("TDMA_Solve", (2, 3)) (* tdma.py 9 *);
    ("TDMA_O_LU", (1, 1)) (* tdma.py 54 *);
    ("TDMA_O_Solve", (2, 3)) (* tdma.py 26 *);
    ("TDMA_inner_solve", (2, 2)) (* tdma.py 64 *);
    ("TDMA_O_inner_solve", (2, 2)) (* tdma.py 77 *);
    ("PDMA_LU", (1, 1)) (* pdma.py 8 *);
    ("PDMA_Solve", (2, 3)) (* pdma.py 38 *);
    ("PDMA_inner_solve", (2, 2)) (* pdma.py 56 *);
    ("FDMA_LU", (1, 1)) (* fdma.py 8 *);
    ("FDMA_Solve", (2, 3)) (* fdma.py 20 *);
    ("FDMA_inner_solve", (2, 2)) (* fdma.py 38 *);
    ("HeptaDMA_LU", (1, 1)) (* heptadma.py 8 *);
    ("HeptaDMA_Solve", (2, 3)) (* heptadma.py 46 *);
    ("HeptaDMA_inner_solve", (2, 2)) (* heptadma.py 64 *);
    ("SolverGeneric1ND_solve_data", (5, 5)) (* la.py 8 *);
    ("Solve_axis_2D", (4, 4)) (* la.py 46 *);
    ("Solve_axis_3D", (4, 4)) (* la.py 55 *);
    ("Solve_axis_4D", (4, 4)) (* la.py 70 *);
    ("LU_Helmholtz", (10, 10)) (* helmholtz.py 10 *);
    ("Solve_Helmholtz", (8, 8)) (* helmholtz.py 22 *);
    ("Helmholtz_matvec", (7, 7)) (* helmholtz.py 274 *);
    ("Helmholtz_Neumann_matvec", (7, 7)) (* helmholtz.py 375 *);
    ("Poisson_Solve_ADD", (3, 4)) (* helmholtz.py 388 *);
    ("Poisson_Solve_ADD_1D", (5, 5)) (* helmholtz.py 399 *);
    ("ANN_matvec", (3, 4)) (* helmholtz.py 489 *);
    ("LU_Biharmonic", (20, 20)) (* biharmonic.py 7 *);
    ("Biharmonic_factor_pr", (5, 5)) (* biharmonic.py 240 *);
    ("Biharmonic_Solve", (10, 11)) (* biharmonic.py 248 *);
    ("Biharmonic_matvec", (17, 17)) (* biharmonic.py 440 *);
    ("chebval", (2, 2)) (* chebyshev.py 6 *);
    ("scalar_product", (6, 6)) (* transforms.py 93 *);
    ("evaluate_expansion_all", (5, 5)) (* transforms.py 112 *);
    ("cheb2leg", (1, 3)) (* transforms.py 293 *);
    ("leg2cheb", (1, 4)) (* transforms.py 255 *);
    ("restricted_product", (9, 9)) (* transforms.py 131 *);
    ("_leg2cheb", (5, 5)) (* transforms.py 236 *);
    ("FMMdirect1", (6, 6)) (* transforms.py 326 *);
    ("FMMdirect2", (8, 8)) (* transforms.py 339 *);
    ("FMMdirect3", (8, 8)) (* transforms.py 355 *);
    ("FMMdirect4", (6, 6)) (* transforms.py 367 *);
    ("crossND", (3, 3)) (* __init__.py 17 *);
    ("cross2D", (3, 3)) (* __init__.py 24 *);
    ("cross3D", (3, 3)) (* __init__.py 34 *);
    ("outer2D", (4, 4)) (* __init__.py 49 *);
    ("outer3D", (4, 4)) (* __init__.py 68 *);
    ("apply_mask", (2, 2)) (* __init__.py 98 *);
    ("apply_mask_1D", (2, 2)) (* __init__.py 129 *);
    ("apply_mask_2D", (2, 2)) (* __init__.py 136 *);
    ("apply_mask_3D", (2, 2)) (* __init__.py 144 *);
    ("apply_mask_4D", (2, 2)) (* __init__.py 153 *);
    ("apply_bmask_1D", (2, 2)) (* __init__.py 163 *);
    ("apply_bmask_2D", (2, 2)) (* __init__.py 171 *);
    ("apply_bmask_3D", (2, 2)) (* __init__.py 180 *);
    ("apply_bmask_4D", (2, 2)) (* __init__.py 190 *);
    ("apply_bxmask", (2, 2)) (* __init__.py 202 *) ].
