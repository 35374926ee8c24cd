(** AxesModel.v -- solving along one axis of a multidimensional array.

    A C-contiguous array of shape (N0, N1, ...) is a flat memory [nat -> K]; entry
    (i, j, k) of a 3D array lives at address (i*N1 + j)*N2 + k.  The Cython routines
    work on a pointer and a stride (element i of a line is u[i*st]). *)
From Coq Require Import Arith List.
From Verif Require Import Base Fld SolversModel.
Import ListNotations.
Local Open Scope nat_scope.

Section Axes.
  Variable K : Fld.
  Notation mem := (nat -> K).

  Definition addr2 (N1 i j : nat) : nat := i * N1 + j.
  Definition addr3 (N1 N2 i j k : nat) : nat := (i * N1 + j) * N2 + k.
  Definition addr4 (N1 N2 N3 i j k l : nat) : nat := ((i * N1 + j) * N2 + k) * N3 + l.

  (** a pointer routine: [routine off st m] works on u = &m[off] with stride st *)
  Definition ptr_routine := nat -> nat -> mem -> mem.

  (** optimization/numba/la.py 46-53 Solve_axis_2D (and la.pyx 450-461, with explicit
      pointers and strides; strides[axis]/itemsize of a C-contiguous array) *)
  Definition solve_axis_2D (N0 N1 : nat) (f : ptr_routine) (axis : nat) (m : mem) : mem :=
    match axis with
    | 0 => for_up N1 0 (fun j m => f (addr2 N1 0 j) N1 m) m
    | _ => for_up N0 0 (fun i m => f (addr2 N1 i 0) 1 m) m
    end.

  (** numba/la.py 55-68 Solve_axis_3D, la.pyx 430-448 *)
  Definition solve_axis_3D (N0 N1 N2 : nat) (f : ptr_routine) (axis : nat) (m : mem) : mem :=
    match axis with
    | 0 => for_up N1 0 (fun j m => for_up N2 0 (fun k m => f (addr3 N1 N2 0 j k) (N1 * N2) m) m) m
    | 1 => for_up N0 0 (fun i m => for_up N2 0 (fun k m => f (addr3 N1 N2 i 0 k) N2 m) m) m
    | _ => for_up N0 0 (fun i m => for_up N1 0 (fun j m => f (addr3 N1 N2 i j 0) 1 m) m) m
    end.

  (** numba/la.py 70-90 Solve_axis_4D *)
  Definition solve_axis_4D (N0 N1 N2 N3 : nat) (f : ptr_routine) (axis : nat) (m : mem) : mem :=
    match axis with
    | 0 => for_up N1 0 (fun j m => for_up N2 0 (fun k m => for_up N3 0 (fun l m =>
             f (addr4 N1 N2 N3 0 j k l) (N1 * N2 * N3) m) m) m) m
    | 1 => for_up N0 0 (fun i m => for_up N2 0 (fun k m => for_up N3 0 (fun l m =>
             f (addr4 N1 N2 N3 i 0 k l) (N2 * N3) m) m) m) m
    | 2 => for_up N0 0 (fun i m => for_up N1 0 (fun j m => for_up N3 0 (fun l m =>
             f (addr4 N1 N2 N3 i j 0 l) N3 m) m) m) m
    | _ => for_up N0 0 (fun i m => for_up N1 0 (fun j m => for_up N2 0 (fun k m =>
             f (addr4 N1 N2 N3 i j k 0) 1 m) m) m) m
    end.

  (** numba/la.py 8-44 SolverGeneric1ND_solve_data, la.pyx 384-408, 3D case: one factored matrix per
      line, the line with both indices 0 skipped when [zero] is set *)
  Definition generic1nd_3D (N0 N1 N2 : nat) (f : nat -> nat -> ptr_routine) (zero : bool)
      (axis : nat) (m : mem) : mem :=
    let skip i j := (Nat.eqb i 0 && Nat.eqb j 0 && zero)%bool in
    match axis with
    | 0 => for_up N1 0 (fun i m => for_up N2 0 (fun j m =>
             if skip i j then m else f i j (addr3 N1 N2 0 i j) (N1 * N2) m) m) m
    | 1 => for_up N0 0 (fun i m => for_up N2 0 (fun j m =>
             if skip i j then m else f i j (addr3 N1 N2 i 0 j) N2 m) m) m
    | _ => for_up N0 0 (fun i m => for_up N1 0 (fun j m =>
             if skip i j then m else f i j (addr3 N1 N2 i j 0) 1 m) m) m
    end.

  (** numba/la.py 9-20, la.pyx 411-426: the 2D case *)
  Definition generic1nd_2D (N0 N1 : nat) (f : nat -> ptr_routine) (zero : bool) (axis : nat) (m : mem) : mem :=
    match axis with
    | 0 => for_up N1 0 (fun i m => if (Nat.eqb i 0 && zero)%bool then m else f i (addr2 N1 0 i) N1 m) m
    | _ => for_up N0 0 (fun i m => if (Nat.eqb i 0 && zero)%bool then m else f i (addr2 N1 i 0) 1 m) m
    end.

  Notation "x -' y" := (@fsub K x y) (at level 50, left associativity).
  Notation "x *' y" := (@fmul K x y) (at level 40, left associativity).
  Notation "x /' y" := (@fdiv K x y) (at level 40, left associativity).

  (** la.pyx 585-590 DiagMA_inner_solve_ptr *)
  Definition diagma_ptr (n : nat) (data : nat -> nat -> K) : ptr_routine := fun off st u =>
    let a i := off + i * st in
    for_up n 0 (fun i u => upd u (a i) (u (a i) /' data 0 i)) u.

  (** la.pyx 519-532 TDMA_inner_solve_ptr *)
  Definition tdma_ptr (n : nat) (data : nat -> nat -> K) : ptr_routine := fun off st u =>
    let a i := off + i * st in
    let u := for_up (n - 2) 2 (fun i u =>
               upd u (a i) (u (a i) -' data 0 (i - 2) *' u (a (i - 2)))) u in
    let u := upd u (a (n - 1)) (u (a (n - 1)) /' data 1 (n - 1)) in
    let u := upd u (a (n - 2)) (u (a (n - 2)) /' data 1 (n - 2)) in
    for_down (n - 2) (fun i u =>
      upd u (a i) ((u (a i) -' data 2 (i + 2) *' u (a (i + 2))) /' data 1 i)) u.

  (** la.pyx 537-549 TDMA_O_inner_solve_ptr *)
  Definition tdmao_ptr (n : nat) (data : nat -> nat -> K) : ptr_routine := fun off st u =>
    let a i := off + i * st in
    let u := for_up (n - 1) 1 (fun i u =>
               upd u (a i) (u (a i) -' data 0 (i - 1) *' u (a (i - 1)))) u in
    let u := upd u (a (n - 1)) (u (a (n - 1)) /' data 1 (n - 1)) in
    for_down (n - 1) (fun i u =>
      upd u (a i) ((u (a i) -' data 2 (i + 1) *' u (a (i + 1))) /' data 1 i)) u.

  (** la.pyx 554-563 TwoDMA_inner_solve_ptr *)
  Definition twodma_ptr (n : nat) (data : nat -> nat -> K) : ptr_routine := fun off st u =>
    let a i := off + i * st in
    let u := upd u (a (n - 1)) (u (a (n - 1)) /' data 0 (n - 1)) in
    let u := upd u (a (n - 2)) (u (a (n - 2)) /' data 0 (n - 2)) in
    for_down (n - 2) (fun i u =>
      upd u (a i) ((u (a i) -' data 1 (i + 2) *' u (a (i + 2))) /' data 0 i)) u.

  (** la.pyx 595-612 FDMA_inner_solve_ptr *)
  Definition fdma_ptr (n : nat) (data : nat -> nat -> K) : ptr_routine := fun off st u =>
    let a i := off + i * st in
    let d := data 1 in
    let u1 i := data 2 (i + 2) in
    let u2 i := data 3 (i + 4) in
    let u := for_up (n - 2) 2 (fun i u =>
               upd u (a i) (u (a i) -' data 0 (i - 2) *' u (a (i - 2)))) u in
    let u := upd u (a (n - 1)) (u (a (n - 1)) /' d (n - 1)) in
    let u := upd u (a (n - 2)) (u (a (n - 2)) /' d (n - 2)) in
    let u := upd u (a (n - 3)) ((u (a (n - 3)) -' u1 (n - 3) *' u (a (n - 1))) /' d (n - 3)) in
    let u := upd u (a (n - 4)) ((u (a (n - 4)) -' u1 (n - 4) *' u (a (n - 2))) /' d (n - 4)) in
    for_down (n - 4) (fun i u =>
      upd u (a i) ((u (a i) -' u1 i *' u (a (i + 2)) -' u2 i *' u (a (i + 4))) /' d i)) u.

  (** la.pyx 573-588 ThreeDMA_inner_solve_ptr (u2 = &data[m1+4] is row 1, as in the source) *)
  Definition threedma_ptr (n : nat) (data : nat -> nat -> K) : ptr_routine := fun off st u =>
    let a i := off + i * st in
    let d := data 0 in
    let u1 i := data 1 (i + 2) in
    let u2 i := data 1 (i + 4) in
    let u := upd u (a (n - 1)) (u (a (n - 1)) /' d (n - 1)) in
    let u := upd u (a (n - 2)) (u (a (n - 2)) /' d (n - 2)) in
    let u := upd u (a (n - 3)) ((u (a (n - 3)) -' u1 (n - 3) *' u (a (n - 1))) /' d (n - 3)) in
    let u := upd u (a (n - 4)) ((u (a (n - 4)) -' u1 (n - 4) *' u (a (n - 2))) /' d (n - 4)) in
    for_down (n - 4) (fun i u =>
      upd u (a i) ((u (a i) -' u1 i *' u (a (i + 2)) -' u2 i *' u (a (i + 4))) /' d i)) u.

  (** the forward sweep shared by PDMA_inner_solve_ptr (la.pyx 502-505) and
      HeptaDMA_inner_solve_ptr (la.pyx 477-480) *)
  Definition penta_forward_ptr (n : nat) (da db : nat -> K) : ptr_routine := fun off st u =>
    let a i := off + i * st in
    let u := upd u (a 2) (u (a 2) -' db 0 *' u (a 0)) in
    let u := upd u (a 3) (u (a 3) -' db 1 *' u (a 1)) in
    for_up (n - 4) 4 (fun k u =>
      upd u (a k) (u (a k) -' fadd (db (k - 2) *' u (a (k - 2))) (da (k - 4) *' u (a (k - 4))))) u.

  (** la.pyx 493-512 PDMA_inner_solve_ptr *)
  Definition pdma_ptr (n : nat) (data : nat -> nat -> K) : ptr_routine := fun off st u =>
    let a i := off + i * st in
    let d := data 2 in
    let e := fun i => data 3 (i + 2) in
    let f := fun i => data 4 (i + 4) in
    let u := penta_forward_ptr n (data 0) (data 1) off st u in
    let u := upd u (a (n - 1)) (u (a (n - 1)) /' d (n - 1)) in
    let u := upd u (a (n - 2)) (u (a (n - 2)) /' d (n - 2)) in
    let u := upd u (a (n - 3)) ((u (a (n - 3)) -' e (n - 3) *' u (a (n - 1))) /' d (n - 3)) in
    let u := upd u (a (n - 4)) ((u (a (n - 4)) -' e (n - 4) *' u (a (n - 2))) /' d (n - 4)) in
    for_down (n - 4) (fun k u =>
      upd u (a k) ((u (a k) -' e k *' u (a (k + 2)) -' f k *' u (a (k + 4))) /' d k)) u.

  (** la.pyx 465-490 HeptaDMA_inner_solve_ptr *)
  Definition hepta_ptr (n : nat) (data : nat -> nat -> K) : ptr_routine := fun off st u =>
    let a i := off + i * st in
    let d := data 2 in
    let e := fun i => data 3 (i + 2) in
    let f := fun i => data 4 (i + 4) in
    let g := fun i => data 5 (i + 6) in
    let h := fun i => data 6 (i + 8) in
    let u := penta_forward_ptr n (data 0) (data 1) off st u in
    let u := upd u (a (n - 1)) (u (a (n - 1)) /' d (n - 1)) in
    let u := upd u (a (n - 2)) (u (a (n - 2)) /' d (n - 2)) in
    let u := upd u (a (n - 3)) ((u (a (n - 3)) -' e (n - 3) *' u (a (n - 1))) /' d (n - 3)) in
    let u := upd u (a (n - 4)) ((u (a (n - 4)) -' e (n - 4) *' u (a (n - 2))) /' d (n - 4)) in
    let u := upd u (a (n - 5)) ((u (a (n - 5)) -' e (n - 5) *' u (a (n - 3)) -' f (n - 5) *' u (a (n - 1))) /' d (n - 5)) in
    let u := upd u (a (n - 6)) ((u (a (n - 6)) -' e (n - 6) *' u (a (n - 4)) -' f (n - 6) *' u (a (n - 2))) /' d (n - 6)) in
    let u := upd u (a (n - 7)) ((u (a (n - 7)) -' e (n - 7) *' u (a (n - 5)) -' f (n - 7) *' u (a (n - 3))
                             -' g (n - 7) *' u (a (n - 1))) /' d (n - 7)) in
    let u := upd u (a (n - 8)) ((u (a (n - 8)) -' e (n - 8) *' u (a (n - 6)) -' f (n - 8) *' u (a (n - 4))
                             -' g (n - 8) *' u (a (n - 2))) /' d (n - 8)) in
    for_down (n - 8) (fun k u =>
      upd u (a k) ((u (a k) -' e k *' u (a (k + 2)) -' f k *' u (a (k + 4)) -' g k *' u (a (k + 6))
                -' h k *' u (a (k + 8))) /' d k)) u.

  (** la.pyx 302-324 func_from_name: the pointer routine of each solver class *)
  Definition ptr_of (k : solver_kind) : nat -> (nat -> nat -> K) -> ptr_routine :=
    match k with
    | KDiagMA => diagma_ptr
    | KTDMA => tdma_ptr
    | KTDMA_O => tdmao_ptr
    | KFDMA => fdma_ptr
    | KTwoDMA => twodma_ptr
    | KThreeDMA => threedma_ptr
    | KPDMA => pdma_ptr
    | KHeptaDMA => hepta_ptr
    end.

  (** la.pyx 30-126, 164-196: the Cython XXX_Solve functions dispatch on u.ndim for 1, 2
      and 3 dimensions only; any other number of dimensions matches no branch *)
  Definition cython_solve (dims : list nat) (f : ptr_routine) (axis : nat) (m : mem) : mem :=
    match dims with
    | [_] => f 0 1 m
    | [N0; N1] => solve_axis_2D N0 N1 f axis m
    | [N0; N1; N2] => solve_axis_3D N0 N1 N2 f axis m
    | _ => m
    end.

  (** la.pyx 128-147 DiagMA_Solve_2D / DiagMA_Solve_3D: here the number of equations is
      taken from the array, N = u.shape[axis], not from the matrix *)
  Definition diagma_solve_2D (N0 N1 : nat) (data : nat -> nat -> K) (axis : nat) (m : mem) : mem :=
    let N := match axis with 0 => N0 | _ => N1 end in
    solve_axis_2D N0 N1 (diagma_ptr N data) axis m.
End Axes.
