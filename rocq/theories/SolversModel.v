(** SolversModel.v -- the banded direct solvers of shenfun/la.py.

    A scipy dia-matrix with offsets [o_0; o_1; ...] and storage [data] represents
    A[i, j] = data[k, j] whenever j - i = o_k (column-indexed storage).  [data] is
    modelled as [nat -> nat -> K] (row of the storage, column); slices such as
    [data[2, 2:]] are index shifts.  All routines work in place: they map the old
    storage / right-hand side to the new one.

    Simplifications (for the whole file): exact field arithmetic instead of IEEE
    doubles; one-dimensional right-hand sides (the loop over the other axes is
    modelled in AxesModel.v); the Cython (optimization/cython/la.pyx 199-612) and
    Numba (optimization/numba/{tdma,fdma,pdma,heptadma,twodma,threedma,diagma}.py)
    versions have statement-for-statement the same bodies and are not repeated. *)
From Coq Require Import Arith ZArith List.
From Verif Require Import Base Fld.
Local Open Scope nat_scope.

Section Model.
  Variable K : Fld.
  Notation "x +' y" := (@fadd K x y) (at level 50, left associativity).
  Notation "x -' y" := (@fsub K x y) (at level 50, left associativity).
  Notation "x *' y" := (@fmul K x y) (at level 40, left associativity).
  Notation "x /' y" := (@fdiv K x y) (at level 40, left associativity).

  Notation vec := (nat -> K).
  Notation dia := (nat -> nat -> K).

  (** la.py 317-320  DiagMA.inner_solve:  u[:n] /= data[0] *)
  Definition diagma_solve (n : nat) (data : dia) (u : vec) : vec :=
    for_up n 0 (fun i u => upd u i (u i /' data 0 i)) u.

  (** la.py 346-353  TDMA.LU   (ld = data[0,:-2], d = data[1], ud = data[2,2:]) *)
  Definition tdma_lu (n : nat) (data : dia) : dia :=
    for_up (n - 2) 2 (fun i D =>
      let D := upd2 D 0 (i - 2) (D 0 (i - 2) /' D 1 (i - 2)) in
      upd2 D 1 i (D 1 i -' D 0 (i - 2) *' D 2 (i - 2 + 2))) data.

  (** la.py 373-385  TDMA.inner_solve *)
  Definition tdma_solve (n : nat) (data : dia) (u : vec) : vec :=
    let u := for_up (n - 2) 2 (fun i u => upd u i (u i -' data 0 (i - 2) *' u (i - 2))) u in
    let u := upd u (n - 1) (u (n - 1) /' data 1 (n - 1)) in
    let u := upd u (n - 2) (u (n - 2) /' data 1 (n - 2)) in
    for_down (n - 2) (fun i u => upd u i ((u i -' data 2 (i + 2) *' u (i + 2)) /' data 1 i)) u.

  (** la.py 418-426  TDMA_O.LU *)
  Definition tdmao_lu (n : nat) (data : dia) : dia :=
    for_up (n - 1) 1 (fun i D =>
      let D := upd2 D 0 (i - 1) (D 0 (i - 1) /' D 1 (i - 1)) in
      upd2 D 1 i (D 1 i -' D 0 (i - 1) *' D 2 (i - 1 + 1))) data.

  (** la.py 428-438  TDMA_O.inner_solve *)
  Definition tdmao_solve (n : nat) (data : dia) (u : vec) : vec :=
    let u := for_up (n - 1) 1 (fun i u => upd u i (u i -' data 0 (i - 1) *' u (i - 1))) u in
    let u := upd u (n - 1) (u (n - 1) /' data 1 (n - 1)) in
    for_down (n - 1) (fun i u => upd u i ((u i -' data 2 (i + 1) *' u (i + 1)) /' data 1 i)) u.

  (** la.py 566-576  FDMA.LU *)
  Definition fdma_lu (n : nat) (data : dia) : dia :=
    for_up (n - 2) 2 (fun i D =>
      let D := upd2 D 0 (i - 2) (D 0 (i - 2) /' D 1 (i - 2)) in
      let D := upd2 D 1 i (D 1 i -' D 0 (i - 2) *' D 2 (i - 2 + 2)) in
      if Nat.ltb i (n - 2)
      then upd2 D 2 (i + 2) (D 2 (i + 2) -' D 0 (i - 2) *' D 3 (i - 2 + 4))
      else D) data.

  (** the upper triangular back substitution shared (textually) by FDMA.inner_solve
      la.py 600-605 and ThreeDMA.inner_solve la.py 695-700; [d], [u1], [u2] are the
      three slices the caller made *)
  Definition back3 (n : nat) (d u1 u2 : vec) (u : vec) : vec :=
    let u := upd u (n - 1) (u (n - 1) /' d (n - 1)) in
    let u := upd u (n - 2) (u (n - 2) /' d (n - 2)) in
    let u := upd u (n - 3) ((u (n - 3) -' u1 (n - 3) *' u (n - 1)) /' d (n - 3)) in
    let u := upd u (n - 4) ((u (n - 4) -' u1 (n - 4) *' u (n - 2)) /' d (n - 4)) in
    for_down (n - 4) (fun i u =>
      upd u i ((u i -' u1 i *' u (i + 2) -' u2 i *' u (i + 4)) /' d i)) u.

  (** la.py 591-605  FDMA.inner_solve *)
  Definition fdma_solve (n : nat) (data : dia) (u : vec) : vec :=
    let u := for_up (n - 2) 2 (fun i u => upd u i (u i -' data 0 (i - 2) *' u (i - 2))) u in
    back3 n (data 1) (fun i => data 2 (i + 2)) (fun i => data 3 (i + 4)) u.

  (** la.py 643-651  TwoDMA.inner_solve *)
  Definition twodma_solve (n : nat) (data : dia) (u : vec) : vec :=
    let u := upd u (n - 1) (u (n - 1) /' data 0 (n - 1)) in
    let u := upd u (n - 2) (u (n - 2) /' data 0 (n - 2)) in
    for_down (n - 2) (fun i u => upd u i ((u i -' data 1 (i + 2) *' u (i + 2)) /' data 0 i)) u.

  (** la.py 690-700  ThreeDMA.inner_solve -- note [u2 = data[1, 4:]], as in the source *)
  Definition threedma_solve (n : nat) (data : dia) (u : vec) : vec :=
    back3 n (data 0) (fun i => data 1 (i + 2)) (fun i => data 1 (i + 4)) u.

  (** NOT the code: what ThreeDMA.inner_solve would be with [u2 = data[2, 4:]] *)
  Definition threedma_solve_fixed (n : nat) (data : dia) (u : vec) : vec :=
    back3 n (data 0) (fun i => data 1 (i + 2)) (fun i => data 2 (i + 4)) u.

  (** the statement  row_k[c] -= lam * row_k2[c2]  on the storage *)
  Definition subm (D : dia) (k c : nat) (lam : K) (k2 c2 : nat) : dia :=
    upd2 D k c (D k c -' lam *' D k2 c2).

  (** la.py 482-509  PDMA.LU  (a = data[0,:-4], b = data[1,:-2], d = data[2],
      e = data[3,2:], f = data[4,4:]; k = n - e.shape[0] = 2) *)
  Definition pdma_lu_body (i : nat) (D : dia) : dia :=
    let lam := D 1 i /' D 2 i in
    let D := subm D 2 (i + 2) lam 3 (i + 2) in          (* d[i+k] -= lam*e[i] *)
    let D := subm D 3 (i + 2 + 2) lam 4 (i + 4) in      (* e[i+k] -= lam*f[i] *)
    let D := upd2 D 1 i lam in                          (* b[i] = lam *)
    let lam := D 0 i /' D 2 i in
    let D := subm D 1 (i + 2) lam 3 (i + 2) in          (* b[i+k] -= lam*e[i] *)
    let D := subm D 2 (i + 4) lam 4 (i + 4) in          (* d[i+2*k] -= lam*f[i] *)
    upd2 D 0 i lam.                                     (* a[i] = lam *)
  Definition pdma_lu_tail (i : nat) (D : dia) : dia :=
    let lam := D 1 i /' D 2 i in
    let D := subm D 2 (i + 2) lam 3 (i + 2) in
    upd2 D 1 i lam.
  Definition pdma_lu (n : nat) (data : dia) : dia :=
    let D := for_up (n - 4) 0 pdma_lu_body data in
    let D := pdma_lu_tail (n - 4) D in
    pdma_lu_tail (n - 3) D.

  (** forward substitution shared (textually) by PDMA.inner_solve la.py 525-528 and
      HeptaDMA.inner_solve la.py 798-801 *)
  Definition penta_forward (n : nat) (a b : vec) (u : vec) : vec :=
    let u := upd u 2 (u 2 -' b 0 *' u 0) in
    let u := upd u 3 (u 3 -' b 1 *' u 1) in
    for_up (n - 4) 4 (fun k u =>
      upd u k (u k -' (b (k - 2) *' u (k - 2) +' a (k - 4) *' u (k - 4)))) u.

  (** la.py 518-534  PDMA.inner_solve *)
  Definition pdma_solve (n : nat) (data : dia) (u : vec) : vec :=
    let d := data 2 in
    let e := fun i => data 3 (i + 2) in
    let f := fun i => data 4 (i + 4) in
    let u := penta_forward n (data 0) (data 1) u in
    let u := upd u (n - 1) (u (n - 1) /' d (n - 1)) in
    let u := upd u (n - 2) (u (n - 2) /' d (n - 2)) in
    let u := upd u (n - 3) ((u (n - 3) -' e (n - 3) *' u (n - 1)) /' d (n - 3)) in
    let u := upd u (n - 4) ((u (n - 4) -' e (n - 4) *' u (n - 2)) /' d (n - 4)) in
    for_down (n - 4) (fun k u =>
      upd u k ((u k -' e k *' u (k + 2) -' f k *' u (k + 4)) /' d k)) u.

  (** la.py 745-780  HeptaDMA.LU (g = data[5,6:], h = data[6,8:]) *)
  Definition hepta_lu_body (n i : nat) (D : dia) : dia :=
    let lam := D 1 i /' D 2 i in
    let D := subm D 2 (i + 2) lam 3 (i + 2) in          (* d[i+k] -= lam*e[i] *)
    let D := subm D 3 (i + 2 + 2) lam 4 (i + 4) in      (* e[i+k] -= lam*f[i] *)
    let D := if Nat.ltb i (n - 6)
             then subm D 4 (i + 2 + 4) lam 5 (i + 6) else D in   (* f[i+k] -= lam*g[i] *)
    let D := if Nat.ltb i (n - 8)
             then subm D 5 (i + 2 + 6) lam 6 (i + 8) else D in   (* g[i+k] -= lam*h[i] *)
    let D := upd2 D 1 i lam in                          (* b[i] = lam *)
    let lam := D 0 i /' D 2 i in
    let D := subm D 1 (i + 2) lam 3 (i + 2) in          (* b[i+k] -= lam*e[i] *)
    let D := subm D 2 (i + 4) lam 4 (i + 4) in          (* d[i+2*k] -= lam*f[i] *)
    let D := if Nat.ltb i (n - 6)
             then subm D 3 (i + 4 + 2) lam 5 (i + 6) else D in   (* e[i+2*k] -= lam*g[i] *)
    let D := if Nat.ltb i (n - 8)
             then subm D 4 (i + 4 + 4) lam 6 (i + 8) else D in   (* f[i+2*k] -= lam*h[i] *)
    upd2 D 0 i lam.                                     (* a[i] = lam *)
  Definition hepta_lu (n : nat) (data : dia) : dia :=
    let D := for_up (n - 4) 0 (hepta_lu_body n) data in
    let D := pdma_lu_tail (n - 4) D in
    pdma_lu_tail (n - 3) D.

  (** la.py 789-812  HeptaDMA.inner_solve *)
  Definition hepta_solve (n : nat) (data : dia) (u : vec) : vec :=
    let d := data 2 in
    let e := fun i => data 3 (i + 2) in
    let f := fun i => data 4 (i + 4) in
    let g := fun i => data 5 (i + 6) in
    let h := fun i => data 6 (i + 8) in
    let u := penta_forward n (data 0) (data 1) u in
    let u := upd u (n - 1) (u (n - 1) /' d (n - 1)) in
    let u := upd u (n - 2) (u (n - 2) /' d (n - 2)) in
    let u := upd u (n - 3) ((u (n - 3) -' e (n - 3) *' u (n - 1)) /' d (n - 3)) in
    let u := upd u (n - 4) ((u (n - 4) -' e (n - 4) *' u (n - 2)) /' d (n - 4)) in
    let u := upd u (n - 5) ((u (n - 5) -' e (n - 5) *' u (n - 3) -' f (n - 5) *' u (n - 1)) /' d (n - 5)) in
    let u := upd u (n - 6) ((u (n - 6) -' e (n - 6) *' u (n - 4) -' f (n - 6) *' u (n - 2)) /' d (n - 6)) in
    let u := upd u (n - 7) ((u (n - 7) -' e (n - 7) *' u (n - 5) -' f (n - 7) *' u (n - 3)
                             -' g (n - 7) *' u (n - 1)) /' d (n - 7)) in
    let u := upd u (n - 8) ((u (n - 8) -' e (n - 8) *' u (n - 6) -' f (n - 8) *' u (n - 4)
                             -' g (n - 8) *' u (n - 2)) /' d (n - 8)) in
    for_down (n - 8) (fun k u =>
      upd u k ((u k -' e k *' u (k + 2) -' f k *' u (k + 4) -' g k *' u (k + 6)
                -' h k *' u (k + 8)) /' d k)) u.
End Model.

(** ** Stateful solver objects (BandedMatrixSolver and its subclasses).

    The object holds [_lu.data] and whether [_inner_arg] has been set; [__call__]
    (la.py 217-249) runs apply_constraints, perform_lu and solve in that order.
    Boundary-condition matrices (apply_bcs) are empty here; axis = 0, 1D. *)
Inductive solver_kind := KDiagMA | KTDMA | KTDMA_O | KFDMA | KTwoDMA | KThreeDMA | KPDMA | KHeptaDMA.

Record solver (K : Fld) := mkSolver {
  s_kind : solver_kind;
  s_n : nat;
  s_data : nat -> nat -> K;     (* self._lu.data *)
  s_factored : bool             (* self._inner_arg is not None *)
}.
Arguments mkSolver {K}.
Arguments s_kind {K}.
Arguments s_n {K}.
Arguments s_data {K}.
Arguments s_factored {K}.

(** diagonal offsets of each class, in storage order (docstrings la.py 292-720) *)
Definition kind_offsets (k : solver_kind) : list Z :=
  match k with
  | KDiagMA => (0 :: nil)%Z
  | KTDMA => (-2 :: 0 :: 2 :: nil)%Z
  | KTDMA_O => (-1 :: 0 :: 1 :: nil)%Z
  | KFDMA => (-2 :: 0 :: 2 :: 4 :: nil)%Z
  | KTwoDMA => (0 :: 2 :: nil)%Z
  | KThreeDMA => (0 :: 2 :: 4 :: nil)%Z
  | KPDMA => (-4 :: -2 :: 0 :: 2 :: 4 :: nil)%Z
  | KHeptaDMA => (-4 :: -2 :: 0 :: 2 :: 4 :: 6 :: 8 :: nil)%Z
  end.

Section Objects.
  Variable K : Fld.

  (** __init__: la.py 297-299 (DiagMA), 624-626 (TwoDMA), 670-672 (ThreeDMA) set
      [_inner_arg]; the others leave it None (la.py 64) *)
  Definition new_solver (k : solver_kind) (n : nat) (data : nat -> nat -> K) : solver K :=
    mkSolver k n data
      (match k with KDiagMA | KTwoDMA | KThreeDMA => true | _ => false end).

  (** which storage rows hold the diagonals 0, 2, 4, 6, 8 *)
  Definition main_row (k : solver_kind) : nat :=
    match k with
    | KDiagMA | KTwoDMA | KThreeDMA => 0
    | KTDMA | KTDMA_O | KFDMA => 1
    | KPDMA | KHeptaDMA => 2
    end.

  (** apply_constraints for constraints = ((0, val),): la.py 307-315, 355-364, 464-478,
      578-588, 628-637, 674-684, 725-742.  [diagonal(k)[0] = v] writes
      A[0, k], i.e. storage column k.  TDMA_O has no override: the base method
      (la.py 77-129) only sets b[0] because [_lu] is already not None.
      PDMA and HeptaDMA also set [_inner_arg]. *)
  Definition apply_constraint0 (s : solver K) (val : K) (b : nat -> K) : solver K * (nat -> K) :=
    let m := main_row (s_kind s) in
    let D := s_data s in
    let D1 :=
      match s_kind s with
      | KTDMA_O => D
      | KDiagMA => upd2 D m 0 f1
      | KTDMA | KTwoDMA => upd2 (upd2 D m 0 f1) (m + 1) 2 f0
      | KFDMA | KThreeDMA | KPDMA =>
          upd2 (upd2 (upd2 D m 0 f1) (m + 1) 2 f0) (m + 2) 4 f0
      | KHeptaDMA =>
          upd2 (upd2 (upd2 (upd2 (upd2 D m 0 f1) (m + 1) 2 f0) (m + 2) 4 f0)
                (m + 3) 6 f0) (m + 4) 8 f0
      end in
    let fact := match s_kind s with KPDMA | KHeptaDMA => true | _ => s_factored s end in
    (mkSolver (s_kind s) (s_n s) D1 fact, upd b 0 val).

  Definition lu_of (k : solver_kind) : nat -> (nat -> nat -> K) -> (nat -> nat -> K) :=
    match k with
    | KDiagMA | KTwoDMA | KThreeDMA => fun _ D => D
    | KTDMA => tdma_lu K
    | KTDMA_O => tdmao_lu K
    | KFDMA => fdma_lu K
    | KPDMA => pdma_lu K
    | KHeptaDMA => hepta_lu K
    end.

  Definition solve_of (k : solver_kind) : nat -> (nat -> nat -> K) -> (nat -> K) -> (nat -> K) :=
    match k with
    | KDiagMA => diagma_solve K
    | KTDMA => tdma_solve K
    | KTDMA_O => tdmao_solve K
    | KFDMA => fdma_solve K
    | KTwoDMA => twodma_solve K
    | KThreeDMA => threedma_solve K
    | KPDMA => pdma_solve K
    | KHeptaDMA => hepta_solve K
    end.

  (** perform_lu: la.py 304, 366-370, 410-414, 511-515, 558-562, 639, 686, 782-786 *)
  Definition perform_lu (s : solver K) : solver K :=
    if s_factored s then s
    else mkSolver (s_kind s) (s_n s) (lu_of (s_kind s) (s_n s) (s_data s)) true.

  (** __call__ (la.py 217-249) with constraints=() or ((0, val),) *)
  Definition call (s : solver K) (constraint : option K) (b : nat -> K)
    : solver K * (nat -> K) :=
    let '(s, b) := match constraint with
                   | None => (s, b)
                   | Some v => apply_constraint0 s v b
                   end in
    let s := perform_lu s in
    (s, solve_of (s_kind s) (s_n s) (s_data s) b).

  (** a history of calls of one object, each with or without the constraint: the
      results in order *)
  Fixpoint calls (s : solver K) (h : list (option K * (nat -> K))) : list (nat -> K) :=
    match h with
    | nil => nil
    | (c, b) :: h => let '(s1, x) := call s c b in x :: calls s1 h
    end.
End Objects.
