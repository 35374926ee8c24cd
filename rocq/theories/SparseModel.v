(** SparseModel.v -- shenfun/matrixbase.py: class SparseMatrix.

    A matrix object is its shape, its scale and its dictionary of diagonals (an
    association list in dictionary order, keys pairwise different).  A diagonal is a
    number or a NumPy array (length and entries).  Simplifications: values are
    immutable (deepcopy and sharing are not distinguished); diagonals given as
    callables (matrixbase.py 184-188) are not modelled; arithmetic is exact. *)
From Coq Require Import Arith ZArith List Bool.
From Verif Require Import Base Fld SolversModel.
Import ListNotations.
Local Open Scope nat_scope.

(** a Python slice bound: negative counts from the end, everything is clipped *)
Definition pyidx (L : nat) (x : Z) : nat :=
  Z.to_nat (if (x <? 0)%Z then Z.max 0 (x + Z.of_nat L) else Z.min x (Z.of_nat L)).

Section Sparse.
  Variable K : Fld.
  Local Open Scope fld_scope.

  Inductive dval := Scal (x : K) | Arr (n : nat) (f : nat -> K).

  Record smat := mkSmat {
    sm_rows : nat;            (* shape[0] *)
    sm_cols : nat;            (* shape[1] *)
    sm_scale : K;
    sm_items : list (Z * dval)  (* _storage *)
  }.

  (** entry t of a diagonal *)
  Definition dget (d : dval) (t : nat) : K := match d with Scal x => x | Arr _ f => f t end.

  (** NumPy arithmetic on diagonals (equal lengths; broadcasting a number) *)
  Definition dscale (d : dval) (s : K) : dval :=
    match d with Scal x => Scal (x * s) | Arr n f => Arr n (fun t => f t * s) end.
  Definition dneg (d : dval) : dval :=
    match d with Scal x => Scal (- x) | Arr n f => Arr n (fun t => - f t) end.
  Definition dbin (op : K -> K -> K) (d e : dval) : dval :=
    match d, e with
    | Scal x, Scal y => Scal (op x y)
    | Scal x, Arr n g => Arr n (fun t => op x (g t))
    | Arr n f, Scal y => Arr n (fun t => op (f t) y)
    | Arr n f, Arr _ g => Arr n (fun t => op (f t) (g t))
    end.

  (** ** dictionary *)
  Fixpoint dict_get (k : Z) (l : list (Z * dval)) : option dval :=
    match l with
    | [] => None
    | (k', v) :: r => if (k' =? k)%Z then Some v else dict_get k r
    end.
  Fixpoint dict_set (k : Z) (v : dval) (l : list (Z * dval)) : list (Z * dval) :=
    match l with
    | [] => [(k, v)]
    | (k', v') :: r => if (k' =? k)%Z then (k, v) :: r else (k', v') :: dict_set k v r
    end.

  (** ** matvec, format 'python' (matrixbase.py 112-131), one-dimensional v and c *)

  (** the statement  c[lo:hi] += val * v[lo2:hi2]  with NumPy's broadcasting;
      None is the ValueError for shapes that do not broadcast *)
  Definition add_slice (Lc Lv : nat) (lo hi lo2 hi2 : Z) (val : dval) (v c : nat -> K)
    : option (nat -> K) :=
    let s := pyidx Lc lo in let lc := (pyidx Lc hi - s)%nat in
    let s2 := pyidx Lv lo2 in let lv := (pyidx Lv hi2 - s2)%nat in
    let rhs :=
      match val with
      | Scal x => Some (lv, fun t => x * v (s2 + t)%nat)
      | Arr n f =>
          if (n =? lv)%nat then Some (lv, fun t => f t * v (s2 + t)%nat)
          else if (n =? 1)%nat then Some (lv, fun t => f 0%nat * v (s2 + t)%nat)
          else if (lv =? 1)%nat then Some (n, fun t => f t * v s2)
          else None
      end in
    match rhs with
    | None => None
    | Some (lr, r) =>
        if (lr =? lc)%nat
        then Some (fun i => if (s <=? i)%nat && (i <? s + lc)%nat then c i + r (i - s)%nat else c i)
        else if (lr =? 1)%nat
        then Some (fun i => if (s <=? i)%nat && (i <? s + lc)%nat then c i + r 0%nat else c i)
        else None
    end.

  Definition matvec_step (N M Lc Lv : nat) (v : nat -> K) (c : option (nat -> K))
      (kv : Z * dval) : option (nat -> K) :=
    match c with
    | None => None
    | Some c =>
        let '(key, val) := kv in
        let N := Z.of_nat N in let M := Z.of_nat M in
        if (key <? 0)%Z
        then add_slice Lc Lv (- key) (Z.min N (M - key)) 0 (Z.min M (N + key)) val v c
        else add_slice Lc Lv 0 (Z.min N (M - key)) key (Z.min M (N + key)) val v c
    end.

  Definition matvec (A : smat) (Lc Lv : nat) (v : nat -> K) : option (nat -> K) :=
    match fold_left (matvec_step (sm_rows A) (sm_cols A) Lc Lv v) (sm_items A) (Some (fun _ => 0)) with
    | None => None
    | Some c => Some (fun i => c i * sm_scale A)
    end.

  (** ** algebra.  The tolerance tests of the code are parameters:
      small15 s is abs(s) < 1e-15, small16 s is abs(s) < 1e-16, near1 s is
      abs(s - 1) < 1e-8. *)
  Section Tol.
    Variables small15 small16 near1 : K -> bool.

    (** matrixbase.py 395-404 incorporate_scale (for plain SparseMatrix: no _keyscale) *)
    Definition incorporate_scale (A : smat) : smat :=
      if near1 (sm_scale A) then A
      else mkSmat (sm_rows A) (sm_cols A) 1
             (map (fun kv => (fst kv, dscale (snd kv) (sm_scale A))) (sm_items A)).

    (** matrixbase.py 361-363, 370-373 copy (values only) *)
    Definition copy (A : smat) : smat := mkSmat (sm_rows A) (sm_cols A) (sm_scale A) (sm_items A).

    (** the loop  for key, val in d.items(): f[key] = f[key] + val  or  f[key] = val *)
    Definition add_items (l f : list (Z * dval)) : list (Z * dval) :=
      fold_left (fun f kv =>
        match dict_get (fst kv) f with
        | Some w => dict_set (fst kv) (dbin fadd w (snd kv)) f
        | None => dict_set (fst kv) (snd kv) f
        end) l f.
    Definition sub_items (l f : list (Z * dval)) : list (Z * dval) :=
      fold_left (fun f kv =>
        match dict_get (fst kv) f with
        | Some w => dict_set (fst kv) (dbin fsub w (snd kv)) f
        | None => dict_set (fst kv) (dneg (snd kv)) f
        end) l f.

    (** matrixbase.py 261-282 __add__; returns the sum and d as it is left behind *)
    Definition add (A D : smat) : smat * smat :=
      if small15 (sm_scale A) && small15 (sm_scale D)
      then (mkSmat (sm_rows A) (sm_cols A) 1 [(0%Z, Scal 0)], D)
      else if small15 (sm_scale A) then (mkSmat (sm_rows D) (sm_cols D) (sm_scale D) (sm_items D), D)
      else if small15 (sm_scale D) then (copy A, D)
      else
        let f := incorporate_scale (copy A) in
        let D := incorporate_scale D in
        (mkSmat (sm_rows f) (sm_cols f) (sm_scale f) (add_items (sm_items D) (sm_items f)), D).

    (** matrixbase.py 284-306 __iadd__; returns self and d *)
    Definition iadd (A D : smat) : smat * smat :=
      if small16 (sm_scale D) then (A, D)
      else if small16 (sm_scale A)
      then (mkSmat (sm_rows A) (sm_cols A) (sm_scale D)
              (fold_left (fun f kv => dict_set (fst kv) (snd kv) f) (sm_items D) []), D)
      else
        let A := incorporate_scale A in
        let D := incorporate_scale D in
        (mkSmat (sm_rows A) (sm_cols A) (sm_scale A) (add_items (sm_items D) (sm_items A)), D).

    (** matrixbase.py 308-336 __sub__ *)
    Definition sub (A D : smat) : smat * smat :=
      if small15 (sm_scale A) && small15 (sm_scale D)
      then (mkSmat (sm_rows A) (sm_cols A) 1 [(0%Z, Scal 0)], D)
      else if small15 (sm_scale A) then (mkSmat (sm_rows D) (sm_cols D) (- sm_scale D) (sm_items D), D)
      else if small15 (sm_scale D) then (copy A, D)
      else
        let f := incorporate_scale (copy A) in
        let D := incorporate_scale D in
        (mkSmat (sm_rows f) (sm_cols f) (sm_scale f) (sub_items (sm_items D) (sm_items f)), D).

    (** matrixbase.py 338-359 __isub__ *)
    Definition isub (A D : smat) : smat * smat :=
      if small16 (sm_scale D) then (A, D)
      else if small16 (sm_scale A)
      then (mkSmat (sm_rows A) (sm_cols A) (- sm_scale D)
              (fold_left (fun f kv => dict_set (fst kv) (snd kv) f) (sm_items D) []), D)
      else
        let A := incorporate_scale A in
        let D := incorporate_scale D in
        (mkSmat (sm_rows A) (sm_cols A) (sm_scale A) (sub_items (sm_items D) (sm_items A)), D).

    (** A += A and A -= A (self is d): the object is updated while its own items are
        read; keys never change, so each entry is combined with itself *)
    Definition iadd_self (A : smat) : smat :=
      if small16 (sm_scale A) then A
      else
        let A := incorporate_scale A in
        mkSmat (sm_rows A) (sm_cols A) (sm_scale A)
          (map (fun kv => (fst kv, dbin fadd (snd kv) (snd kv))) (sm_items A)).
  End Tol.

  (** matrixbase.py 218-222 __imul__, 224-229 __mul__ by a number, 238-250 __div__, 379-383 __neg__ *)
  Definition smul (A : smat) (y : K) : smat := mkSmat (sm_rows A) (sm_cols A) (sm_scale A * y) (sm_items A).
  Definition sdiv (A : smat) (y : K) : smat := mkSmat (sm_rows A) (sm_cols A) (sm_scale A / y) (sm_items A).
  Definition neg (A : smat) : smat := mkSmat (sm_rows A) (sm_cols A) (sm_scale A * - (1)) (sm_items A).

  (** ** equality (matrixbase.py 199-211).  [csr] data: the entries that are not zero,
      row by row (scipy's dia -> csr conversion drops zeros).  Python's hash of an int k
      is k except hash(-1) = hash(-2) = -2 (and large ints, not modelled); the hash of a
      frozenset is a function [fhash] of the element hashes, independent of their order
      (modelled as a function of their sorted list).  [close] is norm(d0-a0) < 1e-8. *)
  Variable is0 : K -> bool.
  Fixpoint items_entry (l : list (Z * dval)) (o : Z) (t : nat) : K :=
    match l with
    | [] => 0
    | (k, v) :: r => if (k =? o)%Z then dget v t else items_entry r o t
    end.
  Definition unscaled_entry (A : smat) (i j : nat) : K :=
    items_entry (sm_items A) (Z.of_nat j - Z.of_nat i)%Z (Nat.min i j).
  Definition csr_data (A : smat) : list K :=
    filter (fun x => negb (is0 x))
      (flat_map (fun i => map (fun j => unscaled_entry A i j) (seq 0 (sm_cols A))) (seq 0 (sm_rows A))).
  Definition pyhash (k : Z) : Z := if (k =? -1)%Z then (-2)%Z else k.
  Fixpoint insert_sorted (k : Z) (l : list Z) : list Z :=
    match l with [] => [k] | x :: r => if (k <=? x)%Z then k :: l else x :: insert_sorted k r end.
  Definition sort_keys (l : list Z) : list Z := fold_right insert_sorted [] l.
  Definition hash_keys (fhash : list Z -> Z) (A : smat) : Z :=
    fhash (sort_keys (map (fun kv => pyhash (fst kv)) (sm_items A))).
  Definition sm_eq (fhash : list Z -> Z) (close : list K -> list K -> bool) (A B : smat) : bool :=
    (sm_rows A =? sm_rows B) && (sm_cols A =? sm_cols B) &&
    (hash_keys fhash A =? hash_keys fhash B)%Z &&
    (length (csr_data A) =? length (csr_data B)) && close (csr_data A) (csr_data B).

  (** ** solver choice (matrixbase.py 436-474).  None stands for the generic Solve. *)
  Definition zlist_eqb (a b : list Z) : bool :=
    (length a =? length b) && forallb (fun p => (fst p =? snd p)%Z) (combine a b).
  (** matrixbase.py 490-502 issymmetric for equal sets of keys and opposite keys ([deq]
      compares two diagonals: np.all(abs(val - self[-key]) < 1e-16)) *)
  Definition issymmetric (deq : dval -> dval -> bool) (A : smat) : bool :=
    (fold_right Z.add 0 (map fst (sm_items A)) =? 0)%Z &&
    forallb (fun kv => if (fst kv <=? 0)%Z then true
                       else match dict_get (- fst kv) (sm_items A) with
                            | Some w => deq (snd kv) w
                            | None => false    (* KeyError in the code *)
                            end) (sm_items A).
  Definition get_solver (deq : dval -> dval -> bool) (A : smat) : option solver_kind :=
    let keys := sort_keys (map fst (sm_items A)) in
    if is0 (sm_scale A) then None
    else match length (sm_items A) with
    | 1 => if zlist_eqb keys [0]%Z then Some KDiagMA else None
    | 2 => if zlist_eqb keys [0; 2]%Z then Some KTwoDMA else None
    | 3 => if zlist_eqb keys [-2; 0; 2]%Z then Some KTDMA
           else if zlist_eqb keys [-1; 0; 1]%Z && issymmetric deq A then Some KTDMA_O
           else if zlist_eqb keys [0; 2; 4]%Z then Some KThreeDMA else None
    | 4 => if zlist_eqb keys [-2; 0; 2; 4]%Z then Some KFDMA else None
    | 5 => if zlist_eqb keys [-4; -2; 0; 2; 4]%Z then Some KPDMA else None
    | 7 => if zlist_eqb keys [-4; -2; 0; 2; 4; 6; 8]%Z then Some KHeptaDMA else None
    | _ => None
    end.

  (** matrixbase.py 133-166 diags('dia') after sort(): scipy's dia storage; row k holds
      the diagonal with the k-th smallest offset, entry (i, j) in column j *)
  Definition dia_data (A : smat) (k j : nat) : K :=
    match nth_error (sort_keys (map fst (sm_items A))) k with
    | None => 0
    | Some key => match dict_get key (sm_items A) with
                  | None => 0
                  | Some v => dget v (j - Z.to_nat key)%nat * sm_scale A
                  end
    end.

  (** matrixbase.py 409-434 solve and la.py: the solver object is created at the first
      call and kept in self.solver *)
  Record mobj := mkMobj { mo_mat : smat; mo_solver : option (solver K) }.
  Inductive mop := OpSolve (b : nat -> K) | OpImul (y : K) | OpIadd (D : smat).
  (** one operation on the object; the result of a solve (None when the generic solver,
      which is not modelled, is selected) *)
  Definition mo_step (deq : dval -> dval -> bool) (small16 near1 : K -> bool) (o : mobj) (op : mop)
    : mobj * option (nat -> K) :=
    match op with
    | OpImul y => (mkMobj (smul (mo_mat o) y) (mo_solver o), None)
    | OpIadd D => (mkMobj (fst (iadd small16 near1 (mo_mat o) D)) (mo_solver o), None)
    | OpSolve b =>
        let s := match mo_solver o with
                 | Some s => Some s
                 | None => match get_solver deq (mo_mat o) with
                           | None => None
                           | Some k => Some (new_solver K k (sm_rows (mo_mat o)) (dia_data (mo_mat o)))
                           end
                 end in
        match s with
        | None => (o, None)
        | Some s => let '(s', u) := call K s None b in (mkMobj (mo_mat o) (Some s'), Some u)
        end
    end.
  Fixpoint mo_run deq small16 near1 (o : mobj) (ops : list mop) : mobj :=
    match ops with
    | [] => o
    | op :: r => mo_run deq small16 near1 (fst (mo_step deq small16 near1 o op)) r
    end.
End Sparse.
