(** TPModel.v -- shenfun/matrixbase.py: TPMatrix, get_simplified_tpmatrices, BlockMatrix,
    extract_diagonal_matrix.

    A multidimensional array is a function from index lists to scalars.  MPI: one
    process, so local slices are whole arrays and pencil transfers are the identity.
    A scale array that broadcasts is the function of the full index it broadcasts to.
    The nondiagonal axes of a space (naxes) are the complement of [tp_diag]. *)
From Coq Require Import Arith ZArith List Bool.
From Verif Require Import Base Fld SparseModel.
Import ListNotations.
Local Open Scope nat_scope.

Section TP.
  Variable K : Fld.
  Notation arr := (list nat -> K).

  Record tpmat := mkTP {
    tp_mats : list (smat K);       (* mats, one per axis *)
    tp_diag : list bool;           (* axis is diagonal (not in naxes) *)
    tp_scale : arr;                (* scale *)
    tp_simplified : bool;          (* _issimplified *)
    tp_index : nat * nat           (* global_index *)
  }.

  (** matrixbase.py 803-818 Identity(shape) *)
  Definition identity_of (A : smat K) : smat K := mkSmat K (sm_rows K A) (sm_cols K A) f1 [(0%Z, Scal K f1)].

  (** matrixbase.py 1334-1342: what a diagonal factor contributes to the scale; a diagonal
      stored as a number is used without mat.scale.  mat[0] raises KeyError if the factor
      has no main diagonal (None) *)
  Definition diag_factor (A : smat K) (t : nat) : option K :=
    match dict_get K 0 (sm_items K A) with
    | None => None
    | Some (Scal _ x) => Some x
    | Some (Arr _ _ f) => Some (fmul (f t) (sm_scale K A))
    end.
  Fixpoint fold_diag (mats : list (smat K)) (flags : list bool) (idx : list nat) (s : K) : option K :=
    match mats, flags, idx with
    | A :: mats, fl :: flags, i :: idx =>
        if fl then match diag_factor A i with
                   | None => None
                   | Some d => fold_diag mats flags idx (fmul s d)
                   end
        else fold_diag mats flags idx s
    | _, _, _ => Some s
    end.
  Fixpoint simplify_mats (mats : list (smat K)) (flags : list bool) : list (smat K) :=
    match mats, flags with
    | A :: mats, fl :: flags => (if fl then identity_of A else A) :: simplify_mats mats flags
    | _, _ => mats
    end.
  Definition needs_simplify (T : tpmat) : bool := existsb (fun b => b) (tp_diag T) && negb (tp_simplified T).
  (** matrixbase.py 1327-1365 get_simplified (KeyError modelled as scale 0: excluded by
      the hypotheses of all theorems) *)
  Definition get_simplified (T : tpmat) : tpmat :=
    if needs_simplify T
    then mkTP (simplify_mats (tp_mats T) (tp_diag T)) (tp_diag T)
           (fun idx => match fold_diag (tp_mats T) (tp_diag T) idx (tp_scale T idx) with
                       | Some s => s | None => f0 end) true (tp_index T)
    else T.

  Fixpoint set_axis (axis t : nat) (idx : list nat) : list nat :=
    match idx, axis with
    | [], _ => []
    | _ :: r, 0 => t :: r
    | i :: r, S a => i :: set_axis a t r
    end.
  (** matvec of one factor along an axis (C08 shows that None does not occur) *)
  Definition mv_axis (L : nat) (A : smat K) (axis : nat) (v : arr) : arr := fun idx =>
    match matvec K A L L (fun t => v (set_axis axis t idx)) with
    | Some c => c (nth axis idx 0)
    | None => f0
    end.
  Fixpoint naxes_from (k : nat) (flags : list bool) : list nat :=
    match flags with [] => [] | b :: r => (if b then [] else [k]) ++ naxes_from (S k) r end.
  Definition naxes (T : tpmat) : list nat := naxes_from 0 (tp_diag T).
  Definition zero_mat : smat K := mkSmat K 0 0 f0 [].
  (** matrixbase.py 1443-1490 matvec.  [L] are the extents of the arrays along the axes;
      [first] says whether the array is aligned in the first of two nondiagonal axes *)
  Definition tp_matvec (L : list nat) (first : bool) (T : tpmat) (v : arr) : arr :=
    let T := get_simplified T in
    let mv a := mv_axis (nth a L 0) (nth a (tp_mats T) zero_mat) a in
    match naxes T with
    | [] => fun idx => fmul (tp_scale T idx) (v idx)
    | [a] => fun idx => fmul (mv a v idx) (tp_scale T idx)
    | [a; b] => let c := if first then mv b (mv a v) else mv a (mv b v) in
                fun idx => fmul (c idx) (tp_scale T idx)
    | _ => fun _ => f0       (* c.fill(0) and no branch for three or more *)
    end.

  (** matrixbase.py 1555-1570 __eq__ (the scale is not compared; [smeq] is the factors' ==) *)
  Definition tp_eq (smeq : smat K -> smat K -> bool) (A B : tpmat) : bool :=
    (fst (tp_index A) =? fst (tp_index B)) && (snd (tp_index A) =? snd (tp_index B)) &&
    forallb (fun p => smeq (fst p) (snd p)) (combine (tp_mats A) (tp_mats B)).
  (** 1582-1587 __iadd__ after its assertion *)
  Definition tp_iadd (A B : tpmat) : tpmat :=
    mkTP (tp_mats A) (tp_diag A) (fun idx => fadd (tp_scale A idx) (tp_scale B idx)) (tp_simplified A) (tp_index A).

  (** ** get_simplified_tpmatrices (1648-1678).  Objects live in a heap, the list holds
      references; get_simplified allocates a new object or returns self *)
  Definition heap := nat -> tpmat.
  Record st := mkSt { st_heap : heap; st_next : nat }.
  Definition simplify_ref (s : st) (r : nat) : st * nat :=
    let T := st_heap s r in
    if needs_simplify T then (mkSt (upd (st_heap s) (st_next s) (get_simplified T)) (S (st_next s)), st_next s)
    else (s, r).
  Fixpoint simplify_refs (s : st) (rs : list nat) : st * list nat :=
    match rs with
    | [] => (s, [])
    | r :: rs => let '(s, r') := simplify_ref s r in
                 let '(s, rs') := simplify_refs s rs in (s, r' :: rs')
    end.
  (** for b in B: if a == b: b += a; found = True *)
  Fixpoint merge_loop (smeq : smat K -> smat K -> bool) (h : heap) (a : nat) (B : list nat) : heap * bool :=
    match B with
    | [] => (h, false)
    | b :: B =>
        if tp_eq smeq (h a) (h b)
        then let h' := upd h b (tp_iadd (h b) (h a)) in (fst (merge_loop smeq h' a B), true)
        else merge_loop smeq h a B
    end.
  Fixpoint merge_all smeq (h : heap) (A B : list nat) : heap * list nat :=
    match A with
    | [] => (h, B)
    | a :: A => let '(h, found) := merge_loop smeq h a B in
                merge_all smeq h A (if found then B else B ++ [a])
    end.
  Definition simplified_tpmatrices smeq (s : st) (rs : list nat) : st * list nat :=
    let '(s, A) := simplify_refs s rs in
    match A with
    | [] => (s, [])          (* A[0] raises IndexError *)
    | a :: A => let '(h, B) := merge_all smeq (st_heap s) A [a] in (mkSt h (st_next s), B)
    end.

  (** ** BlockMatrix with tensor product blocks (matrixbase.py 973-1018 __init__, __iadd__):
      a table of reference lists *)
  Definition table := nat -> nat -> list nat.
  Definition tset (t : table) (i j : nat) (l : list nat) : table :=
    fun i' j' => if (i' =? i) && (j' =? j) then l else t i' j'.
  Fixpoint block_add smeq (h : heap) (t : table) (ms : list nat) : heap * table :=
    match ms with
    | [] => (h, t)
    | m :: ms =>
        let '(i, j) := tp_index (h m) in
        match t i j with
        | [] => block_add smeq h (tset t i j [m]) ms
        | l => let '(h, found) := merge_loop smeq h m l in
               block_add smeq h (if found then t else tset t i j (l ++ [m])) ms
        end
    end.
  (** matrixbase.py 1109-1121 matvec (use_scipy False): c[i] += m.matvec(v[j]) *)
  Definition block_row (L : list nat) (first : bool) (h : heap) (t : table) (ncols : nat) (v : nat -> arr)
      (i : nat) : arr := fun idx =>
    for_up ncols 0 (fun j c =>
      fold_left (fun c m => fadd c (tp_matvec L first (h m) (v j) idx)) (t i j) c) f0.

  (** matrixbase.py 973-985 __init__: tensor product matrices with a nondiagonal axis are
      simplified and merged first *)
  Definition block_init smeq (s : st) (ms : list nat) : st * table :=
    let simp := match ms with [] => false
                | m :: _ => match naxes (st_heap s m) with [] => false | _ => true end end in
    let '(s, ms) := if simp then simplified_tpmatrices smeq s ms else (s, ms) in
    let '(h, t) := block_add smeq (st_heap s) (fun _ _ => []) ms in (mkSt h (st_next s), t).
  (** 1020-1040 get_mats: all matrices, block by block *)
  Definition block_mats (nr nc : nat) (t : table) : list nat :=
    flat_map (fun i => flat_map (fun j => t i j) (seq 0 nc)) (seq 0 nr).
  (** 987-989 __add__ *)
  Definition block_plus smeq (nr nc : nat) (s : st) (t1 t2 : table) : st * table :=
    block_init smeq s (block_mats nr nc t1 ++ block_mats nr nc t2).
  (** 991-1018 __iadd__ has no return statement: the name on the left of [M += N] is
      rebound to None; the object that M was bound to is updated *)
  Definition block_iadd_stmt smeq (s : st) (t : table) (ms : list nat) : st * option table * table :=
    let '(h, t') := block_add smeq (st_heap s) t ms in (mkSt h (st_next s), None, t').

  (** ** BlockMatrix with one-dimensional (SparseMatrix) blocks: n += m is SparseMatrix.__iadd__ *)
  Definition sblock_merge (smeq : smat K -> smat K -> bool) (small16 near1 : K -> bool) (m : smat K) (l : list (smat K)) : list (smat K) * bool :=
    fold_right (fun n acc => if smeq m n then (fst (iadd K small16 near1 n m) :: fst acc, true)
                             else (n :: fst acc, snd acc)) ([], false) l.
  Fixpoint sblock_add (smeq : smat K -> smat K -> bool) (small16 near1 : K -> bool) (l : list (smat K)) (ms : list (smat K)) : list (smat K) :=
    match ms with
    | [] => l
    | m :: ms => match l with
                 | [] => sblock_add smeq small16 near1 [m] ms
                 | _ => let '(l', found) := sblock_merge smeq small16 near1 m l in
                        sblock_add smeq small16 near1 (if found then l' else l ++ [m]) ms
                 end
    end.
End TP.
Arguments mkTP {K}.
Arguments tp_mats {K}. Arguments tp_diag {K}. Arguments tp_scale {K}. Arguments tp_simplified {K}. Arguments tp_index {K}.
Arguments mkSt {K}. Arguments st_heap {K}. Arguments st_next {K}.
