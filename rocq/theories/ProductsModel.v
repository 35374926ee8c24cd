(** ProductsModel.v -- shenfun/utilities/__init__.py: cross, outer, dot, wrap_periodic and
    CachedArrayDict; optimization/cython/{cross,outer}.pyx.

    Arrays live in a heap, so that "c is a" can be expressed: a heap gives for an array (a
    number), a component (the first index) and a grid point (all other indices, flattened) a
    value.  A NumPy statement evaluates its right hand side at every point before it stores. *)
From Coq Require Import Arith ZArith List Bool.
From Verif Require Import Base Fld.
Import ListNotations.

Section Products.
Variable K : Fld.
Local Open Scope fld_scope.

Definition heap := nat -> nat -> nat -> K.
(** c[i] = f *)
Definition store (h : heap) (c i : nat) (f : nat -> K) : heap :=
  fun a j p => if (Nat.eqb a c && Nat.eqb j i)%bool then f p else h a j p.
(** c[i, p] = v *)
Definition store1 (h : heap) (c i p : nat) (v : K) : heap :=
  fun a j q => if (Nat.eqb a c && Nat.eqb j i && Nat.eqb q p)%bool then v else h a j q.

(** statement sequencing *)
Definition andthen (h : heap) (next : heap -> heap) : heap := next h.
Notation "'do' x <- v ;; k" := (andthen v (fun x => k)) (at level 200, x name, v at level 100, k at level 200).

(** utilities/__init__.py 198-200 cross2D; c has a single component, number 0 *)
Definition cross2D (h : heap) (c a b : nat) : heap :=
  store h c 0 (fun p => h a 0%nat p * h b 1%nat p - h a 1%nat p * h b 0%nat p).
(** utilities/__init__.py 202-206 cross3D *)
Definition cross3D (h : heap) (c a b : nat) : heap :=
  let h := store h c 0 (fun p => h a 1%nat p * h b 2%nat p - h a 2%nat p * h b 1%nat p) in
  let h := store h c 1 (fun p => h a 2%nat p * h b 0%nat p - h a 0%nat p * h b 2%nat p) in
  store h c 2 (fun p => h a 0%nat p * h b 1%nat p - h a 1%nat p * h b 0%nat p).
(** cross.pyx 14-25 cross2D; the loops over i, j are one loop over the n points *)
Definition cross2D_cy (n : nat) (h : heap) (c a b : nat) : heap :=
  for_up n 0 (fun p h =>
    let a0 := h a 0%nat p in let a1 := h a 1%nat p in
    let b0 := h b 0%nat p in let b1 := h b 1%nat p in
    store1 h c 0 p (a0 * b1 - a1 * b0)) h.
(** cross.pyx 27-42 cross3D *)
Definition cross3D_cy (n : nat) (h : heap) (c a b : nat) : heap :=
  for_up n 0 (fun p h =>
    let a0 := h a 0%nat p in let a1 := h a 1%nat p in let a2 := h a 2%nat p in
    let b0 := h b 0%nat p in let b1 := h b 1%nat p in let b2 := h b 2%nat p in
    let h := store1 h c 0 p (a1 * b2 - a2 * b1) in
    let h := store1 h c 1 p (a2 * b0 - a0 * b2) in
    store1 h c 2 p (a0 * b1 - a1 * b0)) h.

(** utilities/__init__.py 234-242 outer2D *)
Definition outer2D (h : heap) (a b c : nat) (symmetric : bool) : heap :=
  do h <- store h c 0 (fun p => h a 0%nat p * h b 0%nat p) ;;
  do h <- store h c 1 (fun p => h a 0%nat p * h b 1%nat p) ;;
  do h <- (if symmetric then store h c 2 (h c 1%nat) else store h c 2 (fun p => h a 1%nat p * h b 0%nat p)) ;;
  store h c 3 (fun p => h a 1%nat p * h b 1%nat p).
(** utilities/__init__.py 244-259 outer3D *)
Definition outer3D (h : heap) (a b c : nat) (symmetric : bool) : heap :=
  do h <- store h c 0 (fun p => h a 0%nat p * h b 0%nat p) ;;
  do h <- store h c 1 (fun p => h a 0%nat p * h b 1%nat p) ;;
  do h <- store h c 2 (fun p => h a 0%nat p * h b 2%nat p) ;;
  do h <- (if symmetric then
      do h <- store h c 3 (h c 1%nat) ;;
      do h <- store h c 6 (h c 2%nat) ;;
      store h c 7 (h c 5%nat)
    else
      do h <- store h c 3 (fun p => h a 1%nat p * h b 0%nat p) ;;
      do h <- store h c 6 (fun p => h a 2%nat p * h b 0%nat p) ;;
      store h c 7 (fun p => h a 2%nat p * h b 1%nat p)) ;;
  do h <- store h c 4 (fun p => h a 1%nat p * h b 1%nat p) ;;
  do h <- store h c 5 (fun p => h a 1%nat p * h b 2%nat p) ;;
  store h c 8 (fun p => h a 2%nat p * h b 2%nat p).
(** outer.pyx 13-28 outer2D *)
Definition outer2D_cy (n : nat) (h : heap) (a b c : nat) (symmetric : bool) : heap :=
  if symmetric then
    for_up n 0 (fun p h =>
      do h <- store1 h c 0 p (h a 0%nat p * h a 0%nat p) ;;
      do h <- store1 h c 1 p (h a 0%nat p * h a 1%nat p) ;;
      do h <- store1 h c 2 p (h c 1%nat p) ;;
      store1 h c 3 p (h a 1%nat p * h a 1%nat p)) h
  else
    for_up n 0 (fun p h =>
      do h <- store1 h c 0 p (h a 0%nat p * h b 0%nat p) ;;
      do h <- store1 h c 1 p (h a 0%nat p * h b 1%nat p) ;;
      do h <- store1 h c 2 p (h a 1%nat p * h b 0%nat p) ;;
      store1 h c 3 p (h a 1%nat p * h b 1%nat p)) h.
(** outer.pyx 31-60 outer3D *)
Definition outer3D_cy (n : nat) (h : heap) (a b c : nat) (symmetric : bool) : heap :=
  if symmetric then
    for_up n 0 (fun p h =>
      do h <- store1 h c 0 p (h a 0%nat p * h a 0%nat p) ;;
      do h <- store1 h c 1 p (h a 0%nat p * h a 1%nat p) ;;
      do h <- store1 h c 2 p (h a 0%nat p * h a 2%nat p) ;;
      do h <- store1 h c 3 p (h c 1%nat p) ;;
      do h <- store1 h c 4 p (h a 1%nat p * h a 1%nat p) ;;
      do h <- store1 h c 5 p (h a 1%nat p * h a 2%nat p) ;;
      do h <- store1 h c 6 p (h c 2%nat p) ;;
      do h <- store1 h c 7 p (h c 5%nat p) ;;
      store1 h c 8 p (h a 2%nat p * h a 2%nat p)) h
  else
    for_up n 0 (fun p h =>
      do h <- store1 h c 0 p (h a 0%nat p * h b 0%nat p) ;;
      do h <- store1 h c 1 p (h a 0%nat p * h b 1%nat p) ;;
      do h <- store1 h c 2 p (h a 0%nat p * h b 2%nat p) ;;
      do h <- store1 h c 3 p (h a 1%nat p * h b 0%nat p) ;;
      do h <- store1 h c 4 p (h a 1%nat p * h b 1%nat p) ;;
      do h <- store1 h c 5 p (h a 1%nat p * h b 2%nat p) ;;
      do h <- store1 h c 6 p (h a 2%nat p * h b 0%nat p) ;;
      do h <- store1 h c 7 p (h a 2%nat p * h b 1%nat p) ;;
      store1 h c 8 p (h a 2%nat p * h b 2%nat p)) h.
(** utilities/__init__.py 227-232 outer: symmetric is "a is b"; dim is av.shape[0] *)
Definition outer (dim : nat) (h : heap) (a b c : nat) : heap :=
  match dim with
  | 2 => outer2D h a b c (Nat.eqb a b)
  | 3 => outer3D h a b c (Nat.eqb a b)
  | _ => h
  end.
Definition outer_cy (dim n : nat) (h : heap) (a b c : nat) : heap :=
  match dim with
  | 2 => outer2D_cy n h a b c (Nat.eqb a b)
  | 3 => outer3D_cy n h a b c (Nat.eqb a b)
  | _ => h
  end.

(** ** dot (utilities/__init__.py 318-402): the loops over components, at one grid point.
    u and v have components in physical space; g j k is measure(gij[j, k]) at the point and
    gz j k is the symbolic test gij[j, k] == 0.  uv is zero before (line 305). *)
Definition vec := nat -> K.
Definition ten := nat -> nat -> K.
Definition dot11_cart (D : nat) (u v : vec) : K := for_up D 0 (fun i uv => uv + u i * v i) 0.
Definition dot21_cart (D : nat) (u : ten) (v : vec) : vec :=
  for_up D 0 (fun i uv => for_up D 0 (fun j uv => upd uv i (uv i + u i j * v j)) uv) (fun _ => 0).
Definition dot12_cart (D : nat) (u : vec) (v : ten) : vec :=
  for_up D 0 (fun i uv => for_up D 0 (fun j uv => upd uv j (uv j + u i * v i j)) uv) (fun _ => 0).
Definition dot22_cart (D : nat) (u v : ten) : ten :=
  for_up D 0 (fun i uv => for_up D 0 (fun j uv => for_up D 0 (fun k uv =>
     upd2 uv i k (uv i k + u i j * v j k)) uv) uv) (fun _ _ => 0).
(** curvilinear coordinates *)
Definition dot11_orth (D : nat) (g : ten) (u v : vec) : K :=
  for_up D 0 (fun i uv => uv + u i * v i * g i i) 0.
Definition dot11_curv (D : nat) (g : ten) (gz : nat -> nat -> bool) (u v : vec) : K :=
  for_up D 0 (fun i uv => for_up D 0 (fun j uv => if gz i j then uv else uv + u i * v j * g i j) uv) 0.
Definition dot21_curv (D : nat) (g : ten) (gz : nat -> nat -> bool) (u : ten) (v : vec) : vec :=
  for_up D 0 (fun i uv => for_up D 0 (fun j uv => for_up D 0 (fun k uv =>
     if gz j k then uv else upd uv i (uv i + u i j * v k * g j k)) uv) uv) (fun _ => 0).
Definition dot12_curv (D : nat) (g : ten) (gz : nat -> nat -> bool) (u : vec) (v : ten) : vec :=
  for_up D 0 (fun i uv => for_up D 0 (fun j uv =>
     if gz i j then uv else for_up D 0 (fun k uv => upd uv k (uv k + u i * v j k * g i j)) uv) uv) (fun _ => 0).
Definition dot22_curv (D : nat) (g : ten) (gz : nat -> nat -> bool) (u v : ten) : ten :=
  for_up D 0 (fun i uv => for_up D 0 (fun j uv => for_up D 0 (fun k uv =>
     if gz j k then uv else for_up D 0 (fun l uv => upd2 uv i l (uv i l + u i j * v k l * g j k)) uv) uv) uv) (fun _ _ => 0).
End Products.

(** ** wrap_periodic (utilities/__init__.py 574-595) for one array: shape and entries.
    np.concatenate([x, first slice], axis=k) appends slice 0 along axis k (581-586).
    [None] is the ValueError / IndexError NumPy raises: np.vstack makes its operands at least
    two-dimensional, so x and x[0] do not fit for a three-dimensional (or longer) x, nor for a
    one-dimensional x with more than one entry (a 1-D x of length 1 becomes [[x0],[x0]]). *)
Section Wrap.
Variable T : Type.
Record arr := mkArr { a_shape : list nat; a_at : list nat -> T }.
Definition set_nth (k v : nat) (l : list nat) : list nat := firstn k l ++ v :: skipn (S k) l.
Definition append_first (k : nat) (x : arr) : arr :=
  let n := nth k (a_shape x) 0 in
  mkArr (set_nth k (S n) (a_shape x))
        (fun idx => a_at x (if Nat.ltb (nth k idx 0) n then idx else set_nth k 0 idx)).
(** 581-582 np.vstack([x, x[0]]) *)
Definition wrap0 (x : arr) : option arr :=
  match a_shape x with
  | [n; _] => if Nat.ltb 0 n then Some (append_first 0 x) else None
  | [1] => Some (mkArr [2; 1] (fun _ => a_at x [0]))
  | _ => None
  end.
(** 583-584 np.hstack([x, x[:, 0][:, None]]); needs a second axis that is not empty *)
Definition wrap1 (x : arr) : option arr :=
  if (Nat.leb 2 (length (a_shape x)) && Nat.ltb 0 (nth 1 (a_shape x) 0))%bool then Some (append_first 1 x) else None.
(** 585-586 np.concatenate([x, x[:, :, 0][:, :, None]], axis=2) *)
Definition wrap2 (x : arr) : option arr :=
  if (Nat.leb 3 (length (a_shape x)) && Nat.ltb 0 (nth 2 (a_shape x) 0))%bool then Some (append_first 2 x) else None.
Definition obind {A B} (o : option A) (f : A -> option B) : option B := match o with Some a => f a | None => None end.
Definition wrap_periodic (x : arr) (ax0 ax1 ax2 : bool) : option arr :=
  obind (if ax0 then wrap0 x else Some x) (fun x =>
  obind (if ax1 then wrap1 x else Some x) (fun x =>
  if ax2 then wrap2 x else Some x)).
End Wrap.

(** ** CachedArrayDict (utilities/__init__.py 83-135).  A key is (shape, dtype, index); arrays
    are numbers, [next] is the next fresh one; [junk] is what np.empty returns. *)
Section Cache.
Variable K : Fld.
Definition wkey := (list nat * nat * nat)%type.
Lemma wkey_dec (a b : wkey) : {a = b} + {a <> b}.
Proof. decide equality; [apply Nat.eq_dec|]. decide equality; [apply Nat.eq_dec|]. apply list_eq_dec, Nat.eq_dec. Defined.
Record cache := mkCache { ca_data : list (wkey * nat); ca_mem : nat -> nat -> K; ca_next : nat }.
Fixpoint ca_find (k : wkey) (l : list (wkey * nat)) : option nat :=
  match l with [] => None | (k', v) :: r => if wkey_dec k' k then Some v else ca_find k r end.
(** 106-116 __getitem__ *)
Definition ca_get (junk : nat -> K) (c : cache) (k : wkey) (fill : bool) : cache * nat :=
  let '(c, v) := match ca_find k (ca_data c) with
    | Some v => (c, v)
    | None => (mkCache ((k, ca_next c) :: ca_data c) (upd (ca_mem c) (ca_next c) junk) (S (ca_next c)), ca_next c)
    end in
  (if fill then mkCache (ca_data c) (upd (ca_mem c) v (fun _ => f0)) (ca_next c) else c, v).
(** 129-130 __delitem__ (the array itself stays alive in the caller) *)
Definition ca_del (c : cache) (k : wkey) : cache :=
  mkCache (filter (fun kv => if wkey_dec (fst kv) k then false else true) (ca_data c)) (ca_mem c) (ca_next c).
(** what a caller does with arrays it holds: assign an element *)
Definition ca_write (c : cache) (v i : nat) (x : K) : cache :=
  mkCache (ca_data c) (upd (ca_mem c) v (upd (ca_mem c v) i x)) (ca_next c).
Inductive cop := CGet (k : wkey) (fill : bool) (junk : nat -> K) | CDel (k : wkey) | CWrite (v i : nat) (x : K).
Definition ca_step (c : cache) (o : cop) : cache :=
  match o with CGet k fill junk => fst (ca_get junk c k fill) | CDel k => ca_del c k | CWrite v i x => ca_write c v i x end.
Definition ca_run (ops : list cop) : cache := fold_left ca_step ops (mkCache [] (fun _ _ => f0) 0).
End Cache.
