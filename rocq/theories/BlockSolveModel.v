(** BlockSolveModel.v -- shenfun/la.py BlockMatrixSolver (1436-1540).

    The right hand side and the solution are given per key (index of the diagonal axes) as
    flat vectors; that copy_to_flattened and copy_from_flattened (1525, 1537-1540) are inverse
    bijections between a Function and these vectors is C24.  [A key] is self.mat._Ai[key], the
    assembled block matrix of size n = dims[-1]; [off] is dims, the offsets of the blocks.
    Simplifications: exact arithmetic, no boundary matrices, a complex right hand side with
    a real matrix is solved over the complex field.  SuperLU is [lu_solve]. *)
From Coq Require Import Arith List Bool.
From Verif Require Import Base Fld NDSolveModel.
Import ListNotations.
Local Open Scope nat_scope.

Section Model.
  Variable K : Fld.
  Variable lu_solve : nat -> (nat -> nat -> K) -> (nat -> K) -> (nat -> K).
  Notation vec := (nat -> K).
  Notation dia := (nat -> nat -> K).
  Notation key := (list nat).

  (** a constraint: block, degree of freedom, value *)
  Definition con : Type := nat * nat * K.

  (** la.py 1449-1473 apply_constraint: nothing on other ranks and for other keys; A is
      None when the matrix has been factorised *)
  Definition skip (rank0 : bool) (k : key) : bool := negb rank0 || (0 <? list_sum k).
  Definition bl_constrain (rank0 : bool) (off : nat -> nat) (k : key) (A : option dia) (b : vec) (c : con)
      : option dia * vec :=
    if skip rank0 k then (A, b)
    else let row := off (fst (fst c)) + snd (fst c) in
         (match A with Some A => Some (pin_row K A row) | None => None end, upd b row (snd c)).
  Definition bl_constrain_all rank0 off k A b (cs : list con) : option dia * vec :=
    fold_left (fun Ab c => bl_constrain rank0 off k (fst Ab) (snd Ab) c) cs (A, b).

  (** the object: for every key the matrix that _lu[key] was made of *)
  Definition bl_state := key -> option dia.
  Definition bl_new : bl_state := fun _ => None.

  (** la.py 1519-1536: the loop body for one key *)
  Definition bl_key rank0 off n (A : key -> dia) (lu : option dia) (cs : list con) (k : key) (b : vec) : dia * vec :=
    match lu with
    | Some L => (L, lu_solve n L (snd (bl_constrain_all rank0 off k None b cs)))
    | None =>
        match bl_constrain_all rank0 off k (Some (A k)) b cs with
        | (Some L, b) => (L, lu_solve n L b)
        | (None, b) => (A k, b)                    (* cannot occur *)
        end
    end.
  Definition key_eqb (k k' : key) : bool := if list_eq_dec Nat.eq_dec k k' then true else false.
  (** la.py 1475-1540 __call__, at least one non-diagonal axis *)
  Definition bl_call rank0 off n (A : key -> dia) (keys : list key) (g : bl_state) (cs : list con)
      (b u : key -> vec) : bl_state * (key -> vec) :=
    (fun k => if existsb (key_eqb k) keys then Some (fst (bl_key rank0 off n A (g k) cs k (b k))) else g k,
     fun k => if existsb (key_eqb k) keys then snd (bl_key rank0 off n A (g k) cs k (b k)) else u k).
  Fixpoint bl_calls rank0 off n A keys (g : bl_state) (h : list (list con * (key -> vec) * (key -> vec)))
      (cs : list con) (b u : key -> vec) : key -> vec :=
    match h with
    | [] => snd (bl_call rank0 off n A keys g cs b u)
    | (cs', b', u') :: h => bl_calls rank0 off n A keys (fst (bl_call rank0 off n A keys g cs' b' u')) h cs b u
    end.

  (** la.py 1501-1516: only Fourier axes.  _Ai[0] is never changed; once _lu is no dict any
      more only the right hand side is constrained, and the matrix is factorised each time.
      [first]: _lu is still a dict *)
  Definition fb_call rank0 off n (A : dia) (first : bool) (cs : list con) (b : vec) : bool * vec :=
    let '(A', b') := bl_constrain_all rank0 off [0] (if first then Some A else None) b cs in
    (false, lu_solve n (match A' with Some A' => A' | None => A end) b').
  Fixpoint fb_calls rank0 off n A (first : bool) (h : list (list con * vec)) (cs : list con) (b : vec) : vec :=
    match h with
    | [] => snd (fb_call rank0 off n A first cs b)
    | (cs', b') :: h => fb_calls rank0 off n A (fst (fb_call rank0 off n A first cs' b')) h cs b
    end.
End Model.
