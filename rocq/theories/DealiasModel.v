(** DealiasModel.v -- get_dealiased with its cache and the work array of Function.backward
    (tensorproductspace.py, spectralbase.py, forms/arguments.py). *)
From Coq Require Import Arith List Bool.
Import ListNotations.

Section Dealias.
(** numbers used as padding factors, their equality and the number 1 *)
Variable F : Type.
Variable feqb : F -> F -> bool.
Variable one : F.

(** the argument padding_factor: a number or a tuple *)
Inductive factor := Number (x : F) | Tuple (l : list F).
Record request := mkReq { rfactor : factor; rdirect : bool }.
(** what distinguishes the returned space: its padding factor per axis and the dealias_direct flag *)
Record padded := mkPadded { pfactors : list F; pdirect : bool }.
(** the result of a call: the space itself, a padded space, or an exception (wrong tuple length) *)
Inductive result := Self | Padded (p : padded) | Fails.

Fixpoint list_eqb (a b : list F) : bool :=
  match a, b with [], [] => true | x :: a, y :: b => feqb x y && list_eqb a b | _, _ => false end.
(** self._padded_space: keys are tuples of factors *)
Definition cache := list (list F * padded).
Fixpoint lookup (c : cache) (k : list F) : option padded :=
  match c with [] => None | (k', p) :: c => if list_eqb k k' then Some p else lookup c k end.

(** padding_factor == 1 *)
Definition is_number_one (f : factor) : bool := match f with Number x => feqb x one | Tuple _ => false end.
(** tensorproductspace.py 557-560: the tuple of factors, one per axis ([dim] axes) *)
Definition tuple_of (dim : nat) (f : factor) : option (list F) :=
  match f with Number x => Some (repeat x dim) | Tuple l => if Nat.eqb (length l) dim then Some l else None end.
(** tensorproductspace.py 543-578 TensorProductSpace.get_dealiased *)
Definition get_dealiased (dim : nat) (c : cache) (r : request) : result * cache :=
  if is_number_one (rfactor r) && negb (rdirect r) then (Self, c)
  else match tuple_of dim (rfactor r) with
       | None => (Fails, c)
       | Some k => match lookup c k with
                   | Some p => (Padded p, c)                      (* 562-563 *)
                   | None => let p := mkPadded k (rdirect r) in (Padded p, (k, p) :: c)   (* 565-578 *)
                   end
       end.
Definition run (dim : nat) (c : cache) (h : list request) : cache := fold_left (fun c r => snd (get_dealiased dim c r)) h c.
(** spectralbase.py 1111-1146, fourier/bases.py 185-191: one-dimensional spaces, no cache.  The Fourier version has no
    test and returns a new space with factor 1 *)
Definition base_get_dealiased (x : F) (direct : bool) : result := if feqb x one && negb direct then Self else Padded (mkPadded [x] direct).
Definition fourier_get_dealiased (x : F) (direct : bool) : result := Padded (mkPadded [x] direct).
(** tensorproductspace.py 1706-1711 VectorSpace.get_dealiased with equal component spaces: the components are the
    padded space of component 0 *)
Definition vector_get_dealiased (dim : nat) (c : cache) (r : request) : result * cache :=
  if is_number_one (rfactor r) && negb (rdirect r) then (Self, c) else get_dealiased dim c r.

(** forms/arguments.py 1580-1638 Function.backward(padding_factor): the shape of the returned array.  [work] is the shape
    of self._backward_work_array, [shape k] the physical shape of the space padded by the tuple k *)
Variable S : Type.
Variable shape : list F -> S.
Definition backward_padded (dim : nat) (work : option S) (f : factor) : option S * option S :=
  match tuple_of dim f with
  | None => (None, work)
  | Some k => match work with
              | Some w => (Some w, work)                          (* hasattr(self, '_backward_work_array') *)
              | None => (Some (shape k), Some (shape k))
              end
  end.
Definition run_backward (dim : nat) (h : list factor) : option S := fold_left (fun w f => snd (backward_padded dim w f)) h None.
End Dealias.
Arguments Number {F}. Arguments Tuple {F}. Arguments mkReq {F}. Arguments rfactor {F}. Arguments rdirect {F}. Arguments mkPadded {F}.
Arguments pfactors {F}. Arguments pdirect {F}. Arguments Self {F}. Arguments Padded {F}. Arguments Fails {F}.
Arguments is_number_one {F}. Arguments tuple_of {F}. Arguments get_dealiased {F}. Arguments run {F}. Arguments lookup {F}. Arguments list_eqb {F}.
Arguments base_get_dealiased {F}. Arguments fourier_get_dealiased {F}. Arguments vector_get_dealiased {F}. Arguments backward_padded {F} {S}. Arguments run_backward {F} {S}.
