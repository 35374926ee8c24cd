(** DispatchSpec.v -- what a user relies on, without the model's lookup functions. *)
From Coq Require Import String List.
From Verif Require Import DispatchModel.
Import ListNotations.
Local Open Scope string_scope.

(** the mode names a backend, whatever the case of its letters *)
Definition names_backend (mode b : string) := lower mode = b /\ (b = "cython" \/ b = "numba").
(** the backend offers a function of that name *)
Definition offers (m : option namespace) (n : string) := exists l a, m = Some l /\ In (n, a) l.
(** no name is bound twice *)
Definition distinct_names (m : option namespace) := forall l, m = Some l -> NoDup (map fst l).
(** the mode in force after a history that starts in mode m *)
Inductive in_force : string -> list event -> string -> Prop :=
| if_nil m : in_force m [] m
| if_set m m' h x : in_force m' h x -> in_force m (SetMode m' :: h) x
| if_call m f h x : in_force m h x -> in_force m (Call f :: h) x.
(** the number of calls in a history *)
Fixpoint calls (h : list event) : nat :=
  match h with [] => 0 | SetMode _ :: r => calls r | Call _ :: r => S (calls r) end.
(** a number of arguments that the documented Python signature allows *)
Definition allowed (f : fn) (k : nat) := f_req f <= k <= f_max f.
