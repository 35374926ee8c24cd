(** CheckpointSpec.v -- what a checkpoint has to contain, and what a crash and a
    restart do to the disk.  Nothing here refers to how update works, except
    that a crash may happen after any of its effects. *)
From Coq Require Import Arith List ZArith Bool String.
From Verif Require Import Base CheckpointModel.
Import ListNotations.

Section Spec.
Variables (V T : Type) (vzero : V) (tzero : T).
Notation arr := (arr V). Notation entry := (entry V). Notation file := (file V T).
Notation slot := (slot V T). Notation disk := (disk V T). Notation op := (op V T).
Notation call := (call V T).

(** Every element of the array is stored on exactly one of the P ranks. *)
Definition distributed (P : nat) (u : arr) : Prop :=
  forall i, i < a_size _ u ->
    exists r, r < P /\ a_own _ u r i = true /\
              forall r', r' < P -> a_own _ u r' i = true -> r' = r.

(** [a] is the global array with the distributed parts of [u]. *)
Definition is_global (P : nat) (u : arr) (a : nat -> V) : Prop :=
  forall r i, r < P -> i < a_size _ u -> a_own _ u r i = true -> a i = a_loc _ u r i.

(** One array for each pair (name, step), as in the documentation of the class. *)
Definition good_data (P : nat) (data : list entry) : Prop :=
  0 < P /\
  NoDup (map (fun e => (e_name _ e, e_step _ e)) data) /\
  (forall e, In e data -> exists u, e_val _ e = [u] /\ distributed P u).

(** The file [s] is intact and holds everything the call [c] had to store. *)
Definition holds (c : call) (s : slot) : Prop :=
  exists f, s = Closed _ _ f /\
    f_tstep _ _ f = c_tstep _ _ c /\ f_t _ _ f = c_t _ _ c /\
    forall e u, In e (c_data _ _ c) -> e_val _ e = [u] ->
      exists a, f_data _ _ f (e_name _ e) (e_step _ e) = Some a /\ is_global (c_ranks _ _ c) u a.

(** A crash: closed files keep their content, a file that is being written may
    contain anything afterwards, or be lost. *)
Definition crash_slot (s s' : slot) : Prop :=
  match s with
  | Busy _ _ _ => True
  | _ => s' = s
  end.
Definition crash (d d' : disk) : Prop :=
  crash_slot (main _ _ d) (main _ _ d') /\ crash_slot (old _ _ d) (old _ _ d').

(** The schedules of a call. *)
Definition schedule (c : call) (ws : list op) : Prop :=
  interleaving _ _ (c_ranks _ _ c) (rank_ops V T (c_data _ _ c)) ws.

(** The disk after the call was interrupted after [k] of its effects. *)
Definition interrupted (every : Z) (handle : bool) (d : disk) (c : call) (d' : disk) : Prop :=
  exists ws k, schedule c ws /\
    crash (exec_all V T vzero tzero (firstn k (call_ops V T tzero handle every c ws)) d) d'.

(** [reach every last handle d]: a history of runs, crashes and restarts, with
    [last] the last call that completed a checkpoint.  A run starts without a
    checkpoint (whatever is on the disk), or by reading one of the two files that
    is intact, after moving it to the main name if it is the old one. *)
Inductive reach (every : Z) : option call -> bool -> disk -> Prop :=
| reach_new : forall d, reach every None false d
| reach_update : forall last h d c ws,
    reach every last h d -> good_data (c_ranks _ _ c) (c_data _ _ c) -> schedule c ws ->
    reach every (if call_saves V T every c then Some c else last) true
          (exec_all V T vzero tzero (call_ops V T tzero h every c ws) d)
| reach_restart_main : forall last h d c d',
    reach every (Some last) h d -> interrupted every h d c d' ->
    holds last (main _ _ d') ->
    reach every (Some last) true d'
| reach_restart_old : forall last h d c d',
    reach every (Some last) h d -> interrupted every h d c d' ->
    holds last (old _ _ d') ->
    reach every (Some last) true (Disk _ _ (old _ _ d') (old _ _ d')).

End Spec.
