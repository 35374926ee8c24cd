(** CheckpointModel.v -- shenfun/io/__init__.py, class Checkpoint (lines 42-124).

    The disk holds two files, [filename].chk.h5 (main) and
    [filename].old.chk.h5 (old).  A call of [Checkpoint.update] is the list of
    primitive effects it has on the disk, in program order, so that a crash
    point is a prefix of this list.

    Simplifications: the names of the groups are strings, the keys of the
    dictionary [data] are already the integers int(key); an array is addressed
    by one flat global index; shapes and dtypes do not change between calls
    (require_dataset raises otherwise); the collective calls of h5py (open,
    close, attribute access) are one effect, while the element writes of the
    ranks are interleaved arbitrarily. *)
From Coq Require Import Arith Lia List ZArith Bool String.
From Verif Require Import Base.
Import ListNotations.

Section Checkpoint.
Variables (V T : Type) (vzero : V) (tzero : T).

(** A distributed array (DistArray): on rank [r] the elements [i] with
    [a_own r i] (u.local_slice()) are stored, with the values [a_loc r i].
    [a_size] is the number of elements of u.global_shape. *)
Record arr := Arr { a_size : nat; a_own : nat -> nat -> bool; a_loc : nat -> nat -> V }.

(** One item of the data dictionary: data[step][name] = val (lines 48-56). *)
Record entry := Entry { e_step : nat; e_name : string; e_val : list arr }.

(** Content of a checkpoint file: the two attributes (lines 77-78, 88-89) and
    the datasets "name/step" (line 99-101). *)
Record file := File {
  f_tstep : Z;
  f_t : T;
  f_data : string -> nat -> option (nat -> V) }.

(** A file name of the disk: no file, a closed file, or a file that is being
    written (opened for writing and not yet closed, or half copied by cp). *)
Inductive slot := Absent | Closed (f : file) | Busy (f : file).

Record disk := Disk { main : slot; old : slot }.

Inductive op :=
| Create                                        (* h5py.File(main, 'w') *)
| SetTstep (n : Z)                              (* f.attrs['tstep'] = n *)
| SetTime (t : T)                               (* f.attrs['t'] = t *)
| Close                                         (* f.close() *)
| CpBegin | CpEnd                               (* os.system('cp main old') *)
| OpenRW                                        (* h5py.File(main, 'r+') *)
| Require (name : string) (step : nat)          (* require_group, require_dataset *)
| Write (name : string) (step : nat) (own : nat -> bool) (loc : nat -> V).
                                                (* f[name/step][s] = u on one rank *)

Definition keyb (n n' : string) (s s' : nat) : bool :=
  andb (String.eqb n n') (Nat.eqb s s').

(** f[name].require_dataset(str(step), ...): line 100.  A new dataset is filled
    with zeros, an existing one is left as it is. *)
Definition require (f : file) (name : string) (step : nat) : file :=
  File (f_tstep f) (f_t f)
       (fun n s => if keyb n name s step
                   then match f_data f n s with Some a => Some a | None => Some (fun _ => vzero) end
                   else f_data f n s).

(** f["name/step"][s] = u: line 101.  h5py raises a KeyError for a dataset that
    does not exist; nothing is written then. *)
Definition write (f : file) (name : string) (step : nat) (own : nat -> bool) (loc : nat -> V) : file :=
  File (f_tstep f) (f_t f)
       (fun n s => if keyb n name s step
                   then match f_data f n s with
                        | Some a => Some (fun i => if own i then loc i else a i)
                        | None => None
                        end
                   else f_data f n s).

Definition set_tstep (f : file) (n : Z) : file := File n (f_t f) (f_data f).
Definition set_t (f : file) (t : T) : file := File (f_tstep f) t (f_data f).

(** An effect on an opened file; nothing happens if main is not open. *)
Definition on_main (g : file -> file) (d : disk) : disk :=
  match main d with
  | Busy f => Disk (Busy (g f)) (old d)
  | _ => d
  end.

Definition exec (o : op) (d : disk) : disk :=
  match o with
  | Create => Disk (Busy (File 0 tzero (fun _ _ => None))) (old d)
  | SetTstep n => on_main (fun f => set_tstep f n) d
  | SetTime t => on_main (fun f => set_t f t) d
  | Close => match main d with Busy f => Disk (Closed f) (old d) | _ => d end
  | OpenRW => match main d with Closed f => Disk (Busy f) (old d) | _ => d end
  | CpBegin => match main d with
               | Closed f => Disk (main d) (Busy f)
               | _ => d
               end
  | CpEnd => match main d with
             | Closed f => Disk (main d) (Closed f)
             | _ => d
             end
  | Require n s => on_main (fun f => require f n s) d
  | Write n s own loc => on_main (fun f => write f n s own loc) d
  end.

Definition exec_all (l : list op) (d : disk) : disk := fold_left (fun d o => exec o d) l d.

(** [Checkpoint.write] (lines 94-101) for all keys of self.data (lines 86-87):
    the effects of rank [r], in program order. *)
Definition rank_ops (data : list entry) (r : nat) : list op :=
  flat_map (fun e =>
    flat_map (fun u => [Require (e_name e) (e_step e);
                        Write (e_name e) (e_step e) (a_own u r) (a_loc u r)])
             (e_val e)) data.

(** [interleaving P prog w]: [w] is a schedule of the programs of the ranks
    0, ..., P-1. *)
Inductive interleaving (P : nat) : (nat -> list op) -> list op -> Prop :=
| il_done : forall prog, (forall r, r < P -> prog r = []) -> interleaving P prog []
| il_step : forall prog r o l w,
    r < P -> prog r = o :: l ->
    interleaving P (upd prog r l) w ->
    interleaving P prog (o :: w).

(** [check_if_kill] (lines 111-124): found.(r) says whether rank r sees the file
    killshenfun; the sum over all ranks (comm.allreduce) is compared with 0. *)
Definition check_if_kill (P : nat) (found : nat -> bool) : bool :=
  Nat.ltb 0 (gsum 0 Nat.add P (fun r => if found r then 1 else 0)).

(** The condition of line 83: tstep % self.checkevery == 0 or kill. *)
Definition saves (every tstep : Z) (kill : bool) : bool :=
  orb (Z.eqb (tstep mod every) 0) kill.

(** [Checkpoint.update] (lines 74-92).  [handle]: self.f is not None, which
    holds after the first call of open (by update or read), also when the file
    is closed again.  [ws] is the schedule of the element writes. *)
Definition update_ops (handle : bool) (every : Z) (kill : bool) (t : T) (tstep : Z)
  (ws : list op) : list op :=
  (if handle then [] else [Create; SetTstep 0; SetTime tzero; Close])
  ++ (if saves every tstep kill
      then [CpBegin; CpEnd; OpenRW] ++ ws ++ [SetTstep tstep; SetTime t; Close]
      else []).

(** [Checkpoint.read] (lines 103-109) on one rank: u[:] = f[name/step][s]; a
    missing dataset raises (None). *)
Definition read (d : disk) (name : string) (step : nat) (own : nat -> bool) (u : nat -> V)
  : option (nat -> V) :=
  match main d with
  | Closed f => match f_data f name step with
                | Some a => Some (fun i => if own i then a i else u i)
                | None => None
                end
  | _ => None
  end.

(** A call of update: the arguments, the contents of self.data at that time, the
    number of ranks, and what the ranks see of killshenfun. *)
Record call := Call {
  c_ranks : nat;
  c_data : list entry;
  c_t : T;
  c_tstep : Z;
  c_found : nat -> bool }.

Definition call_saves (every : Z) (c : call) : bool :=
  saves every (c_tstep c) (check_if_kill (c_ranks c) (c_found c)).

Definition call_ops (handle : bool) (every : Z) (c : call) (ws : list op) : list op :=
  update_ops handle every (check_if_kill (c_ranks c) (c_found c)) (c_t c) (c_tstep c) ws.

End Checkpoint.
