(** ConfigModel.v -- shenfun/config.py: merging of configuration files.

    A value is a leaf (number, string, list, None, ...) or a mapping.  A Python dictionary is
    the list of its items in insertion order.  Simplifications: keys are strings; the leaves
    are not mutable, so that storing newconf[key] without a copy (103) is storing its value;
    when an exception is raised the import of shenfun fails, and the changes made by then are
    not modelled. *)
From Coq Require Import String List Bool.
Import ListNotations.
Local Open Scope string_scope.

Section Model.
  Variable V : Type.
  Inductive cfg := Leaf (v : V) | Map (items : list (string * cfg)).

  (** conf.get(key) *)
  Fixpoint get (k : string) (l : list (string * cfg)) : option cfg :=
    match l with
    | [] => None
    | (k', x) :: r => if String.eqb k k' then Some x else get k r
    end.
  (** conf[key] = x: the position of an existing key is kept *)
  Fixpoint set (k : string) (x : cfg) (l : list (string * cfg)) : list (string * cfg) :=
    match l with
    | [] => [(k, x)]
    | (k', y) :: r => if String.eqb k k' then (k', x) :: r else (k', y) :: set k x r
    end.

  (** config.py 96-104 update(conf, newconf); None for an exception: newconf without items()
      (99, a file that is empty), a leaf as conf that has no get() or no item assignment *)
  Fixpoint update (conf newconf : cfg) {struct newconf} : option cfg :=
    match newconf with
    | Leaf _ => None
    | Map items =>
        (fix loop (items : list (string * cfg)) (conf : cfg) {struct items} : option cfg :=
           match items with
           | [] => Some conf
           | (key, value) :: rest =>
               match conf with
               | Leaf _ => None
               | Map l =>
                   let x := match value with
                            | Map (_ :: _) => update (match get key l with Some y => y | None => Map [] end) value
                            | _ => Some value
                            end in
                   match x with
                   | None => None
                   | Some x => loop rest (Map (set key x l))
                   end
               end
           end) items conf
    end.

  (** config.py 106-116: the files of the two locations, None for a file that does not exist *)
  Fixpoint load (config : cfg) (files : list (option cfg)) : option cfg :=
    match files with
    | [] => Some config
    | None :: r => load config r
    | Some f :: r => match update config f with Some c => load c r | None => None end
    end.
End Model.
Arguments Leaf {V}. Arguments Map {V}. Arguments get {V}. Arguments set {V}. Arguments update {V}. Arguments load {V}.
