(** ConfigSpec.v -- what a configuration says about a path of keys. *)
From Coq Require Import String List.
From Verif Require Import ConfigModel.
Import ListNotations.

Section Spec.
  Context {V : Type}.
  (** config[k1][k2]...: None for a KeyError or TypeError *)
  Fixpoint at_path (p : list string) (c : cfg V) : option (cfg V) :=
    match p with
    | [] => Some c
    | k :: p' => match c with
                 | Leaf _ => None
                 | Map l => match get k l with Some x => at_path p' x | None => None end
                 end
    end.

  (** a leaf or an empty mapping: what update stores as it is *)
  Definition terminal (c : cfg V) : Prop := match c with Map (_ :: _) => False | _ => True end.
  (** the file says the value at p *)
  Definition says (c : cfg V) (p : list string) (x : cfg V) : Prop := at_path p c = Some x /\ terminal x.
  (** the file has no opinion on p: some key on the way is missing in a section *)
  Fixpoint silent (c : cfg V) (p : list string) : Prop :=
    match p with
    | [] => False
    | k :: p' => match c with
                 | Leaf _ | Map [] => False
                 | Map l => match get k l with None => True | Some x => silent x p' end
                 end
    end.
  (** the keys of every dictionary are different *)
  Inductive wfc : cfg V -> Prop :=
  | wf_leaf v : wfc (Leaf v)
  | wf_map l : NoDup (map fst l) -> (forall kx, In kx l -> wfc (snd kx)) -> wfc (Map l).

  (** no section of n stands where c has a leaf *)
  Definition compatible (c n : cfg V) : Prop :=
    forall p v kx l, at_path p n = Some (Map (kx :: l)) -> at_path p c <> Some (Leaf v).
End Spec.
