(** TPSpec.v -- what tensor product and block matrices mean. *)
From Coq Require Import Arith ZArith List.
From Verif Require Import Base Fld SparseModel SparseSpec TPModel.
Import ListNotations.
Local Open Scope nat_scope.

Section Spec.
  Variable K : Fld.
  Notation arr := (list nat -> K).

  (** entry [idx] of (A_0 x A_1 x ... x A_{d-1}) v:
      sum over j_0, ..., j_{d-1} of A_0[i_0,j_0] ... A_{d-1}[i_{d-1},j_{d-1}] v[j_0,...,j_{d-1}] *)
  Fixpoint kron (ms : list (smat K)) (idx : list nat) (v : arr) : K :=
    match ms, idx with
    | [], [] => v []
    | A :: ms, i :: idx =>
        fsum (sm_cols K A) (fun j => fmul (mat_entry K A i j) (kron ms idx (fun r => v (j :: r))))
    | _, _ => f0
    end.

  (** the operator of a TPMatrix, at one index *)
  Definition tp_op (T : tpmat K) (v : arr) (idx : list nat) : K :=
    fmul (tp_scale T idx) (kron (tp_mats T) idx v).

  (** the factor for one axis is well formed, the index is inside, arrays have room for it;
      a diagonal axis has a square factor with only a main diagonal (an identity once
      simplified) which is stored as an array or not scaled *)
  Definition axis_ok (simp : bool) (A : smat K) (fl : bool) (l i : nat) : Prop :=
    wf K A /\ i < sm_rows K A /\ sm_rows K A <= l /\ sm_cols K A <= l /\
    (fl = true -> sm_rows K A = sm_cols K A /\
       (if simp then A = identity_of K A
        else exists d, sm_items K A = [(0%Z, d)] /\
                       ((exists n f, d = Arr K n f) \/ sm_scale K A = f1))).
  Fixpoint axes_ok (simp : bool) (mats : list (smat K)) (flags : list bool) (L idx : list nat) : Prop :=
    match mats, flags, L, idx with
    | [], [], [], [] => True
    | A :: mats, fl :: flags, l :: L, i :: idx => axis_ok simp A fl l i /\ axes_ok simp mats flags L idx
    | _, _, _, _ => False
    end.
  Definition tp_ok (L idx : list nat) (T : tpmat K) : Prop :=
    axes_ok (tp_simplified T) (tp_mats T) (tp_diag T) L idx /\ length (naxes K T) <= 2.

  (** sum over a list *)
  Fixpoint lsum {A} (f : A -> K) (l : list A) : K :=
    match l with [] => f0 | x :: r => fadd (f x) (lsum f r) end.

  (** == never confuses two of the given factors: it implies equality of the operators
      and behaves as an equivalence *)
  Definition good_eq (P : smat K -> Prop) (smeq : smat K -> smat K -> bool) : Prop :=
    forall A B C, P A -> P B -> P C -> smeq A B = true -> same_operator K A B /\
      (smeq A C = true -> smeq C B = true).
End Spec.
