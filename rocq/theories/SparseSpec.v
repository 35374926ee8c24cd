(** SparseSpec.v -- what a SparseMatrix object means. *)
From Coq Require Import Arith ZArith List.
From Verif Require Import Base Fld SparseModel.
Import ListNotations.
Local Open Scope nat_scope.

Section Spec.
  Variable K : Fld.

  (** the stored diagonal with a given offset, if any *)
  Fixpoint lookup (l : list (Z * dval K)) (o : Z) : option (dval K) :=
    match l with
    | [] => None
    | (k, v) :: r => if Z.eq_dec k o then Some v else lookup r o
    end.

  (** entry (i, j) of the matrix represented by the object: the diagonal with offset
      j - i is counted from its first entry inside the matrix, so its element number is
      min(i, j); the whole is multiplied by the scale *)
  Definition mat_entry (A : smat K) (i j : nat) : K :=
    match lookup (sm_items K A) (Z.of_nat j - Z.of_nat i)%Z with
    | None => f0
    | Some d => fmul (dget K d (Nat.min i j)) (sm_scale K A)
    end.

  (** number of entries of the diagonal with offset k inside an N x M matrix *)
  Definition diag_len (N M : nat) (k : Z) : nat :=
    Z.to_nat (Z.min (Z.of_nat N + Z.min k 0) (Z.of_nat M - Z.max k 0)).

  (** a well-formed object: offsets are different and meet the matrix; a diagonal given as
      an array has the length of that diagonal *)
  Definition wf (A : smat K) : Prop :=
    NoDup (map fst (sm_items K A)) /\
    Forall (fun kv => (- Z.of_nat (sm_rows K A) < fst kv < Z.of_nat (sm_cols K A))%Z /\
                      match snd kv with
                      | Scal _ _ => True
                      | Arr _ n _ => n = diag_len (sm_rows K A) (sm_cols K A) (fst kv)
                      end) (sm_items K A).

  (** the product of an N x M matrix with a vector *)
  Definition mat_vec (M : nat) (A : nat -> nat -> K) (v : nat -> K) (i : nat) : K :=
    fsum M (fun j => fmul (A i j) (v j)).

  (** two objects represent the same linear operator *)
  Definition same_operator (A B : smat K) : Prop :=
    sm_rows K A = sm_rows K B /\ sm_cols K A = sm_cols K B /\
    forall i j, i < sm_rows K A -> j < sm_cols K A -> mat_entry A i j = mat_entry B i j.
End Spec.
