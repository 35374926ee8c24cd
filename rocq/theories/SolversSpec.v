(** SolversSpec.v -- what it means to solve a linear system, independently of how
    the solvers work. *)
From Coq Require Import Arith ZArith List Bool.
From Verif Require Import Base Fld.

(** entry (i, j) of the matrix that scipy's dia format represents: the storage row of
    the diagonal with offset j - i, read in column j (zero when no diagonal has
    that offset; offsets are pairwise different in all uses) *)
Fixpoint dia_entry_from {K : Fld} (k : nat) (offs : list Z) (data : nat -> nat -> K)
    (i j : nat) : K :=
  match offs with
  | nil => f0
  | o :: offs =>
      if (Z.of_nat j - Z.of_nat i =? o)%Z then data k j
      else dia_entry_from (S k) offs data i j
  end.
Definition dia_entry {K : Fld} (offs : list Z) data i j : K :=
  @dia_entry_from K 0 offs data i j.

(** x solves A x = b, as n scalar equations *)
Definition solves {K : Fld} (n : nat) (A : nat -> nat -> K) (x b : nat -> K) : Prop :=
  forall i, i < n -> fsum n (fun j => fmul (A i j) (x j)) = b i.

(** the matrix with its first row replaced by a row of the identity, and the
    right-hand side with its first entry replaced by [val] *)
Definition ident_row0 {K : Fld} (A : nat -> nat -> K) : nat -> nat -> K :=
  fun i j => if Nat.eqb i 0 then (if Nat.eqb j 0 then f1 else f0) else A i j.
Definition set0 {K : Fld} (b : nat -> K) (val : K) : nat -> K :=
  fun i => if Nat.eqb i 0 then val else b i.

(** every leading principal submatrix A[:k, :k], k <= n, has a trivial kernel.  This
    is the textbook condition for elimination without pivoting (over R or C: all
    leading principal minors are non-zero). *)
Definition leading_nonsingular {K : Fld} (n : nat) (A : nat -> nat -> K) : Prop :=
  forall k, k <= n -> forall x : nat -> K,
    (forall i, i < k -> fsum k (fun j => fmul (A i j) (x j)) = f0) ->
    forall j, j < k -> x j = f0.

(** constrained system: unknown 0 has the prescribed value, all other rows hold *)
Definition solves_pinned0 {K : Fld} (n : nat) (A : nat -> nat -> K) (val : K)
    (x b : nat -> K) : Prop :=
  x 0 = val /\ forall i, 1 <= i < n -> fsum n (fun j => fmul (A i j) (x j)) = b i.
