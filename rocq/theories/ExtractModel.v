(** ExtractModel.v -- shenfun/matrixbase.py 1736-1767 extract_diagonal_matrix, for dense
    rational matrices (the input is a real or complex array; rationals are used because
    the function compares magnitudes). *)
From Coq Require Import Arith ZArith List Bool QArith Qcanon Qcabs.
From Verif Require Import Base Fld SparseModel SparseSpec.
Import ListNotations.
Local Open Scope nat_scope.

Definition qle (a b : Qc) : bool := match Qccompare a b with Gt => false | _ => true end.
Definition qgt (a b : Qc) : bool := negb (qle a b).
Definition qmax (a b : Qc) : Qc := if qle a b then b else a.

(** abs(u).max() of an array with n entries (0 for none; the code raises ValueError) *)
Fixpoint amax (n : nat) (u : nat -> Qc) : Qc :=
  match n with O => 0%Qc | S m => qmax (amax m u) (Qcabs (u m)) end.
(** abs(M).max() *)
Fixpoint amax2 (r c : nat) (M : nat -> nat -> Qc) : Qc :=
  match r with O => 0%Qc | S m => qmax (amax2 m c M) (amax c (M m)) end.

(** M.diagonal(k): element t is M[t - min(k,0), t + max(k,0)] *)
Definition diagonal (M : nat -> nat -> Qc) (k : Z) (t : nat) : Qc :=
  M (Z.to_nat (Z.of_nat t - Z.min k 0)) (Z.to_nat (Z.of_nat t + Z.max k 0)).

(** lines 1757-1759: the loop bounds; bands are None or natural numbers *)
Definition lower (r : nat) (lb : option nat) : nat := match lb with None => r - 1 | Some l => Nat.min l (r - 1) end.
Definition upper (c : nat) (ub : option nat) : nat := match ub with None => c | Some u => Nat.min (u + 1) c end.

Definition keep (r c : nat) (M : nat -> nat -> Qc) (abstol reltol : Qc) (k : Z) : bool :=
  let m := amax (diag_len r c k) (diagonal M k) in
  qgt m abstol && qgt (Qcdiv m (amax2 r c M)) reltol.

Definition extract (r c : nat) (M : nat -> nat -> Qc) (lb ub : option nat) (abstol reltol : Qc) : smat QcFld :=
  let l := lower r lb in
  mkSmat QcFld r c f1
    (map (fun k => (k, Arr QcFld (diag_len r c k) (diagonal M k)))
       (filter (keep r c M abstol reltol)
          (map (fun t => (Z.of_nat t - Z.of_nat l)%Z) (seq 0 (l + upper c ub))))).
