(** MDSolveSpec.v -- what it means to solve a system of tensor product matrices. *)
From Coq Require Import Arith ZArith List Bool.
From Verif Require Import Base Fld SolversModel SolversSpec SparseModel SparseSpec TPSpec MDSolveModel.
Import ListNotations.
Local Open Scope nat_scope.

Section Spec.
  Variable K : Fld.
  Notation arr := (nat -> nat -> nat -> K).

  (** row r of the operator for the wavenumbers (i, j): the sum over the terms of
      scale[i, j] * (A u[i, j, :])[r] *)
  Definition md_row (n : nat) (ts : list (tterm K)) (i j : nat) (x : nat -> K) (r : nat) : K :=
    lsum K (fun t => fmul (t_scale K t i j)
                       (fsum n (fun c => fmul (mat_entry K (t_mat K t) r c) (x c)))) ts.
  (** the matrix of that operator *)
  Definition md_mat (ts : list (tterm K)) (i j r c : nat) : K :=
    lsum K (fun t => fmul (t_scale K t i j) (mat_entry K (t_mat K t) r c)) ts.

  (** u solves the system with right hand side b on an N0 x N1 block of wavenumbers; entries
      of the arrays beyond the matrices are those of b *)
  Definition md_solves (N0 N1 n : nat) (ts : list (tterm K)) (u b : arr) : Prop :=
    forall i j, i < N0 -> j < N1 ->
      (forall r, r < n -> md_row n ts i j (u i j) r = b i j r) /\
      (forall r, n <= r -> u i j r = b i j r).
  (** the same with unknown 0 of wavenumber (0, 0) prescribed instead of its first row *)
  Definition md_solves_pinned (N0 N1 n : nat) (ts : list (tterm K)) (v : K) (u b : arr) : Prop :=
    u 0 0 0 = v /\
    forall i j, i < N0 -> j < N1 ->
      (forall r, r < n -> (i, j, r) <> (0, 0, 0) -> md_row n ts i j (u i j) r = b i j r) /\
      (forall r, n <= r -> u i j r = b i j r).

  (** the terms are well formed, of size n x n, and no scale lies in a window in which the
      code rounds it to 0 or 1 *)
  Definition terms_ok (small16 near1 : K -> bool) (N0 N1 n : nat) (ts : list (tterm K)) : Prop :=
    ts <> [] /\ small16 f1 = false /\
    forall t, In t ts ->
      wf K (t_mat K t) /\ sm_rows K (t_mat K t) = n /\ sm_cols K (t_mat K t) = n /\
      forall i j, i < N0 -> j < N1 ->
        let s := fmul (sm_scale K (t_mat K t)) (t_scale K t i j) in
        (small16 s = true -> s = f0) /\ (near1 s = true -> s = f1).

  (** the numbers a float array stores exactly: closed under the field operations *)
  Definition real_part (re : K -> K) : Prop :=
    re f0 = f0 /\ re f1 = f1 /\
    forall x y, re x = x -> re y = y ->
      re (fadd x y) = fadd x y /\ re (fsub x y) = fsub x y /\
      re (fmul x y) = fmul x y /\ re (fdiv x y) = fdiv x y.
  Definition terms_real (re : K -> K) (N0 N1 : nat) (ts : list (tterm K)) : Prop :=
    forall t, In t ts ->
      re (sm_scale K (t_mat K t)) = sm_scale K (t_mat K t) /\
      (forall i j, i < N0 -> j < N1 -> re (t_scale K t i j) = t_scale K t i j) /\
      (forall kv, In kv (sm_items K (t_mat K t)) -> forall r, re (dget K (snd kv) r) = dget K (snd kv) r).

  (** the contract of SuperLU: a matrix that has an inverse is solved; nothing but the n
      entries of the system is written *)
  Definition regular (n : nat) (A : nat -> nat -> K) : Prop :=
    exists B : nat -> nat -> K, forall i j, i < n -> j < n ->
      fsum n (fun k => fmul (B i k) (A k j)) = (if i =? j then f1 else f0) /\
      fsum n (fun k => fmul (A i k) (B k j)) = (if i =? j then f1 else f0).
  Definition lu_contract (lu_solve : nat -> (nat -> nat -> K) -> (nat -> K) -> (nat -> K)) : Prop :=
    forall n A b, (regular n A -> solves n A (lu_solve n A b) b) /\
                  forall r, n <= r -> lu_solve n A b r = b r.

  (** the matrix of a line can be solved by the class chosen for it: elimination without
      pivoting for the banded classes (ThreeDMA is wrong, see C03), an inverse for SuperLU *)
  Definition line_regular (n : nat) (ks : option solver_kind) (A : nat -> nat -> K) : Prop :=
    match ks with
    | Some k => k <> KThreeDMA /\ leading_nonsingular n A
    | None => 2 <= n /\ regular n A
    end.

  (** the fast path may be taken: the coefficients are real and all lines, other than line
      (0, 0) on rank zero, get the same class as the last one *)
  Definition homogeneous (re : K -> K) (N0 N1 : nat) (rank0 : bool) (ts : list (tterm K))
      (kind : nat -> nat -> option solver_kind) : Prop :=
    real_part re /\ terms_real re N0 N1 ts /\
    forall i j, i < N0 -> j < N1 -> ~ (rank0 = true /\ i = 0 /\ j = 0) ->
      kind i j = kind (N0 - 1) (N1 - 1).

  (** ** the operator as a tensor product: index and array for the non-diagonal axis [ax]
      and the factors of the simplified TPMatrix *)
  Definition md_index (ax i j r : nat) : list nat :=
    match ax with 0 => [r; i; j] | 1 => [i; r; j] | _ => [i; j; r] end.
  Definition md_factors {A} (ax : nat) (M I J : A) : list A :=
    match ax with 0 => [M; I; J] | 1 => [I; M; J] | _ => [I; J; M] end.
  Definition is_identity (A : smat K) : Prop :=
    forall i j, i < sm_cols K A -> j < sm_cols K A -> mat_entry K A i j = if i =? j then f1 else f0.
End Spec.
