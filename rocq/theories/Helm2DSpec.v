(** Helm2DSpec.v -- the system and eigen decompositions. *)
From Coq Require Import Arith ZArith List Bool.
From Verif Require Import Base Fld SparseModel SparseSpec TPSpec Helm2DModel.
Import ListNotations.
Local Open Scope nat_scope.

Section Spec.
  Variable K : Fld.
  Notation vec := (nat -> K).
  Notation dia := (nat -> nat -> K).

  Definition arr2 (U : dia) (idx : list nat) : K := match idx with [i; j] => U i j | _ => f0 end.
  (** the three terms at (i, j): scale * (B x B1) u + scale * (A x B1) u + scale * (B x A1) u *)
  Definition h2_op (H : helm2 K) (U : dia) (i j : nat) : K :=
    fadd (fadd (fmul (h_sBUB K H) (kron K [h_B K H; h_B1 K H] [i; j] (arr2 U)))
               (fmul (h_sAUB K H) (kron K [h_A K H; h_B1 K H] [i; j] (arr2 U))))
         (fmul (h_sBUA K H) (kron K [h_B K H; h_A1 K H] [i; j] (arr2 U))).
  Definition h2_solves (H : helm2 K) (n0 n1 : nat) (U b : dia) : Prop :=
    forall i j, i < n0 -> j < n1 -> h2_op H U i j = b i j.
  Definition square (n : nat) (A : smat K) : Prop := sm_rows K A = n /\ sm_cols K A = n.
  Definition h2_shape (H : helm2 K) (n0 n1 : nat) : Prop :=
    square n0 (h_B K H) /\ square n0 (h_A K H) /\ square n1 (h_B1 K H) /\ square n1 (h_A1 K H).

  Definition delta (i j : nat) : K := if i =? j then f1 else f0.
  (** M V = V diag(l) with an orthogonal V *)
  Definition eigen (n : nat) (M : dia) (l : vec) (V : dia) : Prop :=
    forall i j, i < n -> j < n ->
      fsum n (fun k => fmul (M i k) (V k j)) = fmul (V i j) (l j) /\
      fsum n (fun k => fmul (V k i) (V k j)) = delta i j /\
      fsum n (fun k => fmul (V i k) (V j k)) = delta i j.
  (** A V = B V diag(l), with V^T B V = I; B V V^T = I says the same *)
  Definition gen_eigen (n : nat) (A B : dia) (l : vec) (V : dia) : Prop :=
    forall i j, i < n -> j < n ->
      fsum n (fun k => fmul (A i k) (V k j)) = fmul (fsum n (fun k => fmul (B i k) (V k j))) (l j) /\
      fsum n (fun m => fmul (fsum n (fun k => fmul (B i k) (V k m))) (V j m)) = delta i j.
End Spec.
