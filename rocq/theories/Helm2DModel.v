(** Helm2DModel.v -- shenfun/legendre/la.py Helmholtz_2dirichlet (9-165):
    a_0 BUB + a_1 AUB + a_2 BUA^T = F for two Dirichlet bases, by diagonalisation.

    One process: pencil transfers are the identity and local slices whole arrays.  Exact
    arithmetic.  The results of scipy's eigh and eig_banded are parameters.  N0 = n0 + 2 and
    N1 = n1 + 2 are the numbers of quadrature points, n0 and n1 the dimensions. *)
From Coq Require Import Arith ZArith List Bool.
From Verif Require Import Base Fld SolversModel SparseModel MDSolveModel.
Import ListNotations.
Local Open Scope nat_scope.

Section Model.
  Variable K : Fld.
  Variables small16 near1 is0 : K -> bool.
  Variable deq : dval K -> dval K -> bool.
  Variable lu_solve : nat -> (nat -> nat -> K) -> (nat -> K) -> (nat -> K).
  Variable re : K -> K.
  Notation vec := (nat -> K).
  Notation dia := (nat -> nat -> K).

  (** 26-47 __init__: the three TPMatrices.  [BB] = (B, B1, scale), AUB has mats (A, B1), BUA has
      mats (B, A1) *)
  Record helm2 := mkH2 {
    h_B : smat K; h_B1 : smat K; h_A : smat K; h_A1 : smat K;
    h_sBUB : K; h_sAUB : K; h_sBUA : K }.

  (** 74-87 solve_eigen_problem, solver 1: the band matrix handed to eig_banded: B[0] and B[2],
      lower form, without B.scale *)
  Definition band (B : smat K) : dia := fun i j =>
    match dict_get K 0 (sm_items K B), dict_get K 2 (sm_items K B) with
    | Some d0, Some d2 =>
        if i =? j then dget K d0 i
        else if i =? j + 2 then dget K d2 j
        else if j =? i + 2 then dget K d2 i else f0
    | _, _ => f0                              (* KeyError *)
    end.

  (** 78-79: self.V = np.zeros((N, N)), self.lmbda = np.ones(N); only [s] is set *)
  Definition padV (n : nat) (V : dia) : dia := fun i j => if (i <? n) && (j <? n) then V i j else f0.
  Definition padl (n : nat) (l : vec) : vec := fun i => if i <? n then l i else f1.

  (** 92-123 __call__, solver 0, with the results (lx, Vx) of eigh(A, B) and (ly, Vy) of
      eigh(A1, B1); the first are used for both axes if the numbers of points agree *)
  Definition h2_call0 (H : helm2) (n0 n1 : nat) (lx : vec) (Vx : dia) (ly : vec) (Vy : dia) (b : dia) : dia :=
    let N0 := n0 + 2 in let N1 := n1 + 2 in
    let V0 := padV n0 Vx in let l0 := padl n0 lx in
    let V1 := if N0 =? N1 then V0 else padV n1 Vy in
    let l1 := if N0 =? N1 then l0 else padl n1 ly in
    (* u[:] = Vx.T.dot(b); u_B[:] = u_B.dot(Vy) *)
    let u := fun m j => fsum N0 (fun k => fmul (V0 k m) (b k j)) in
    let u := fun m p => fsum N1 (fun j => fmul (u m j) (V1 j p)) in
    (* u /= BB.scale + lmbdax[:, np.newaxis] + lmbday[np.newaxis, :] *)
    let u := fun m p => fdiv (u m p) (fadd (fadd (h_sBUB H) (l0 m)) (l1 p)) in
    (* u[:] = Vx.dot(u); u_B[:] = u_B.dot(Vy.T) *)
    let u := fun i p => fsum N0 (fun m => fmul (V0 i m) (u m p)) in
    fun i j => fsum N1 (fun p => fmul (u i p) (V1 j p)).

  (** 125-163 __call__, solver 1, with the result (l, V) of eig_banded: a Helmholtz problem
      along axis 1 for every eigenvalue, by SolverGeneric1ND(...)(..., fast=False).  The two
      TPMatrices AA and BB have different keys, so they are not merged *)
  Definition h2_terms (H : helm2) (l : vec) : list (tterm K) :=
    [ mkTerm K (fun _ _ => h_sAUB H) (h_A1 H);
      mkTerm K (fun i _ => fadd (h_sBUB H) (fdiv f1 (l i))) (h_B1 H) ].
  Definition h2_call1 (H : helm2) (n0 n1 : nat) (l : vec) (V : dia) (b : dia) : option dia :=
    let N0 := n0 + 2 in
    let V0 := padV n0 V in let l0 := padl n0 l in
    let rhs := fun i j => fdiv (fsum N0 (fun k => fmul (V0 k i) (b k j))) (l0 i) in
    match g1_calls K is0 lu_solve re n0 1 true 0 0 false (g1_new K small16 near1 is0 deq (h2_terms H l0))
            [] None (fun i _ r => rhs i r) with
    | None => None
    | Some w => Some (fun i j => fsum N0 (fun k => fmul (V0 i k) (w k 0 j)))
    end.
End Model.
