(** NDSolveSpec.v -- what the solvers for several non-diagonal axes have to deliver. *)
From Coq Require Import Arith ZArith List Bool.
From Verif Require Import Base Fld SparseModel SparseSpec TPSpec NDSolveModel.
Import ListNotations.
Local Open Scope nat_scope.

Section Spec.
  Variable K : Fld.
  Notation arr := (list nat -> K).

  (** an index of the solution *)
  Definition within (ds idx : list nat) : Prop := Forall2 (fun d i => i < d) ds idx.

  (** the operator at idx: sum over the terms of scale * ((A_0 x A_1 x ...) u)[idx], and the
      boundary matrices applied to u *)
  Definition nd_op (ts : list (ndterm K)) (bcs : list (arr -> arr)) (u : arr) (idx : list nat) : K :=
    fadd (lsum K (fun t => fmul (nd_scale K t) (kron K (nd_mats K t) idx u)) ts)
         (lsum K (fun bc => bc u idx) bcs).

  (** the terms are sums over matrices of the right shape *)
  Definition nd_ok (ds : list nat) (ts : list (ndterm K)) : Prop :=
    ts <> [] /\ 2 <= length ds <= 5 /\
    forall t, In t ts -> Forall2 (fun d A => sm_rows K A = d /\ sm_cols K A = d) ds (nd_mats K t).

  (** boundary indices are not those of the solution, boundary matrices read nothing else *)
  Definition bnd_ok (ds : list nat) (bnd : list nat -> bool) (bcs : list (arr -> arr)) : Prop :=
    (forall idx, within ds idx -> bnd idx = false) /\
    forall bc, In bc bcs -> forall u v : arr, (forall idx, bnd idx = true -> u idx = v idx) ->
      forall idx, bc u idx = bc v idx.

  (** constraints (row, val): the unknown with row-major number [row] is prescribed, by the
      last constraint for it, and its equation is given up; all other equations hold *)
  Definition rows_of (cs : list (nat * K)) : list nat := map fst cs.
  Definition nd_solves (ds : list nat) ts bcs (cs : list (nat * K)) (u b : arr) : Prop :=
    (forall idx, within ds idx -> ~ In (flat ds idx) (rows_of cs) -> nd_op ts bcs u idx = b idx) /\
    (forall idx pre v post, within ds idx -> cs = pre ++ (flat ds idx, v) :: post ->
       ~ In (flat ds idx) (rows_of post) -> u idx = v).

  (** the matrix of the operator, with the rows of the constraints replaced by rows of the identity *)
  Fixpoint kprod (ms : list (smat K)) (idx jdx : list nat) : K :=
    match ms, idx, jdx with
    | A :: ms, i :: idx, j :: jdx => fmul (mat_entry K A i j) (kprod ms idx jdx)
    | _, _, _ => f1
    end.
  Definition nd_dense (ds : list nat) (ts : list (ndterm K)) (i j : nat) : K :=
    lsum K (fun t => fmul (nd_scale K t) (kprod (nd_mats K t) (unflat ds i) (unflat ds j))) ts.
  Definition pinned (rows : list nat) (A : nat -> nat -> K) (i j : nat) : K :=
    if existsb (Nat.eqb i) rows then (if i =? j then f1 else f0) else A i j.

  (** SolverGeneric2ND: two matrices and a scale that may depend on the diagonal index *)
  Definition g2_op (d0 d1 : nat) (ts : list (g2term K)) (u : nat -> nat -> nat -> K) (i r c : nat) : K :=
    lsum K (fun t => fmul (g2_scale K t i)
      (fsum d0 (fun r' => fsum d1 (fun c' =>
         fmul (fmul (mat_entry K (g2_A0 K t) r r') (mat_entry K (g2_A1 K t) c c')) (u i r' c'))))) ts.
  Definition g2_dense (d1 : nat) (ts : list (g2term K)) (i : nat) (k l : nat) : K :=
    lsum K (fun t => fmul (g2_scale K t i)
      (fmul (mat_entry K (g2_A0 K t) (k / d1) (l / d1)) (mat_entry K (g2_A1 K t) (k mod d1) (l mod d1)))) ts.
  Definition g2_ok (d0 d1 : nat) (ts : list (g2term K)) : Prop :=
    ts <> [] /\ 0 < d0 /\ 0 < d1 /\
    forall t, In t ts -> sm_rows K (g2_A0 K t) = d0 /\ sm_cols K (g2_A0 K t) = d0 /\
                         sm_rows K (g2_A1 K t) = d1 /\ sm_cols K (g2_A1 K t) = d1.
End Spec.
