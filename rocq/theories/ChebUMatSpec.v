(** ChebUMatSpec.v -- what an entry of the dictionary of chebyshevu/matrices.py stands for: the weighted inner products, weight
    sqrt(1-x^2), of the functions of its test space and the derivatives of those of its trial space. *)
From Coq Require Import Reals ZArith List Arith.
From Verif Require Import Base Fld SparseModel SparseSpec RPoly StencilModel MatrixSpec UTransSpec GenModel GenSpec GenProofs4 ChebUMatModel.
Import ListNotations.
Local Open Scope R_scope.
(** dim(), and function number i *)
Definition udim (s : uspace) (N : nat) : nat := match s with UOrth => N | _ => (N - 2)%nat end.
Definition ufn (scaled : bool) (s : uspace) (N i : nat) : poly :=
  match s with
  | UOrth => chebU i
  | UPhi1 => fn chebU (space_of (if scaled then chebyshevu_Phi1_scaled else chebyshevu_Phi1) N) i
  | TSD => fn chebT (space_of chebyshev_ShenDirichlet N) i
  | TSN => fn chebT (space_of chebyshev_ShenNeumann N) i
  end.
Definition uentry_ok (scaled : bool) (N : nat) (e : uentry) : Prop :=
  holds (udim (ue_test e) N) (udim (ue_trial e) N) (ue_mat e)
    (fun k j r => chebu_inner (fun x => deriv_at (ue_d e) (ufn scaled (ue_trial e) N j) x) (fun x => peval (ufn scaled (ue_test e) N k) x) r).
