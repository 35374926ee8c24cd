(** EvalSpec2.v -- what evaluating an expansion at a point means.  A real function of one periodic
    variable on N points is stored as its modes 0 .. N/2: the modes 0 < k < N/2 stand for the pair
    k, -k of complex conjugate terms, the modes 0 and (N even) N/2 for themselves. *)
From Coq Require Import Arith ZArith Reals List Bool.
From Verif Require Import EvalModel2.
Local Open Scope R_scope.

Definition has_partner (N k : nat) : bool := ((0 <? k) && (2 * k <? N))%nat.
(** the stored term t of mode k and, if it has one, its conjugate *)
Definition stored (N k : nat) (t : Cx) : R := cre (cadd t (if has_partner N k then cconj t else c0)).
(** value at a point where the basis functions of the axes take the values F0, F1(, F2) *)
Definition real_series1 (N : nat) (u F0 : nat -> Cx) : R :=
  sumR (N / 2 + 1) (fun k => stored N k (cmul (u k) (F0 k))).
Definition real_series2 (N : nat) (r2c : Z) (n0 n1 : nat) (u : nat -> nat -> Cx) (F0 F1 : nat -> Cx) : R :=
  sumR n0 (fun k => sumR n1 (fun l => stored N (if (r2c =? 0)%Z then k else l) (cmul (cmul (u k l) (F0 k)) (F1 l)))).
Definition real_series3 (N : nat) (r2c : Z) (n0 n1 n2 : nat) (u : nat -> nat -> nat -> Cx) (F0 F1 F2 : nat -> Cx) : R :=
  sumR n0 (fun k => sumR n1 (fun l => sumR n2 (fun m =>
    stored N (if (r2c =? 0)%Z then k else if (r2c =? 1)%Z then l else m) (cmul (cmul (cmul (u k l m) (F0 k)) (F1 l)) (F2 m))))).
(** no R2C axis *)
Definition series2 (n0 n1 : nat) (u : nat -> nat -> Cx) (F0 F1 : nat -> Cx) : Cx :=
  csum n0 (fun k => csum n1 (fun l => cmul (cmul (u k l) (F0 k)) (F1 l))).
Definition series3 (n0 n1 n2 : nat) (u : nat -> nat -> nat -> Cx) (F0 F1 F2 : nat -> Cx) : Cx :=
  csum n0 (fun k => csum n1 (fun l => csum n2 (fun m => cmul (cmul (cmul (u k l m) (F0 k)) (F1 l)) (F2 m)))).
