(** LobModel.v -- Gauss-Lobatto and Gauss points and weights of the Legendre family, and its transforms with kind='vandermonde'.

    Simplifications: exact real arithmetic.  numpy's Legendre.basis(n), its deriv(1), deriv(2) and their values are the
    polynomial L_n, its derivatives and their values.  A division by zero, which numpy answers with inf or nan, is [None].
    The initial guess is a parameter. *)
From Coq Require Import Reals List Arith Bool.
From Verif Require Import Base RPoly BndModel LegMatrixModel.
Import ListNotations.
Local Open Scope R_scope.

(** lobatto.py 30  dx[:] = Ld(y)/Ld2(y), with Ln = basis(n) *)
Fixpoint newton_dx (n : nat) (y : list R) : option (list R) :=
  match y with
  | [] => Some []
  | v :: r => if Req_EM_T (deriv_at 2 (legL n) v) 0 then None else
      match newton_dx n r with None => None | Some d => Some (deriv_at 1 (legL n) v / deriv_at 2 (legL n) v :: d) end
  end.
(** lobatto.py 31  y -= dx *)
Definition sub_list (y dx : list R) : list R := map (fun p => fst p - snd p) (combine y dx).
(** lobatto.py 32  np.linalg.norm(dx) *)
Definition norm2 (dx : list R) : R := sqrt (fold_right (fun d acc => d * d + acc) 0 dx).
(** lobatto.py 29-35: the loop, with the iterations left (count < 10) and the previous error; returns the points and the last error *)
Fixpoint newton_loop (left_ n : nat) (tol prev : R) (y : list R) : option (list R * R) :=
  match left_ with
  | O => Some (y, prev)
  | S l => match newton_dx n y with
           | None => None
           | Some dx => let y' := sub_list y dx in let error := norm2 dx in
               if Rlt_dec error tol then Some (y', error)
               else if Rlt_dec (Rabs (error - prev)) tol then Some (y', error)
               else newton_loop l n tol error y'
           end
  end.
(** lobatto.py 14-19, 38-39: the points, the later assignments first
    x[MM:-1] = -x[1:M][::-1], x[1:M] = y, x[-1] = 1, x[0] = -1, zeros elsewhere *)
Definition lob_x (N : nat) (y : list R) (i : nat) : R :=
  let M := (N / 2)%nat in
  let MM := if Nat.eqb (N mod 2) 0 then M else (M + 1)%nat in
  if Nat.leb MM i && Nat.ltb i (N - 1) && Nat.leb 1 MM then - nth (M - 2 - (i - MM)) y 0
  else if Nat.leb 1 i && Nat.ltb i M then nth (i - 1) y 0
  else if Nat.eqb i (N - 1) then 1
  else if Nat.eqb i 0 then -1
  else 0.
(** lobatto.py 40  w = 2./(N*(N-1)*Ln(x)**2) *)
Definition lob_den (N : nat) (x : nat -> R) (i : nat) : R := INR N * (INR N - 1) * peval (legL (N - 1)) (x i) ^ 2.
Definition lob_w (N : nat) (x : nat -> R) (i : nat) : R := 2 / lob_den N x i.
(** lobatto.py 6-41; None when a division by zero occurs, in the loop or in the weights *)
Definition all_ok (N : nat) (x : nat -> R) : bool := forallb (fun i => if Req_EM_T (lob_den N x i) 0 then false else true) (seq 0 N).
Definition lobatto (N : nat) (tol : R) (guess : list R) : option ((nat -> R) * (nat -> R)) :=
  match newton_loop 10 (N - 1) tol 1 guess with
  | None => None
  | Some (y, _) => let x := lob_x N y in if all_ok N x then Some (x, lob_w N x) else None
  end.
(** the weights of the Gauss points, as in the documentation of numpy.polynomial.legendre.leggauss and fastgl
    (legendre/bases.py 121-127; the computation of the points by fastgl is not modelled) *)
Definition lg_w (N : nat) (x : nat -> R) (i : nat) : R := 2 / ((1 - x i ^ 2) * peval (pderiv (legL N)) (x i) ^ 2).

(** ** transforms with the Vandermonde matrix, on the reference domain *)
(** spectralbase.py 533-543, legendre/bases.py 137-138 (legvander): np.dot(u*weights, V) *)
Definition leg_scalar_product (M : nat) (x w u : nat -> R) (k : nat) : R := rsum M (fun j => u j * w j * peval (legL k) (x j)).
(** spectralbase.py 258-259, 573-577: the mass matrix is assembled with quadrature (matrixbase.py 635-636), so it holds
    l2_norm_sq (legendre/bases.py 157-165) of a space with N modes *)
Definition leg_forward (q : quad) (N M : nat) (x w u : nat -> R) (k : nat) : R := leg_scalar_product M x w u k / leg_l2_norm_sq q N k.
(** np.dot(V, u) over the N modes *)
Definition leg_backward (N : nat) (x uh : nat -> R) (j : nat) : R := rsum N (fun k => peval (legL k) (x j) * uh k).
