(** LHModel.v -- the Hermite and Laguerre functions: laguerre/bases.py and hermite/bases.py.

    Exact real arithmetic.  numpy.polynomial.laguerre (lagvander, lagder, lagval), numpy.polynomial.hermite (hermvander,
    hermder, hermval) by the recurrences of their sources; scipy's eval_laguerre and eval_hermite by the same recurrences.
    M = int(N*padding_factor) is the number of columns of a Vandermonde matrix.  x is one point. *)
From Coq Require Import Reals ZArith List Arith Bool.
From Verif Require Import Base Fld SparseModel RPoly StencilModel StencilModel2 LegMatrixModel BndModel.
Import ListNotations.
Local Open Scope R_scope.

(** ** numpy *)
(** numpy lagvander: v[0] = 1, v[1] = 1-x, v[i] = (v[i-1]*(2*i-1-x) - v[i-2]*(i-1))/i *)
Fixpoint lagvander (x : R) (i : nat) : R :=
  match i with
  | O => 1
  | S m => match m with
           | O => 1 - x
           | S q => (lagvander x m * (2 * INR i - 1 - x) - lagvander x q * (INR i - 1)) / INR i
           end
  end.
(** numpy hermvander: v[0] = 1, v[1] = 2x, v[i] = v[i-1]*2x - v[i-2]*(2*(i-1)) *)
Fixpoint hermvander (x : R) (i : nat) : R :=
  match i with
  | O => 1
  | S m => match m with
           | O => x * 2
           | S q => hermvander x m * (x * 2) - hermvander x q * (2 * (INR i - 1))
           end
  end.
(** numpy lagder, one derivative of the series c of length n: for j in range(n, 1, -1): der[j-1] = -c[j]; c[j-1] += c[j],
    and der[0] = -c[1]: entry k of the result is minus the sum of the entries after k *)
Definition lagder (n : nat) (c : nat -> R) (k : nat) : R := - rsum (n - 1 - k) (fun j => c (k + 1 + j)%nat).
(** numpy hermder: der[j-1] = (2*j)*c[j] *)
Definition hermder (n : nat) (c : nat -> R) (k : nat) : R := if Nat.ltb (k + 1) n then 2 * INR (k + 1) * c (k + 1)%nat else 0.
(** the m-th derivative; every derivative shortens the series by one *)
Fixpoint lagder_n (m n : nat) (c : nat -> R) : nat -> R := match m with O => c | S m => lagder_n m (n - 1) (lagder n c) end.
(** column i of the identity matrix *)
Definition unit_vec (i j : nat) : R := if Nat.eqb i j then 1 else 0.

(** ** laguerre/bases.py *)
(** 78-81 vandermonde (and evaluate_basis_all of the base class, which returns it); 83-89 evaluate_basis *)
Definition lag_vandermonde (x : R) (i : nat) : R := lagvander x i * exp (- x / 2).
Definition lag_evaluate_basis (x : R) (i : nat) : R := lagvander x i * exp (- x / 2).
(** np.dot(V, D)[:, i] with the columns of D from lagder(np.eye(M), m) *)
Definition lag_VD (M m : nat) (x : R) (i : nat) : R := rsum (M - m) (fun j => lagvander x j * lagder_n m M (unit_vec i) j).
(** 128-175 evaluate_basis_derivative_all, column i; None is the NotImplementedError *)
Definition lag_derivative_all (M k : nat) (x : R) (i : nat) : option R :=
  let V := lagvander x i in
  let D := fun m => lag_VD M m x i in
  match k with
  | 0%nat => Some (V * exp (- x / 2))
  | 1%nat => Some ((D 1%nat - 0.5 * V) * exp (- x / 2))
  | 2%nat => Some ((D 2%nat - D 1%nat + 0.25 * V) * exp (- x / 2))
  | 3%nat => Some ((D 3%nat - D 2%nat * 3 / 2 + D 1%nat * 3 / 4 + V / 8) * exp (- x / 2))
  | 4%nat => Some ((D 4%nat - D 3%nat * 2 + D 2%nat * 3 / 2 - D 1%nat / 2 + V / 16) * exp (- x / 2))
  | _ => None
  end.
(** 91-112 evaluate_basis_derivative: the series lag.Laguerre(e_i) of length M, its derivatives, evaluated at x;
    for k = 0 and for k > 4 no branch is taken *)
Definition lag_derivative (M k : nat) (x : R) (i : nat) : R :=
  let V := rsum M (fun j => lagvander x j * unit_vec i j) in
  let D := fun m => lag_VD M m x i in
  match k with
  | 1%nat => (D 1%nat - 0.5 * V) * exp (- x / 2)
  | 2%nat => (D 2%nat - D 1%nat + 0.25 * V) * exp (- x / 2)
  | 3%nat => (D 3%nat - 1.5 * D 2%nat + 0.75 * D 1%nat - V / 8) * exp (- x / 2)
  | 4%nat => (D 4%nat - 2 * D 3%nat + 1.5 * D 2%nat - 0.5 * D 1%nat + V / 16) * exp (- x / 2)
  | _ => V * exp (- x / 2)
  end.
(** 114-120 bnd_values: the value and the derivative at x = 0 *)
Definition lag_bnd_values (k i : nat) : option R := match k with 0%nat => Some 1 | 1%nat => Some (- INR i - 1 / 2) | _ => None end.
(** 177-182 eval *)
Definition lag_eval (N : nat) (u : nat -> R) (x : R) : R := rsum N (fun j => u j * lagvander x j) * exp (- x / 2).
(** 65-76 points_and_weights: laggauss(N) and weights *= exp(points) *)
Definition lag_weight (gx gw : nat -> R) (q : nat) : R := gw q * exp (gx q).

(** ** hermite/bases.py *)
(** 89-91 factor *)
Definition herm_factor (i : nat) : R := 1 / (sqrt (sqrt PI) * sqrt (2 ^ i) * sqrt (INR (fact i))).
(** 108-114 evaluate_basis; 153-158 evaluate_basis_all *)
Definition herm_evaluate_basis (x : R) (i : nat) : R := hermvander x i * (exp (- (x ^ 2) / 2) * herm_factor i).
Definition herm_basis_all (x : R) (i : nat) : R := hermvander x i * (herm_factor i * exp (- (x ^ 2) / 2)).
(** 116-151 evaluate_basis_derivative_all, column i *)
Definition herm_derivative_all (M k : nat) (x : R) (i : nat) : option R :=
  let V := hermvander x i in
  match k with
  | 0%nat => Some (V * (exp (- (x ^ 2) / 2) * herm_factor i))
  | 1%nat => Some ((rsum (M - 1) (fun j => hermvander x j * hermder M (unit_vec i) j) - V * x) * exp (- (x ^ 2) / 2) * herm_factor i)
  | 2%nat => Some ((x ^ 2 - 1 - 2 * INR i) * V * herm_factor i * exp (- (x ^ 2) / 2))
  | _ => None
  end.
(** 160-167 eval *)
Definition herm_eval (N : nat) (u : nat -> R) (x : R) : R :=
  rsum N (fun j => u j * herm_factor j * hermvander x j) * exp (- (x ^ 2) / 2).
(** 76-87 points_and_weights: hermgauss(N) and weights *= exp(points**2) *)
Definition herm_weight (gx gw : nat -> R) (q : nat) : R := gw q * exp (gx q ^ 2).

(** ** transforms (spectralbase.py 516-549, 235-263; both families have domain_factor 1 and the mass matrix {0: 1}) *)
(** P the basis functions at the points, w the weights, u the values at the M points *)
Definition scalar_product (M : nat) (P : nat -> nat -> R) (w : nat -> R) (u : nat -> R) (i : nat) : R :=
  rsum M (fun q => u q * w q * P q i).
(** BLLmat.solve, BHHmat.solve (laguerre/matrices.py 28-36, hermite/matrices.py 28-36) *)
Definition identity_solve (scale : R) (b : nat -> R) (i : nat) : R := b i / (scale * 1).
Definition lag_forward (M : nat) (gx gw u : nat -> R) (i : nat) : R :=
  identity_solve 1 (scalar_product M (fun q i => lag_vandermonde (gx q) i) (lag_weight gx gw) u) i.
Definition lag_backward (N : nat) (gx uh : nat -> R) (q : nat) : R := rsum N (fun i => lag_vandermonde (gx q) i * uh i).
Definition herm_forward (M : nat) (gx gw u : nat -> R) (i : nat) : R :=
  identity_solve 1 (scalar_product M (fun q i => herm_basis_all (gx q) i) (herm_weight gx gw) u) i.
Definition herm_backward (N : nat) (gx uh : nat -> R) (q : nat) : R := rsum N (fun i => herm_basis_all (gx q) i * uh i).

(** ** matrices *)
(** laguerre/matrices.py 22-26, hermite/matrices.py 22-26 *)
Definition lag_BLLmat (N : nat) : smat RFld := dmat N N [(0%Z, Scal RFld 1)].
Definition BHHmat (N : nat) : smat RFld := dmat N N [(0%Z, Scal RFld 1)].
(** laguerre/matrices.py 55-60, 80-87 (the classes exist; their entries in the dictionary are commented out) *)
Definition lag_BCDCDmat (N : nat) : smat RFld := dmat (N - 1) (N - 1) [(0%Z, Scal RFld 2); (1%Z, Scal RFld (-1)); ((-1)%Z, Scal RFld (-1))].
Definition lag_ACDCDmat (N : nat) : smat RFld := dmat (N - 1) (N - 1) [(0%Z, Scal RFld 0.5); (1%Z, Scal RFld 0.25); ((-1)%Z, Scal RFld 0.25)].
(** hermite/matrices.py 59-70 *)
Definition ahh_0 (N i : nat) : R := if Nat.eqb i (N - 1) then (INR N - 1) / 2 else INR i + 0.5.
Definition ahh_2 (i : nat) : R := - sqrt ((INR i + 1) * (INR i + 2)) / 2.
Definition AHHmat (N : nat) : smat RFld :=
  dmat N N [(0%Z, arr N (ahh_0 N)); (2%Z, arr (N - 2) ahh_2); ((-2)%Z, arr (N - 2) ahh_2)].
(** 90-101 matvec, format 'self', one-dimensional v: c[:N-2] = d2*v[2:N]; c[:N] += d0*v[:N]; c[2:N] += d(-2)*v[:N-2];
    then the scale *)
Definition ahh_matvec (N : nat) (scale : R) (v : nat -> R) (k : nat) : R :=
  let c0 := if Nat.ltb k (N - 2) then ahh_2 k * v (k + 2)%nat else 0 in
  let c1 := c0 + ahh_0 N k * v k in
  let c2 := if Nat.leb 2 k then c1 + ahh_2 (k - 2) * v (k - 2)%nat else c1 in
  c2 * scale.
