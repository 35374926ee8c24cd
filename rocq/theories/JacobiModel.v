(** JacobiModel.v -- jacobi/recursions.py: recursion coefficients of Jacobi polynomials.

    Indices are integers, as in the code, where i or j may be -1; arithmetic is exact
    (sympy), division is the total division of R: the theorems state which denominators
    must not vanish. *)
From Coq Require Import Reals ZArith List.
From Verif Require Import Base Fld SparseModel RPoly.
Import ListNotations.
Local Open Scope R_scope.

(** sp.KroneckerDelta *)
Definition delta (i j : Z) : R := if Z.eq_dec i j then 1 else 0.

(** recursions.py 180-187 _a *)
Definition coef_a (alf bet : R) (i j : Z) : R :=
  let J := IZR j in
  2 * (J + alf) * (J + bet) / ((2 * J + alf + bet + 1) * (2 * J + alf + bet)) * delta (i + 1) j
  - (alf ^ 2 - bet ^ 2) / ((2 * J + alf + bet + 2) * (2 * J + alf + bet)) * delta i j
  + 2 * (J + 1) * (J + alf + bet + 1) / ((2 * J + alf + bet + 2) * (2 * J + alf + bet + 1)) * delta (i - 1) j.

(** recursions.py 189-195 _b *)
Definition coef_b (alf bet : R) (i j : Z) : R :=
  let I := IZR i in
  let f := 2 * (I + alf + bet) / ((2 * I + alf + bet) * (2 * I + alf + bet - 1)) * delta i (j + 1)
    + - ((2 * (I + alf + 1) * (I + bet + 1)) / ((2 * I + alf + bet + 3) * (2 * I + alf + bet + 2) * (I + alf + bet + 1))) * delta i (j - 1) in
  if Req_EM_T alf bet then f
  else f + (2 * (alf ^ 2 - bet ^ 2)) / ((alf + bet) * (2 * I + alf + bet + 2) * (2 * I + alf + bet)) * delta i j.

(** recursions.py 197-203 _c *)
Definition coef_c (alf bet : R) (i j : Z) : R :=
  let I := IZR i in
  let f := 2 * (I + alf + 1) * (I + bet + 1) * (I + alf + bet + 2) / ((2 * I + alf + bet + 2) * (2 * I + alf + bet + 3)) * delta i (j - 1)
    - 2 * (I - 1) * I * (I + alf + bet) / ((2 * I + alf + bet - 1) * (2 * I + alf + bet)) * delta i (j + 1) in
  if Req_EM_T alf bet then f
  else f + 2 * I * (alf - bet) * (I + alf + bet + 1) / ((2 * I + alf + bet) * (2 * I + alf + bet + 2)) * delta i j.

(** sp.rf: rising factorial *)
Fixpoint rf (x : R) (k : nat) : R := match k with O => 1 | S k => rf x k * (x + INR k) end.
(** sp.binomial(y, m) for an integer m: y (y-1) .. (y-m+1) / m!, zero for m < 0 *)
Fixpoint binomial_nat (y : R) (m : nat) : R :=
  match m with O => 1 | S m => binomial_nat y m * (y - INR m) / (INR m + 1) end.
Definition binomial (y : R) (m : Z) : R := if (m <? 0)%Z then 0 else binomial_nat y (Z.to_nat m).

(** recursions.py 316-331 psi *)
Definition psi (alf bet : R) (n k : nat) : R := rf (INR n + alf + bet + 1) k / 2 ^ k.

(** recursions.py 147-178 bnd_values with gn = 1: values at -1 and at 1 of the k'th derivative *)
Definition bnd_left (alf bet : R) (k i : nat) : R :=
  (-1) ^ (k + i) * (match k with O => 1 | _ => rf (INR i + alf + bet + 1) k * (1 / 2 ^ k) end)
  * binomial (INR i + bet) (Z.of_nat i - Z.of_nat k).
Definition bnd_right (alf bet : R) (k i : nat) : R :=
  (match k with O => 1 | _ => rf (INR i + alf + bet + 1) k * (1 / 2 ^ k) end)
  * binomial (INR i + alf) (Z.of_nat i - Z.of_nat k).

(** recursions.py 416-460 matpow / _matpow (gn = 1; the code asserts q < 7) *)
Definition matfun := Z -> Z -> R.
Definition mat_step (mat m2 : matfun) : matfun := fun i j =>
  mat i (i - 1)%Z * m2 (i - 1)%Z j + mat i i * m2 i j + mat i (i + 1)%Z * m2 (i + 1)%Z j.
(** _matpow(mat, m2, q) for q >= 2 replaces m2 by d2 = mat . m2 until q = 2 *)
Fixpoint matpow_loop (mat m2 : matfun) (q : nat) : matfun :=
  match q with
  | O | S O => m2
  | S q => matpow_loop mat (mat_step mat m2) q
  end.
Definition matpow (mat : matfun) (q : nat) : matfun :=
  match q with O => delta | S O => mat | _ => matpow_loop mat mat q end.

(** recursions.py 333-362 a_ (gn = 1) *)
Definition coef_a_ (k q : nat) (alf bet : R) (i j : nat) : R :=
  psi alf bet j k / psi alf bet i k
  * matpow (coef_a (alf + INR k) (bet + INR k)) q (Z.of_nat i - Z.of_nat k)%Z (Z.of_nat j - Z.of_nat k)%Z.

(** recursions.py 470-509 pmat evaluates _a and _b symbolically, f.subs(m, z) before
    f.subs(alfa, alf), and calls sp.simplify, so a common factor of numerator and denominator
    cancels before numbers are put in.  The cancelled coefficients (the raw ones above are
    0/0 for Legendre and Chebyshev in column 0): *)
Definition coef_a_s (alf bet : R) (i j : Z) : R :=
  if (j =? 0)%Z
  then (bet - alf) / (alf + bet + 2) * delta i 0 + 2 / (alf + bet + 2) * delta i 1
  else coef_a alf bet i j.
Definition coef_b_s (alf bet : R) (i j : Z) : R :=
  let I := IZR i in
  (if (i =? 1)%Z then 2 / (alf + bet + 2) else 2 * (I + alf + bet) / ((2 * I + alf + bet) * (2 * I + alf + bet - 1))) * delta i (j + 1)
  - ((2 * (I + alf + 1) * (I + bet + 1)) / ((2 * I + alf + bet + 3) * (2 * I + alf + bet + 2) * (I + alf + bet + 1))) * delta i (j - 1)
  + 2 * (alf - bet) / ((2 * I + alf + bet + 2) * (2 * I + alf + bet)) * delta i j.

(** recursions.py 205-313 a, b, c and 362, 438: the last line, scaling by gn *)
Definition scaled (g : nat -> R) (f : matfun) (i j : nat) : R := g j / g i * f (Z.of_nat i) (Z.of_nat j).

(** recursions.py 461-491 pmat(b, q): rows 0 .. q-1 are zero *)
Definition pmat_b (alf bet : R) (q i j : nat) : R :=
  if (i <? q)%nat then 0 else matpow (coef_b_s alf bet) q (Z.of_nat i) (Z.of_nat j).

(** recursions.py 547-602 ShiftedMatrix, the loop over the diagonals of A; None is the
    TypeError of slicing a diagonal that is a plain number *)
Section Shift.
Variable K : Fld.
Definition shift_item (M N r s : Z) (kv : Z * dval K) : option (list (Z * dval K)) :=
  let '(key, val) := kv in
  match val with
  | Scal _ _ => None
  | Arr _ n f =>
      let nkey := (key + r - s)%Z in
      let j := Z.max (r + Z.min key 0) (s - Z.max key 0) in
      let hi := if (0 <=? nkey)%Z then (Z.min (N - nkey) M + j)%Z else (Z.min (M + nkey) N + j)%Z in
      let lo := pyidx n j in let len := (pyidx n hi - lo)%nat in
      Some (if (len =? 0)%nat then [] else [(nkey, Arr K len (fun t => f (lo + t)%nat))])
  end.
Fixpoint shift_items (M N r s : Z) (l : list (Z * dval K)) : option (list (Z * dval K)) :=
  match l with
  | [] => Some []
  | kv :: l => match shift_item M N r s kv, shift_items M N r s l with
               | Some a, Some b => Some (a ++ b)
               | _, _ => None
               end
  end.
(** the keys key+r-s are different for different keys, so inserting in the dictionary d
    appends; the new SparseMatrix gets scale 1 *)
Definition shifted (A : smat K) (M N r s : nat) : option (smat K) :=
  match shift_items (Z.of_nat M) (Z.of_nat N) (Z.of_nat r) (Z.of_nat s) (sm_items K A) with
  | None => None
  | Some l => Some (mkSmat K M N f1 l)
  end.
(** 585-588: mat is a SparseMatrix *)
Definition shifted_sparse (A : smat K) (r s : nat) : option (smat K) :=
  shifted A (sm_rows K A - r) (sm_cols K A - s) r s.
End Shift.
