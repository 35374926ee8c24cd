(** DLTModel.v -- the fast discrete Legendre transform: the classes DLT, DCT, DST of shenfun/legendre/dlt.py and the
    kind='fast' transforms of shenfun/legendre/bases.py.

    Exact real arithmetic.  An array is the family of its lines along the transformed axis, a line being a function of the
    index along the axis; the number of lines is [lines].  (All other axes only enumerate lines; complex data are transformed
    as two real arrays by DCTWrap.)  FFTW's real transforms are modelled by their defining sums and leave their input intact
    (FFTW_PRESERVE_INPUT).  The points and weights of fastgl.leggauss are parameters.  Leg2Cheb is a parameter of the model as
    well, instantiated with the conversions of Leg2ChebModel (arrays with one and with more dimensions, N <= use_direct). *)
From Coq Require Import Reals ZArith List Arith Bool.
From Verif Require Import Base Fld SparseModel RPoly StencilModel LegMatrixModel ChebTransModel UTransModel Leg2ChebModel.
Import ListNotations.
Local Open Scope R_scope.

(** dlt.py 232-251 DCT.__call__ (types 2 and 3 are used): type 3 adds the first entry of the input; everything is halved *)
Definition DCT (type : nat) (n : nat) (x : nat -> R) (k : nat) : R :=
  let out := if (type =? 3)%nat then dct3 n x k + x 0%nat else dct2 n x k in
  out / 2.
(** 306-323 DST.__call__: type 3 moves the input one place down and puts a zero last; type 2 moves the output one place up and
    puts a zero first; everything is halved *)
Definition DST (type : nat) (n : nat) (x : nat -> R) (k : nat) : R :=
  let out :=
    if (type =? 3)%nat then dst3 n (fun i => if (i =? n - 1)%nat then 0 else x (S i)) k
    else (match k with O => 0 | S k' => dst2 n x k' end) in
  out / 2.

Inductive dlt_kind := Forward | ScalarProduct | Backward.
Definition is_backward (k : dlt_kind) : bool := match k with Backward => true | _ => false end.
(** 147-151 plan: types 2 for 'forward' and 'scalar product', 3 for 'backward' *)
Definition dlt_type (k : dlt_kind) : nat := if is_backward k then 3%nat else 2%nat.

(** 113-118: numpy's chebgauss has the points cos(pi (2 i + 1) / (2 N)); thetal = arccos(xl)[::-1] *)
Definition dlt_thetac (N i : nat) : R := acos (cos (PI * INR (2 * i + 1) / (2 * INR N))).
Definition dlt_thetal (xl : nat -> R) (N i : nat) : R := acos (xl (N - 1 - i)%nat).
Definition dlt_dtheta (xl : nat -> R) (N i : nat) : R := dlt_thetal xl N i - dlt_thetac N i.
(** 119-128 nsign: (-1)^k, for 'forward' times (k + 1/2) *)
Definition dlt_nsign (k : dlt_kind) (i : nat) : R :=
  let s := if Nat.odd i then -1 else 1 in
  match k with Forward => s * (INR i + 1 / 2) | _ => s end.

(** numpy.linalg.norm of an array with the given number of lines of length N: the square root of the sum of all squares *)
Definition array_norm (lines N : nat) (a : nat -> nat -> R) : R := sqrt (rsum lines (fun l => rsum N (fun i => a l i * a l i))).

(** 176-203 the loop: pass n, the arrays x (all lines) and y (broadcast over the lines), nfac = (n-1)!, the sum fk.
    The while loop is run with a number of passes as fuel; None = not finished. *)
Fixpoint dlt_loop (fuel : nat) (tol : R) (k : dlt_kind) (lines N : nat) (dtheta : nat -> R)
    (n : nat) (nfac : R) (x : nat -> nat -> R) (y : nat -> R) (fk : nat -> nat -> R) : option (nat * (nat -> nat -> R)) :=
  match fuel with
  | O => None
  | S fuel' =>
    let even := (n mod 2 =? 0)%nat in
    let deven := ((n + 1) / 2 mod 2 =? 0)%nat in
    let nfac := nfac * INR n in
    let x := if is_backward k then (fun l i => x l i * INR i) else (fun l i => x l i * dtheta i) in
    let y := if is_backward k then (fun i => y i * dtheta i) else (fun i => y i * INR i) in
    let sign := if deven then 1 else -1 in
    let h := fun l => if even then DCT (dlt_type k) N (x l) else DST (dlt_type k) N (x l) in
    let df := fun l i => sign / nfac * y i * h l i in
    let fk := fun l i => fk l i + df l i in
    if Rlt_dec (array_norm lines N df) tol then Some (n, fk)
    else dlt_loop fuel' tol k lines N dtheta (n + 1) nfac x y fk
  end.

(** 163-215 DLT.__call__ with l2c the class Leg2Cheb (second argument: transpose), xl, wl the points and weights; also returns
    the number of passes.  The tolerance is 1e-16. *)
Definition dlt_tol : R := / 10 ^ 16.
Definition dlt (l2c : nat -> bool -> (nat -> R) -> nat -> R) (xl wl : nat -> R) (fuel : nat) (tol : R) (k : dlt_kind) (lines N : nat) (u : nat -> nat -> R) :
    option (nat * (nat -> nat -> R)) :=
  let x := if is_backward k then (fun l => l2c N false (u l)) else (fun l i => u l i * wl i) in
  let fk := fun l => DCT (dlt_type k) N (x l) in
  match dlt_loop fuel tol k lines N (dlt_dtheta xl N) 1 1 x (fun _ => 1) fk with
  | None => None
  | Some (n, fk) =>
    Some (n, if is_backward k then (fun l i => fk l (N - 1 - i)%nat)
             else (fun l i => l2c N true (fk l) i * dlt_nsign k i))
  end.

(** legendre/bases.py 199-207, 209-214: backward and scalar_product of a space with N modes and n >= N points (padding), domain
    factor df; the truncated or padded coefficients of spectralbase.py (_truncation_forward, _padding_backward) *)
Definition leg_fast_backward (l2c : nat -> bool -> (nat -> R) -> nat -> R) (xl wl : nat -> R) (fuel lines N n : nat) (c : nat -> nat -> R) : option (nat -> nat -> R) :=
  match dlt l2c xl wl fuel dlt_tol Backward lines n (fun l => truncate N (c l)) with None => None | Some (_, out) => Some out end.
Definition leg_fast_scalar_product (l2c : nat -> bool -> (nat -> R) -> nat -> R) (xl wl : nat -> R) (fuel lines N n : nat) (df : R) (u : nat -> nat -> R) : option (nat -> nat -> R) :=
  match dlt l2c xl wl fuel dlt_tol ScalarProduct lines n u with None => None | Some (_, out) => Some (fun l => truncate N (fun k => out l k * (1 / df))) end.
