(** FMatModel.v -- shenfun/fourier/matrices.py, with the part of SpectralMatrix.__init__ (matrixbase.py 566-698) that concerns it.

    Complex numbers are pairs of reals; exact arithmetic.  The bases have no padding, no coordinates, and test and trial space
    are the same space (C2C or R2C) with N points.  assemble='exact' and assemble='quadrature' take the same path here, because
    every assemble() of this module ignores its argument. *)
From Coq Require Import Reals ZArith List Bool Arith.
From Verif Require Import Base Fld Complex FourierModel SparseModel.
Import ListNotations.
Local Open Scope R_scope.

(** a real number as a complex number *)
Definition cr (x : R) : CFld := (x, 0).
(** x + y i *)
Definition cpx (x y : R) : CFld := (x, y).
Definition conjg (z : CFld) : CFld := Cconj z.
(** numpy's .real, kept as a complex number *)
Definition real_part (z : CFld) : CFld := (fst z, 0).

(** the measure of an inner product: a number, or a sympy expression in the reference coordinate x *)
Inductive measure := Mnum (c : R) | Mcos2 | Mcos | Msin | Msincos (* sin(2x)/2 or sin(x)*cos(x) *) | Mother.
(** the classes of this module *)
Inductive kind := Acos2 | Acos | Csin | Csincos | Bcos2 | Bcos | Plain.
(** 199-207 the dictionary mat, and FourierMatDict.__missing__ 132-137 for all other keys *)
Definition dispatch (c2c : bool) (t s : nat) (m : measure) : kind :=
  if c2c then
    match t, s, m with
    | O, 2%nat, Mcos2 => Acos2
    | O, 2%nat, Mcos => Acos
    | O, 1%nat, Msin => Csin
    | O, 1%nat, Msincos => Csincos
    | O, O, Mcos2 => Bcos2
    | O, O, Mcos => Bcos
    | _, _, _ => Plain
    end
  else Plain.

(** dim(): N (C2C) or N//2+1 (R2C) *)
Definition fdim (c2c : bool) (N : nat) : nat := if c2c then N else (N / 2 + 1)%nat.
(** wavenumbers(bcast=False, scaled=False, eliminate_highest_freq=False) *)
Definition wn (c2c : bool) (N i : nat) : Z := if c2c then wavenumbers_c2c N false i else wavenumbers_r2c N false i.

(** a dictionary display: later values replace earlier values with an equal key *)
Definition dict (l : list (Z * dval CFld)) : list (Z * dval CFld) := fold_left (fun d kv => dict_set CFld (fst kv) (snd kv) d) l [].
(** slices of an array with N entries: f[a:], f[:-a], f[-a:], f[:a] *)
Definition from (N a : nat) (f : nat -> R) : dval CFld := Arr CFld (N - a) (fun j => cr (f (a + j)%nat)).
Definition but (N a : nat) (f : nat -> R) : dval CFld := Arr CFld (N - a) (fun j => cr (f j)).
Definition last (N a : nat) (f : nat -> R) : dval CFld := Arr CFld a (fun j => cr (f (N - a + j)%nat)).
Definition first (a : nat) (f : nat -> R) : dval CFld := Arr CFld a (fun j => cr (f j)).

(** 28-38, 51-59, 72-80, 93-102, 114-122, 134-141, 150-179: assemble; None: no implementation, the matrix is computed by
    quadrature with the Vandermonde matrices *)
Definition assemble (c2c : bool) (N : nat) (df : R) (t s : nat) (m : measure) : option (list (Z * dval CFld)) :=
  let k := fun i => IZR (wn c2c N i) in
  let n := Z.of_nat N in
  match dispatch c2c t s m with
  | Acos2 => Some (dict [(0%Z, but N 0 (fun i => - (1 / 2) * (k i * k i)));
                         (2%Z, from N 2 (fun i => - (1 / 4) * (k i * k i)));
                         ((-2)%Z, but N 2 (fun i => - (1 / 4) * (k i * k i)));
                         ((n - 2)%Z, last N 2 (fun i => - (1 / 4) * (k i * k i)));
                         ((- (n - 2))%Z, first 2 (fun i => - (1 / 4) * (k i * k i)))])
  | Acos => Some (dict [(1%Z, from N 1 (fun i => - (1 / 2) * (k i * k i)));
                        ((-1)%Z, but N 1 (fun i => - (1 / 2) * (k i * k i)));
                        ((n - 1)%Z, Scal CFld (cr (- (1 / 2) * (k (N - 1)%nat * k (N - 1)%nat))))])
  | Csin => Some (dict [(1%Z, from N 1 (fun i => - (1 / 2) * k i));
                        ((-1)%Z, but N 1 (fun i => 1 / 2 * k i));
                        ((n - 1)%Z, Scal CFld (cr (- (1 / 2))))])
  | Csincos => Some (dict [(2%Z, from N 2 (fun i => - (1 / 4) * k i));
                           ((-2)%Z, but N 2 (fun i => 1 / 4 * k i));
                           ((n - 2)%Z, last N 2 (fun i => 1 / 4 * k i));
                           ((- (n - 2))%Z, first 2 (fun i => - (1 / 4) * k i))])
  | Bcos2 => Some (dict [(0%Z, Scal CFld (cr (1 / 2))); (2%Z, Scal CFld (cr (1 / 4))); ((-2)%Z, Scal CFld (cr (1 / 4)));
                         ((n - 2)%Z, Scal CFld (cr (1 / 4))); ((- (n - 2))%Z, Scal CFld (cr (1 / 4)))])
  | Bcos => Some (dict [(1%Z, Scal CFld (cr (1 / 2))); ((-1)%Z, Scal CFld (cr (1 / 2)));
                        ((n - 1)%Z, Scal CFld (cr (1 / 2))); ((- (n - 1))%Z, Scal CFld (cr (1 / 2)))])
  | Plain =>
    match m with
    | Mnum _ =>
      if (0 <? s + t)%nat then
        let val := fun i => fmul (fpow (fmul (cpx 0 1) (cr (k i))) s) (fpow (fmul (cpx 0 (-1)) (cr (k i))) t) in
        let val := fun i => if ((s + t) mod 2 =? 0)%nat then real_part (val i) else val i in
        Some [(0%Z, Arr CFld (fdim c2c N) (fun i => fmul (val i) (cr df)))]
      else Some [(0%Z, Scal CFld (cr df))]
    | _ => None
    end
  end.

(** matrixbase.py 572-574, 692-693 the scale: a numeric measure times domain_factor()**(t+s-1); scale0 is the argument *)
Definition mscale (df scale0 : R) (t s : nat) (m : measure) : R :=
  scale0 * (match m with Mnum c => c | _ => 1 end) *
  (if Req_EM_T df 1 then 1 else powerRZ df (Z.of_nat (t + s) - 1)).
(** matrixbase.py 566-698; near1 is the test of incorporate_scale *)
Definition fourier_matrix (near1 : CFld -> bool) (c2c : bool) (N : nat) (df scale0 : R) (t s : nat) (m : measure) : option (smat CFld) :=
  match assemble c2c N df t s m with
  | Some d => Some (incorporate_scale CFld near1 (mkSmat CFld (fdim c2c N) (fdim c2c N) (cr (mscale df scale0 t s m)) d))
  | None => None
  end.

(** matrixbase.py 1852-1868 _get_matrix with quadrature, and the scale: the matrix for kind='vandermonde' and when there is no
    implementation; g is the lambdified measure.  fourier/bases.py 76-84 points_and_weights, 118-128 *)
Definition vander (c2c : bool) (N s j i : nat) : CFld :=
  let k := IZR (wn c2c N i) in
  let x := INR j * 2 * PI / INR N in
  fmul (cpx (cos (x * k)) (sin (x * k))) (fpow (fmul (cpx 0 1) (cr k)) s).
Definition quad_matrix (c2c : bool) (N : nat) (df scale0 : R) (t s : nat) (g : R -> R) (i l : nat) : CFld :=
  fmul (fsum N (fun j => fmul (fmul (conjg (vander c2c N t j i)) (cr (df / INR N * g (INR j * 2 * PI / INR N)))) (vander c2c N s j l)))
       (cr (mscale df scale0 t s Mother)).

(** 181-196 solve for measure 1; a zero on the diagonal gives an infinity, which is replaced by 0 at the positions 0 and
    shape[0]//2.  None: an infinity remains *)
Definition is_zero (z : CFld) : bool :=
  if Req_EM_T (fst z) 0 then (if Req_EM_T (snd z) 0 then true else false) else false.
Definition fourier_solve (A : smat CFld) (b : nat -> CFld) : option (nat -> CFld) :=
  let n := sm_rows CFld A in
  match dict_get CFld 0 (sm_items CFld A) with
  | Some (Arr _ _ f) =>
    if forallb (fun i => negb (is_zero (f i)) || (i =? 0)%nat || (i =? n / 2)%nat) (seq 0 n)
    then Some (fun i => fdiv (if is_zero (f i) then f0 else fmul (b i) (finv (f i))) (sm_scale CFld A)) else None
  | Some (Scal _ x) => if is_zero x then None else Some (fun i => fdiv (fmul (b i) (finv x)) (sm_scale CFld A))
  | None => None
  end.
