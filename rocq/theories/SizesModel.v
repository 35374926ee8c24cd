(** SizesModel.v -- the sizes of padded and refined spaces, in IEEE doubles (Flocq's binary64 with
    rounding to nearest even, which is what Python floats are). *)
From Coq Require Import ZArith Reals.
From Flocq Require Import Core.Core IEEE754.BinarySingleNaN.
Local Open Scope Z_scope.

(** Python floats *)
Definition b64 : Type := binary_float 53 1024.
Definition Hprec : Prec_gt_0 53 := eq_refl.
Definition Hmax : Prec_lt_emax 53 1024 := eq_refl.
Definition of_int (z : Z) : b64 := binary_normalize 53 1024 Hprec Hmax mode_NE z 0 false.   (* int -> float *)
Definition mul (x y : b64) : b64 := @Bmult 53 1024 Hprec Hmax mode_NE x y.                  (* x*y *)
Definition div (x y : b64) : b64 := @Bdiv 53 1024 Hprec Hmax mode_NE x y.                   (* x/y *)
Definition pyint (x : b64) : Z := Btrunc x.                                                 (* int(x) *)
Definition npfloor (x : b64) : b64 := @Bnearbyint 53 1024 Hmax mode_DN x.                   (* np.floor(x) *)
Definition npround (x : b64) : b64 := @Bnearbyint 53 1024 Hmax mode_NE x.                   (* np.round(x) *)
Definition is_one (x : b64) : bool := match Bcompare x (of_int 1) with Some Eq => true | _ => false end.  (* x == 1 *)

(** spectralbase.py 51-53: the padding factor kept by a space; [p] is the argument padding_factor *)
Definition stored_factor (N : Z) (p : b64) : b64 :=
  if is_one p then p else if 0 <? N then div (npfloor (mul (of_int N) p)) (of_int N) else of_int 1.
(** spectralbase.py 857-871 SpectralBase.shape(False), [f] = self.padding_factor *)
Definition shape_false (N : Z) (f : b64) : Z :=
  if is_one f then N else pyint (npfloor (mul f (of_int N))).
(** fourier/bases.py 375-378, 558-561 R2C.shape(False), C2C.shape(False) *)
Definition fourier_shape_false (N : Z) (f : b64) : Z := pyint (npfloor (mul f (of_int N))).
(** fourier/bases.py 332, 519: self.plan((int(padding_factor*N),), ...) with the argument padding_factor *)
Definition fourier_plan_size (N : Z) (p : b64) : Z := pyint (mul p (of_int N)).
(** tensorproductspace.py 497, 500, 514, 517: the size planned along one axis of a padded tensor product space *)
Definition tp_plan_size (N : Z) (f : b64) : Z := pyint (npfloor (mul (of_int N) f)).
(** spectralbase.py 650-653 _get_truncarray: number of modes after truncation of [shape] points *)
Definition trunc_size (shape : Z) (f : b64) : Z := pyint (npround (div (of_int shape) f)).
(** fourier/bases.py 361-365 R2C._get_truncarray *)
Definition trunc_size_r2c (shape : Z) (f : b64) : Z := pyint (div (of_int shape) f) / 2 + 1.
(** spectralbase.py 1175-1300 get_unplanned, get_homogeneous, get_refined, ...: the copy is constructed with
    padding_factor=self.padding_factor *)
Definition clone_factor (N : Z) (f : b64) : b64 := stored_factor N f.
Fixpoint clones (N : Z) (f : b64) (k : nat) : b64 := match k with O => f | S k => clone_factor N (clones N f k) end.

(** forms/arguments.py 1781-1816 Function.refine, the size along one axis: [n] = bases[ax].N, [N'] the
    wanted number, [gs] the present spectral size of the axis *)
Definition refine_factor (n N' : Z) : b64 := div (of_int N') (of_int n).
Definition refine_size (n N' gs : Z) : Z := pyint (mul (of_int gs) (refine_factor n N')).                       (* 1788, 1806 *)
Definition refine_size_r2c_first (n N' gs : Z) : Z := pyint (mul (of_int (2 * gs - 2)) (refine_factor n N')) / 2 + 1. (* 1786 *)
Definition refine_size_r2c_next (n N' : Z) : Z := pyint (mul (of_int n) (refine_factor n N')) / 2 + 1.           (* 1804 *)
