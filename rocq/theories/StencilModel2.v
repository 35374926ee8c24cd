(** StencilModel2.v -- the stencil matrices that are written out array by array
    (chebyshev/bases.py and legendre/bases.py), instead of through self._stencil.

    Exact real arithmetic instead of doubles.  NumPy assignments such as d[-2:] = 0; d[1] = x
    become nested tests, the last assignment first.  The size N is the size of the space;
    the index assignments raise IndexError for the very small N excluded in the theorems. *)
From Coq Require Import Reals ZArith List Arith.
From Verif Require Import Base Fld SparseModel RPoly.
Import ListNotations.
Local Open Scope R_scope.

Definition arr (n : nat) (f : nat -> R) : dval RFld := Arr RFld n f.

(** chebyshev/bases.py 751-765 Heinrichs.stencil_matrix (scaled or not) *)
Definition heinrichs_matrix (scaled : bool) (N : nat) : smat RFld :=
  let d := fun i => if Nat.eqb i 1 then 1 / 4 else if Nat.leb (N - 2) i then 0 else 1 / 2 in
  let dm2 := fun i => if Nat.leb (N - 4) i then 0 else - (1) / 4 in
  let dp2 := fun i => if Nat.eqb i 0 then - (1) / 2 else - (1) / 4 in
  let s (f : nat -> R) (g : R -> R) := fun i => if scaled then f i / g (INR i) else f i in
  mkSmat RFld N N 1
    [((-2)%Z, arr (N - 2) (s dm2 (fun k => (k + 3) * (k + 4))));
     (0%Z, arr N (s d (fun k => (k + 1) * (k + 2))));
     (2%Z, arr (N - 2) (s dp2 (fun k => (k + 1) * (k + 2))))].

(** k = np.arange(N); k[0] = 1 *)
Definition k1 (i : nat) : R := if Nat.eqb i 0 then 1 else INR i.

(** chebyshev/bases.py 1036-1050 CombinedShenNeumann.stencil_matrix *)
Definition combined_shen_neumann_matrix (N : nat) : smat RFld :=
  let d := fun i => if Nat.eqb i 2 then 1 / 4 else if Nat.eqb i 1 then 1 else if Nat.eqb i 0 then 1
                    else if Nat.leb (N - 2) i then 0 else 2 / k1 i ^ 2 in
  let dm2 := fun i => if Nat.leb (N - 4) i then 0 else if Nat.eqb i 0 then 0 else - (1) / k1 i ^ 2 in
  let dp2 := fun i => if Nat.eqb i 0 then 0 else - (1) / k1 (i + 2) ^ 2 in
  mkSmat RFld N N 1 [((-2)%Z, arr (N - 2) dm2); (0%Z, arr N d); (2%Z, arr (N - 2) dp2)].

(** chebyshev/bases.py 1151-1167 MikNeumann.stencil_matrix *)
Definition mik_neumann_matrix (N : nat) : smat RFld :=
  let d := fun i => if Nat.eqb i 2 then 1 / 3 else if Nat.eqb i 1 then 3 / 2 else if Nat.eqb i 0 then 1
                    else if Nat.leb (N - 2) i then 0 else 2 / k1 i / (k1 i + 1) in
  let dm2 := fun i => if Nat.leb (N - 4) i then 0 else if Nat.eqb i 0 then 0 else - (1) / k1 i / (k1 (i + 2) + 1) in
  let dp2 := fun i => if Nat.eqb i 0 then 0 else - (1) / k1 (i + 2) / (k1 (i + 2) - 1) in
  mkSmat RFld N N 1 [((-2)%Z, arr (N - 2) dm2); (0%Z, arr N d); (2%Z, arr (N - 2) dp2)].

(** chebyshev/bases.py 1949-1961 ShenBiPolar.stencil_matrix *)
Definition cheb_bipolar_matrix (N : nat) : smat RFld :=
  let d := fun i => if Nat.leb (N - 4) i then 0 else if Nat.eqb i 1 then 1 / 2 else if Nat.eqb i 0 then 1 / 2
                    else (INR i + 1) * 3 / 8 in
  let dm2 := fun i => if Nat.leb (N - 6) i then 0 else - (INR (i + 2) + 1) / 8 in
  let dp2 := fun i => if Nat.leb (N - 4) i then 0 else - (INR i + 1) * 3 / 8 in
  let dp4 := fun i => (INR i + 1) / 8 in
  mkSmat RFld N N 1 [((-2)%Z, arr (N - 2) dm2); (0%Z, arr N d); (2%Z, arr (N - 2) dp2); (4%Z, arr (N - 4) dp4)].

(** legendre/bases.py 1062-1083 ShenBiPolar.stencil_matrix *)
Definition leg_bipolar_matrix (N : nat) : smat RFld :=
  let ak := fun i => let k := INR i in k * (k - 1) / (2 * k - 1) / (2 * k + 1) in
  let bk := fun i => let k := INR i in - (2) * (k ^ 2 + k - 1) / (2 * k - 1) / (2 * k + 3) in
  let ck := fun i => let k := INR i in (k + 1) * (k + 2) / (2 * k + 1) / (2 * k + 3) in
  let f := fun i => let k := INR i in (k + 1) * (k + 2) / (2 * k + 3) in
  let d := fun i => if Nat.eqb i 1 then 24 / 35 else if Nat.eqb i 0 then 8 / 15
                    else if Nat.ltb i (N - 4) then f i * (ak (i + 2)%nat - bk i) else 0 in
  let dm2 := fun i => if Nat.ltb i (N - 6) then - f (i + 2)%nat * ak (i + 2)%nat else 0 in
  let dp2 := fun i => if Nat.eqb i 1 then - (16) / 15 else if Nat.eqb i 0 then - (16) / 21
                      else if Nat.ltb i (N - 4) then f i * (bk (i + 2)%nat - ck i) else 0 in
  let dp4 := fun i => if Nat.eqb i 1 then 8 / 21 else if Nat.eqb i 0 then 8 / 35 else f i * ck (i + 2)%nat in
  mkSmat RFld N N 1 [((-2)%Z, arr (N - 2) dm2); (0%Z, arr N d); (2%Z, arr (N - 2) dp2); (4%Z, arr (N - 4) dp4)].

(** chebyshev/bases.py 848-852 Heinrichs2, through spectralbase.py 1504-1526: for the offset
    -2 the slice k[:N-i] is k[:N+2], all of k, so the array for the diagonal has N entries *)
Definition heinrichs2_matrix (N : nat) : smat RFld :=
  let z (f : R -> R) := fun i => if Nat.leb (N - 2) i then 0 else f (INR i) in
  mkSmat RFld N N 1
    [((-2)%Z, arr N (z (fun n => 1 / (4 * (n + 3) * (n + 4)))));
     (0%Z, arr N (z (fun n => - (1) / (2 * (n + 1) * (n + 2)))));
     (2%Z, arr (N - 2) (z (fun n => 1 / (4 * (n + 1) * (n + 2)))))].
(** chebyshev/bases.py 1339-1345 PolarDirichlet.stencil_matrix: dm2 = np.ones(N) *)
Definition polar_dirichlet_matrix (N : nat) : smat RFld :=
  mkSmat RFld N N 1
    [((-2)%Z, arr N (fun i => if Nat.leb (N - 2) i then 0 else 1));
     (0%Z, arr N (fun i => if Nat.leb 2 i then 0 else 1));
     (2%Z, Scal RFld (- (1)))].

(** spectralbase.py 1616-1634 CompositeBase.to_ortho along one axis (homogeneous boundary
    conditions; zero-filled output).  The slices s0, s1 and 0:Q are ranges of equal length Q;
    the model needs Q >= 0, that is, offsets not below -dim. *)
Definition to_ortho_step (N dim : nat) (u : nat -> R) (out : nat -> R) (kv : Z * dval RFld) : nat -> R :=
  let '(key, val) := kv in
  let M := if (0 <=? key)%Z then Z.of_nat N else Z.of_nat dim in
  let start0 := Z.max 0 (- key) in
  let stop0 := Z.min (Z.of_nat dim) (M - Z.max 0 key) in
  let Q := (stop0 - start0)%Z in
  let start1 := Z.max 0 key in
  fun j => if andb (start1 <=? Z.of_nat j)%Z (Z.of_nat j <? start1 + Q)%Z
           then let t := (j - Z.to_nat start1)%nat in out j + dget RFld val t * u (Z.to_nat start0 + t)%nat
           else out j.
Definition to_ortho (S : smat RFld) (dim : nat) (u : nat -> R) : nat -> R :=
  fold_left (to_ortho_step (sm_cols RFld S) dim u) (sm_items RFld S) (fun _ => 0).
