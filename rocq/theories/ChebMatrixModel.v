(** ChebMatrixModel.v -- the matrices of chebyshev/matrices.py, assembled from formulas.

    Each definition is the dictionary returned by the assemble method of the class, with the shape
    (test.dim(), trial.dim()) given by SpectralMatrix.__init__ (matrixbase.py 623-700) for a test and
    a trial space of the same size N.  [h] is the array returned by get_norm_sq.
    A slice such as k[1:-3] is the function of the index i shifted by its start, with the length of
    the slice.  Diagonals that are computed by a function _getkey when they are read are stored as
    the arrays the function returns (self._keyscale is 1 after assemble).  Exact real arithmetic
    instead of doubles.  BTLmat is in Leg2ChebModel.v. *)
From Coq Require Import Reals ZArith List Arith.
From Verif Require Import Base Fld SparseModel RPoly StencilModel StencilModel2 LegMatrixModel.
Import ListNotations.
Local Open Scope R_scope.

(** chebyshev/bases.py 268-280 L2_norm_sq and l2_norm_sq (the array, for N > 1), GC is written LG *)
Definition cheb_L2_norm_sq (i : nat) : R := if Nat.eqb i 0 then 2 * PI / 2 else 1 * PI / 2.
Definition cheb_l2_norm_sq (q : quad) (N i : nat) : R :=
  let f0 := if Nat.eqb i 0 then PI / 2 * 2 else PI / 2 in
  match q with GL => if Nat.eqb i (N - 1) then f0 * 2 else f0 | LG => f0 end.
(** spectralbase.py 2344-2368 get_norm_sq *)
Definition cheb_norm_sq (quadrature : bool) (q : quad) (N i : nat) : R :=
  if quadrature then cheb_l2_norm_sq q N i else cheb_L2_norm_sq i.

(** 98-100 dmax(N, M, d), for d <> 0 *)
Definition dmax (N M : nat) (d : Z) : nat :=
  Z.to_nat (Z.of_nat (Nat.min N M) - Z.abs d + Z.min (Z.max ((Z.of_nat M - Z.of_nat N) * Z.sgn d) 0) (Z.abs d)).
(** np.arange(a, b, 2) *)
Definition zarange (a b : Z) : list Z := map (fun i => (a + 2 * Z.of_nat i)%Z) (seq 0 (Z.to_nat ((b - a + 1) / 2))).
(** dict.fromkeys(keys, _getkey) *)
Definition fromkeys (keys : list Z) (getkey : Z -> dval RFld) : list (Z * dval RFld) := map (fun z => (z, getkey z)) keys.

Section Norm.
  Variable h : nat -> R.
  Variable N : nat.
  (** 119-121 *)
  Definition c_BTT : smat RFld := dmat N N [(0%Z, arr N h)].
  (** 238-246 *)
  Definition c_BSDSD : smat RFld :=
    dmat (N - 2) (N - 2) [((-2)%Z, Scal RFld (- h 1%nat)); (0%Z, arr (N - 2) (fun i => h i + h (i + 2)%nat)); (2%Z, Scal RFld (- h 1%nat))].
  (** 295-308 *)
  Definition c_BSNSD : smat RFld :=
    let alpha := fun i => INR i / (INR i + 2) in
    dmat (N - 2) (N - 2)
      [(0%Z, arr (N - 2) (fun i => h i + alpha i ^ 2 * h (i + 2)%nat));
       (2%Z, arr (dmax (N - 2) (N - 2) 2) (fun i => - alpha i ^ 2 * h (i + 2)%nat));
       ((-2)%Z, Scal RFld (- PI / 2))].
  (** 328-339 *)
  Definition c_BSDSN : smat RFld :=
    let alpha := fun i => INR i / (INR i + 2) in
    dmat (N - 2) (N - 2)
      [(0%Z, arr (N - 2) (fun i => h i + alpha i ^ 2 * h (i + 2)%nat));
       ((-2)%Z, arr (dmax (N - 2) (N - 2) (-2)) (fun i => - alpha i ^ 2 * h (i + 2)%nat));
       (2%Z, Scal RFld (- PI / 2))].
  (** 367-375 *)
  Definition c_BLDLD : smat RFld :=
    dmat (N - 1) (N - 1) [(0%Z, arr (N - 1) (fun i => h i + h (i + 1)%nat)); (1%Z, Scal RFld (PI / 2)); ((-1)%Z, Scal RFld (PI / 2))].
  (** 388-401 *)
  Definition c_BSNSN : smat RFld :=
    let alpha := fun i => (INR i / (INR i + 2)) ^ 2 in
    let d2 := fun i => - alpha i * h (i + 2)%nat in
    dmat (N - 2) (N - 2)
      [(0%Z, arr (N - 2) (fun i => h i + alpha i ^ 2 * h (i + 2)%nat));
       (2%Z, arr (dmax (N - 2) (N - 2) 2) d2); ((-2)%Z, arr (dmax (N - 2) (N - 2) 2) d2)].
  (** 441-451 *)
  Definition c_BSDT : smat RFld :=
    dmat (N - 2) N [(0%Z, arr (Nat.min (N - 2) N) h); (2%Z, arr (dmax (N - 2) N 2) (fun i => - h (i + 2)%nat))].
  (** 465-475 *)
  Definition c_BTSD : smat RFld :=
    dmat N (N - 2) [(0%Z, arr (Nat.min N (N - 2)) h); ((-2)%Z, arr (dmax N (N - 2) (-2)) (fun i => - h (i + 2)%nat))].
  (** 488-499; alpha is the diagonal 2 of the stencil matrix of ShenNeumann *)
  Definition c_BTSN : smat RFld :=
    let alpha := fun i => - (INR i / (INR i + 2)) ^ 2 in
    dmat N (N - 2) [(0%Z, arr (N - 2) h); ((-2)%Z, arr (dmax N (N - 2) (-2)) (fun i => h (i + 2)%nat * alpha i))].
  (** 515-528; s2 and s4 are the diagonals 2 and 4 of the stencil matrix of ShenBiharmonic *)
  Definition c_BSBSB : smat RFld :=
    let s2 := fun i => - (2 * INR i + 4) / (INR i + 3) in
    let s4 := fun i => (INR i + 1) / (INR i + 3) in
    let d2 := fun i => h (i + 2)%nat * s2 i + h (i + 4)%nat * s4 i * s2 (i + 2)%nat in
    let d4 := fun i => h (i + 4)%nat * s4 i in
    dmat (N - 4) (N - 4)
      [(0%Z, arr (N - 4) (fun i => h i + h (i + 2)%nat * s2 i ^ 2 + h (i + 4)%nat * s4 i ^ 2));
       (2%Z, arr (N - 6) d2); (4%Z, arr (N - 8) d4); ((-2)%Z, arr (N - 6) d2); ((-4)%Z, arr (N - 8) d4)].
  (** 583-600 *)
  Definition c_BSBSD : smat RFld :=
    let Q := Nat.min (N - 2) (N - 4) in
    let a := fun i => 2 * (INR i + 2) / (INR i + 3) in
    let b := fun i => (INR i + 1) / (INR i + 3) in
    dmat (N - 4) (N - 2)
      [((-2)%Z, Scal RFld (- PI / 2));
       (0%Z, arr Q (fun i => h i + a i * PI / 2));
       (2%Z, arr (Nat.min Q (N - 2 - 2)) (fun i => - (a i * PI / 2 + h (i + 4)%nat * b i)));
       (4%Z, arr (Nat.min Q (N - 2 - 4)) (fun i => b i * h (i + 4)%nat))].
  (** 641-652 *)
  Definition c_BSBT : smat RFld :=
    let Q := Nat.min N (N - 4) in
    dmat (N - 4) N
      [(0%Z, arr Q h);
       (2%Z, arr (Nat.min Q (N - 2)) (fun i => - PI * (INR i + 2) / (INR i + 3)));
       (4%Z, arr (Nat.min Q (N - 4)) (fun i => h (i + 4)%nat * (INR i + 1) / (INR i + 3)))].
  (** 1321-1335; [sc] is trial[0].is_scaled() *)
  Definition c_ASDHH (sc : bool) : smat RFld :=
    dmat (N - 2) (N - 2)
      (if sc then
        [(0%Z, arr (N - 2) (fun i => - h i));
         (2%Z, arr (N - 4) (fun i => PI / 2 * (INR i * INR (i + 1)) / ((INR i + 3) * (INR i + 4))))]
       else
        [(0%Z, arr (N - 2) (fun i => - h i * INR (i + 2) * INR (i + 1)));
         (2%Z, arr (N - 4) (fun i => PI / 2 * INR i * INR (i + 1)))]).
  (** 1350-1368; both spaces scaled or both not *)
  Definition c_AHHHH (sc : bool) : smat RFld :=
    let ck := fun i => h i * 2 / PI in
    let dk := fun i => if Nat.ltb i 2 then 0 else ck i in
    let s := fun (v w : R) => if sc then v * (1 / w) else v in
    dmat (N - 2) (N - 2)
      [(0%Z, arr (N - 2) (fun i => let k := INR i in
          s (- PI / 8 * ck i ^ 2 * ((k + 1) * (k + 2) + dk i * (k - 2) * (k - 1))) ((k + 2) ^ 2 * (k + 1) ^ 2)));
       (2%Z, arr (N - 4) (fun i => let k := INR i in
          s (PI / 8 * ck i * k * INR (i + 1)) ((k + 1) * (k + 2) * (k + 3) * (k + 4))));
       ((-2)%Z, arr (N - 4) (fun i => let k1 := INR (i + 1) in let k2 := INR (i + 2) in
          s (PI / 8 * ck i * k2 * k1) (k1 * k2 * (k2 + 1) * (k2 + 2))))].
End Norm.

Section Plain.
  Variable N : nat.
  (** 670-678 *)
  Definition c_CSDSN : smat RFld :=
    dmat (N - 2) (N - 2)
      [((-1)%Z, arr (N - 3) (fun i => let k := INR (i + 1) in - ((k - 1) / (k + 1)) ^ 2 * (k + 1) * PI));
       (1%Z, arr (N - 3) (fun i => (INR i + 1) * PI))].
  (** 707-715 *)
  Definition c_CSDSD : smat RFld :=
    dmat (N - 2) (N - 2)
      [((-1)%Z, arr (N - 3) (fun i => - (INR (i + 1) + 1) * PI)); (1%Z, arr (N - 3) (fun i => (INR i + 1) * PI))].
  (** 755-774; for odd N the last key is N - 2, with an empty array *)
  Definition c_CSNSD : smat RFld :=
    dmat (N - 2) (N - 2) (fromkeys (zarange (-1) (Z.of_nat N - 1)) (fun z =>
      if Z.eqb z (-1) then arr (N - 3) (fun i => - (INR (i + 1) + 1) * PI)
      else if Z.eqb z 1 then arr (N - 3) (fun i => - (2 - INR i ^ 2 / (INR i + 2) ^ 2 * (INR i + 3)) * PI)
      else arr (N - 2 - Z.to_nat z) (fun i => - (1 - INR i ^ 2 / (INR i + 2) ^ 2) * 2 * PI))).
  (** 787-795 *)
  Definition c_CTSD : smat RFld :=
    dmat N (N - 2) (fromkeys (zarange (-1) (Z.of_nat N - 2)) (fun z =>
      if Z.eqb z (-1) then arr (N - 2) (fun i => - (INR (i + 1) + 1) * PI) else Scal RFld (-2 * PI))).
  (** 820-828 *)
  Definition c_ASBT : smat RFld :=
    let Q := Nat.min (N - 4) N in
    dmat (N - 4) N [(2%Z, arr (Nat.min Q (N - 2)) (fun i => 2 * PI * (INR i + 2) * (INR i + 1)))].
  (** 842-849 *)
  Definition c_CSDT : smat RFld := dmat (N - 2) N [(1%Z, arr (N - 2) (fun i => PI * (INR i + 1)))].
  (** 865-875 *)
  Definition c_CTT : smat RFld :=
    dmat N N (fromkeys (zarange 1 (Z.of_nat N)) (fun z => arr (N - Z.to_nat z) (fun i => PI * INR (i + Z.to_nat z)))).
  (** 904-913 *)
  Definition c_CSBSD : smat RFld :=
    dmat (N - 4) (N - 2)
      [((-1)%Z, arr (N - 5) (fun i => - (INR (i + 1) + 1) * PI)); (1%Z, arr (N - 4) (fun i => 2 * (INR i + 1) * PI));
       (3%Z, arr (N - 5) (fun i => - (INR i + 1) * PI))].
  (** 955-964 *)
  Definition c_CSDSB : smat RFld :=
    dmat (N - 2) (N - 4)
      [((-3)%Z, arr (N - 5) (fun i => let k := INR (i + 3) in (k - 2) * (k + 1) / k * PI));
       ((-1)%Z, arr (N - 4) (fun i => let k := INR (i + 1) in -2 * (k + 1) ^ 2 / (k + 2) * PI));
       (1%Z, arr (N - 5) (fun i => (INR i + 1) * PI))].
  (** 1008-1017 *)
  Definition c_ASBSB : smat RFld :=
    dmat (N - 4) (N - 4)
      [((-2)%Z, arr (N - 6) (fun i => let k := INR (i + 2) in 2 * (k - 1) * (k + 2) * PI));
       (0%Z, arr (N - 4) (fun i => let k := INR i in -4 * ((k + 1) * (k + 2) ^ 2) / (k + 3) * PI));
       (2%Z, arr (N - 6) (fun i => let k := INR i in 2 * (k + 1) * (k + 2) * PI))].
  (** 1061-1079 *)
  Definition c_ASDSD : smat RFld :=
    dmat (N - 2) (N - 2) (fromkeys (zarange 0 (Z.of_nat N - 2)) (fun z =>
      if Z.eqb z 0 then arr (N - 2) (fun i => -2 * PI * (INR i + 1) * (INR i + 2))
      else if Z.eqb z 2 then arr (N - 4) (fun i => -4 * PI * (INR i + 1))
      else arr (N - (Z.to_nat z + 2)) (fun i => -4 * PI * (INR i + 1)))).
  (** 1110-1122 *)
  Definition c_ASNSN : smat RFld :=
    dmat (N - 2) (N - 2) (fromkeys (zarange 0 (Z.of_nat N - 2)) (fun z =>
      if Z.eqb z 0 then arr (N - 2) (fun i => -2 * PI * INR i ^ 2 * (INR i + 1) / (INR i + 2))
      else arr (N - 2 - Z.to_nat z) (fun i => -4 * PI * (INR i + INR (Z.to_nat z)) ^ 2 * (INR i + 1) / (INR i + 2) ^ 2))).
  (** 1178-1188 *)
  Definition c_ASBSD : smat RFld :=
    let Q := Nat.min (N - 2) (N - 4) in
    dmat (N - 4) (N - 2)
      [(0%Z, arr Q (fun i => -2 * (INR i + 1) * (INR i + 2) * PI));
       (2%Z, arr (Nat.min Q (N - 2 - 2)) (fun i => 2 * (INR i + 1) * (INR i + 2) * PI))].
  (** 1205-1215 *)
  Definition c_ATT : smat RFld :=
    dmat N N (fromkeys (zarange 2 (Z.of_nat N)) (fun z => let j := Z.to_nat z in
      arr (N - j) (fun i => INR (i + j) * (INR (i + j) ^ 2 - INR i ^ 2) * PI / 2))).
  (** 1239-1252 *)
  Definition c_ATSD : smat RFld :=
    dmat N (N - 2) (fromkeys (zarange 0 (Z.of_nat N - 2)) (fun z => let j := Z.to_nat z in
      if Z.eqb z 0 then arr (N - 2) (fun i => - PI / 2 * INR (i + 2) * (INR (i + 2) ^ 2 - INR i ^ 2))
      else arr (N - j - 2) (fun i => (INR (i + j) * (INR (i + j) ^ 2 - INR i ^ 2)
                                      - INR (i + j + 2) * (INR (i + j + 2) ^ 2 - INR i ^ 2)) * PI / 2))).
  (** 1266-1278 *)
  Definition c_ATSN : smat RFld :=
    dmat N (N - 2) (fromkeys (zarange 0 (Z.of_nat N - 2)) (fun z => let j := Z.to_nat z in
      if Z.eqb z 0 then arr (N - 2) (fun i => - INR i ^ 2 / (INR i + 2) * ((INR i + 2) ^ 2 - INR i ^ 2) * PI / 2)
      else arr (N - j - 2) (fun i => let kj := INR (i + j) in
             (kj * (kj ^ 2 - INR i ^ 2) - kj ^ 2 / (kj + 2) * ((kj + 2) ^ 2 - INR i ^ 2)) * PI / 2))).
  (** 1290-1304 *)
  Definition c_ACNCN : smat RFld :=
    let d0 := fun i => let k := INR i in
      if Nat.eqb i 0 then 0
      else if Nat.ltb i 3 then -2 * PI / k ^ 2 * ((k + 1) / (k + 2))
      else -2 * PI * ((k - 1) / k ^ 2 / (k - 2) + (k + 1) / k ^ 2 / (k + 2)) in
    let dm2 := fun i => let k := INR (i + 2) in if Nat.eqb i 0 then 0 else 2 * PI * (k - 1) / k / (k - 2) ^ 2 in
    let d2 := fun i => let k := INR i in if Nat.eqb i 0 then - PI else 2 * PI * (k + 1) / k / INR (i + 2) ^ 2 in
    dmat (N - 2) (N - 2) [((-2)%Z, arr (N - 4) dm2); (0%Z, arr (N - 2) d0); (2%Z, arr (N - 4) d2)].
  (** 1382-1391 *)
  Definition c_ASDMN : smat RFld :=
    dmat (N - 2) (N - 2)
      [(0%Z, arr (N - 2) (fun i => if Nat.eqb i 0 then 0 else -2 * PI));
       (2%Z, arr (N - 4) (fun i => 2 * PI * INR (i + 1) / INR (i + 3)))].
  (** 1408-1423 *)
  Definition c_ASNCN : smat RFld :=
    dmat (N - 2) (N - 2)
      [(0%Z, arr (N - 2) (fun i => if Nat.eqb i 0 then 0 else -2 * PI * INR (i + 1) / INR (i + 2)));
       (2%Z, arr (N - 4) (fun i => if Nat.eqb i 0 then - PI else 2 * PI * INR i * INR (i + 1) / INR (i + 2) ^ 2))].
  (** 1444-1459 *)
  Definition c_SSBSB : smat RFld :=
    dmat (N - 4) (N - 4) (fromkeys (zarange 0 (Z.of_nat N - 4)) (fun z => let j := Z.to_nat z in
      if Z.eqb z 0 then arr (N - 4) (fun i => PI * 8 * (INR i + 1) ^ 2 * (INR i + 2) * (INR i + 4))
      else arr (N - 4 - j) (fun i => 8 * (INR i + 1) * (INR i + 2) * (INR i * (INR i + 4) + 3 * (INR (i + j) + 2) ^ 2) * PI / (INR (i + j) + 3)))).
End Plain.

(** ** the dictionary mat (1475-1511): (test, derivatives), (trial, derivatives) -> class *)
Inductive cspace := CT | CSD | CHH | CSB | CSN | CCN | CMN | CLD.
Record centry := mkCE { ce_test : cspace; ce_trial : cspace; ce_triald : nat; ce_mat : smat RFld }.
(** [h] is get_norm_sq(test, trial, method), sc tells if the Heinrichs bases are scaled; the test
    functions are never differentiated; BTLmat is in Leg2ChebModel.v *)
Definition chebyshev_mat (h : nat -> R) (sc : bool) (N : nat) : list centry :=
  [mkCE CT CT 0 (c_BTT h N);
   mkCE CSD CSD 0 (c_BSDSD h N);
   mkCE CSB CSB 0 (c_BSBSB h N);
   mkCE CSN CSN 0 (c_BSNSN h N);
   mkCE CSD CSN 0 (c_BSDSN h N);
   mkCE CSN CSD 0 (c_BSNSD h N);
   mkCE CLD CLD 0 (c_BLDLD h N);
   mkCE CT CSN 0 (c_BTSN h N);
   mkCE CSB CSD 0 (c_BSBSD h N);
   mkCE CSB CT 0 (c_BSBT h N);
   mkCE CT CSD 0 (c_BTSD h N);
   mkCE CSD CT 0 (c_BSDT h N);
   mkCE CSD CSD 2 (c_ASDSD N);
   mkCE CT CT 2 (c_ATT N);
   mkCE CT CSD 2 (c_ATSD N);
   mkCE CT CSN 2 (c_ATSN N);
   mkCE CSN CSN 2 (c_ASNSN N);
   mkCE CCN CCN 2 (c_ACNCN N);
   mkCE CSB CSB 2 (c_ASBSB N);
   mkCE CSB CSD 2 (c_ASBSD N);
   mkCE CHH CHH 2 (c_AHHHH h N sc);
   mkCE CSD CMN 2 (c_ASDMN N);
   mkCE CSN CCN 2 (c_ASNCN N);
   mkCE CSD CHH 2 (c_ASDHH h N sc);
   mkCE CSB CSB 4 (c_SSBSB N);
   mkCE CSD CSN 1 (c_CSDSN N);
   mkCE CSB CSD 1 (c_CSBSD N);
   mkCE CSB CT 2 (c_ASBT N);
   mkCE CT CSD 1 (c_CTSD N);
   mkCE CT CT 1 (c_CTT N);
   mkCE CSD CSD 1 (c_CSDSD N);
   mkCE CSN CSD 1 (c_CSNSD N);
   mkCE CSD CSB 1 (c_CSDSB N);
   mkCE CSD CT 1 (c_CSDT N)].
