(** LegMatrixModel.v -- the matrices of legendre/matrices.py, assembled from formulas.

    Each definition is the dictionary returned by the assemble method of the class, with the shape
    (test.dim(), trial.dim()) given by SpectralMatrix.__init__ (matrixbase.py 623-700) for a test and
    a trial space of the same size N.  [h] is the array returned by get_norm_sq.  [sc] is is_scaled().
    A slice such as d0[2:-2] is the function of the index i shifted by its start, with the length of
    the slice.  Exact real arithmetic instead of doubles. *)
From Coq Require Import Reals ZArith List Arith.
From Verif Require Import Base Fld SparseModel RPoly StencilModel StencilModel2.
Import ListNotations.
Local Open Scope R_scope.

(** Gauss (LG) or Gauss-Lobatto (GL) points *)
Inductive quad := LG | GL.
(** legendre/bases.py 154-165 L2_norm_sq, l2_norm_sq *)
Definition leg_L2_norm_sq (i : nat) : R := 2 / (2 * INR i + 1).
Definition leg_l2_norm_sq (q : quad) (N i : nat) : R :=
  match q with GL => if Nat.eqb i (N - 1) then 2 / (INR N - 1) else 2 / (2 * INR i + 1) | LG => 2 / (2 * INR i + 1) end.
(** spectralbase.py 2344-2368 get_norm_sq *)
Definition leg_norm_sq (quadrature : bool) (q : quad) (N i : nat) : R :=
  if quadrature then leg_l2_norm_sq q N i else leg_L2_norm_sq i.

(** np.arange(start, N, 2) *)
Definition arange2 (start N : nat) : list nat := map (fun i => (start + 2 * i)%nat) (seq 0 ((N + 1 - start) / 2)).
(** a dictionary with its diagonals, without scale *)
Definition dmat (rows cols : nat) (items : list (Z * dval RFld)) : smat RFld := mkSmat RFld rows cols 1 items.
(** functools.partial(C, scale=s): the SpectralMatrix has scale s instead of 1 *)
Definition partial_scale (s : R) (A : smat RFld) : smat RFld :=
  mkSmat RFld (sm_rows RFld A) (sm_cols RFld A) s (sm_items RFld A).

Section Norm.
  Variable h : nat -> R.
  Variable N : nat.
  (** 103-107 *)
  Definition BLLmat : smat RFld := dmat N N [(0%Z, arr N h)].
  (** 121-134; for a scaled basis d[0] /= (4k+6), d[-2] /= sqrt(4k[2:]+6) sqrt(4k[:-2]+6) *)
  Definition BSDSDmat (sc : bool) : smat RFld :=
    let d0 := fun i => let v := h i + h (i + 2)%nat in if sc then v / (4 * INR i + 6) else v in
    let d2 := fun i => let v := - h (i + 2)%nat in
      if sc then v / (sqrt (4 * INR (i + 2) + 6) * sqrt (4 * INR i + 6)) else v in
    dmat (N - 2) (N - 2) [(0%Z, arr (N - 2) d0); ((-2)%Z, arr (N - 4) d2); (2%Z, arr (N - 4) d2)].
  (** 149-162 *)
  Definition BSNSNmat : smat RFld :=
    let alpha := fun i => INR i * (INR i + 1) / (INR i + 2) / (INR i + 3) in
    let d2 := fun i => - alpha i * h (i + 2)%nat in
    dmat (N - 2) (N - 2)
      [(0%Z, arr (N - 2) (fun i => h i + alpha i ^ 2 * h (i + 2)%nat)); (2%Z, arr (N - 4) d2); ((-2)%Z, arr (N - 4) d2)].
  (** 176-189 *)
  Definition BSBSBmat : smat RFld :=
    let d2 := fun i => (-4 * INR i - 18) * (2 * INR i + 3) * h (i + 4)%nat / ((2 * INR i + 7) * (2 * INR i + 11))
                       + (-4 * INR i - 10) * h (i + 2)%nat / (2 * INR i + 7) in
    let d4 := fun i => (2 * INR i + 3) * h (i + 4)%nat / (2 * INR i + 7) in
    dmat (N - 4) (N - 4)
      [(0%Z, arr (N - 4) (fun i => (-4 * INR i - 10) ^ 2 * h (i + 2)%nat / (2 * INR i + 7) ^ 2
                                   + (2 * INR i + 3) ^ 2 * h (i + 4)%nat / (2 * INR i + 7) ^ 2 + h i));
       (2%Z, arr (N - 6) d2); (4%Z, arr (N - 8) d4); ((-2)%Z, arr (N - 6) d2); ((-4)%Z, arr (N - 8) d4)].
  (** 207-217; S is the stencil matrix of the test space, its diagonals S[0] and S[2] *)
  Definition BSDLmat (sc : bool) : smat RFld :=
    let s0 := fun i => if sc then 1 / sqrt (4 * INR i + 6) else 1 in
    let s2 := fun i => if sc then -1 / sqrt (4 * INR i + 6) else -1 in
    dmat (N - 2) N [(0%Z, arr (N - 2) (fun i => h i * s0 i)); (2%Z, arr (N - 2) (fun i => h (i + 2)%nat * s2 i))].
  (** 232-242 *)
  Definition BLSDmat (sc : bool) : smat RFld :=
    let s0 := fun i => if sc then 1 / sqrt (4 * INR i + 6) else 1 in
    let s2 := fun i => if sc then -1 / sqrt (4 * INR i + 6) else -1 in
    dmat N (N - 2) [(0%Z, arr (N - 2) (fun i => h i * s0 i)); ((-2)%Z, arr (N - 2) (fun i => h (i + 2)%nat * s2 i))].
  (** 255-268 *)
  Definition BDNDNmat : smat RFld :=
    let q := fun x => x ^ 2 + 4 * x + 4 in
    let d1 := fun i => let x := INR i in
      (2 * x + 3) * h (i + 1)%nat / q x
      + (2 * x + 5) * (- x ^ 2 - 2 * x - 1) * h (i + 2)%nat / ((4 * x + (x + 1) ^ 2 + 8) * q x) in
    let d2 := fun i => let x := INR i in (- x ^ 2 - 2 * x - 1) * h (i + 2)%nat / q x in
    dmat (N - 2) (N - 2)
      [(0%Z, arr (N - 2) (fun i => let x := INR i in
           (2 * x + 3) ^ 2 * h (i + 1)%nat / (q x) ^ 2 + (- x ^ 2 - 2 * x - 1) ^ 2 * h (i + 2)%nat / (q x) ^ 2 + h i));
       (1%Z, arr (N - 3) d1); (2%Z, arr (N - 4) d2); ((-1)%Z, arr (N - 3) d1); ((-2)%Z, arr (N - 4) d2)].
  (** 807-814 *)
  Definition BUDUDmat : smat RFld :=
    let d1 := fun i => - h (i + 1)%nat in
    dmat (N - 1) (N - 1) [(0%Z, arr (N - 1) (fun i => h i + h (i + 1)%nat)); ((-1)%Z, arr (N - 2) d1); (1%Z, arr (N - 2) d1)].
  (** 827-834 *)
  Definition BLDLDmat : smat RFld :=
    let d1 := fun i => h (i + 1)%nat in
    dmat (N - 1) (N - 1) [(0%Z, arr (N - 1) (fun i => h i + h (i + 1)%nat)); ((-1)%Z, arr (N - 2) d1); (1%Z, arr (N - 2) d1)].
End Norm.

Section Plain.
  Variable N : nat.
  (** 282-292; for a scaled basis d = {0: 1} *)
  Definition ASDSDmat (sc : bool) : smat RFld :=
    dmat (N - 2) (N - 2) [(0%Z, if sc then Scal RFld 1 else arr (N - 2) (fun i => 4 * INR i + 6))].
  (** 306-315 *)
  Definition ASNSNmat : smat RFld :=
    dmat (N - 2) (N - 2) [(0%Z, arr (N - 2) (fun i => let k := INR i in
      let alpha := k * (k + 1) / (k + 2) / (k + 3) in let d0 := 2 / (2 * k + 1) in
      d0 * alpha * (k + 1 / 2) * ((k + 2) * (k + 3) - k * (k + 1))))].
  (** 329-339 *)
  Definition ASBSBmat : smat RFld :=
    let d2 := fun i => -2 * (2 * INR i + 3) in
    dmat (N - 4) (N - 4) [(0%Z, arr (N - 4) (fun i => let k := INR i in
      let gk := (2 * k + 3) / (2 * k + 7) in 2 * (2 * k + 3) * (1 + gk)));
      (2%Z, arr (N - 6) d2); ((-2)%Z, arr (N - 6) d2)].
  (** 352-359 *)
  Definition ADNDNmat : smat RFld :=
    dmat (N - 2) (N - 2) [(0%Z, arr (N - 2) (fun i => let k := INR i in
      ((k + 1) / (k + 2)) ^ 2 * ((k + 2) * (k + 3) - k * (k + 1))))].
  (** 372-380 *)
  Definition SBFBFmat : smat RFld :=
    dmat (N - 4) (N - 4) [(0%Z, arr (N - 4) (fun i => let k := INR i in
      let f4 := ((k + 1) / (k + 3) * ((k + 2) / (k + 4))) ^ 2 * (2 * k + 3) / (2 * k + 7) in
      f4 * (k + 5 / 2) * ((k + 4) * (k + 5) - (k + 2) * (k + 3)) * ((k + 2) * (k + 3) - k * (k + 1))))].
  (** 398-413; [trial1] is the number of derivatives of the trial function; the diagonals are
      computed by _getkey when they are read *)
  Definition ALLmat (trial1 : bool) : smat RFld :=
    let getkey := fun j => arr (N - j) (fun i => let k := INR i in let kj := INR (i + j) in
      (k + 1 / 2) * (kj * (kj + 1) - k * (k + 1)) * 2 / (2 * k + 1)) in
    dmat N N (map (fun j => (if trial1 then Z.of_nat j else (- Z.of_nat j)%Z, getkey j)) (arange2 2 N)).
  (** 435-442 *)
  Definition SSBSBmat : smat RFld :=
    dmat (N - 4) (N - 4) [(0%Z, arr (N - 4) (fun i => let k := INR i in 2 * (2 * k + 3) ^ 2 * (2 * k + 5)))].
  (** 460-469 *)
  Definition CLLmat : smat RFld := dmat N N (map (fun j => (Z.of_nat j, Scal RFld 2)) (arange2 1 N)).
  (** 505-515 *)
  Definition CLLmatT : smat RFld := dmat N N (map (fun j => ((- Z.of_nat j)%Z, Scal RFld 2)) (arange2 1 N)).
  (** 529-538 *)
  Definition CLSDmat (sc : bool) : smat RFld :=
    dmat N (N - 2) [((-1)%Z, if sc then arr (N - 2) (fun i => -2 / sqrt (4 * INR i + 6)) else Scal RFld (-2))].
  (** 553-562 *)
  Definition CSDLmat (sc : bool) : smat RFld :=
    dmat (N - 2) N [(1%Z, if sc then arr (N - 2) (fun i => -2 / sqrt (4 * INR i + 6)) else Scal RFld (-2))].
  (** 576-586 *)
  Definition CSDSDmat (sc : bool) : smat RFld :=
    dmat (N - 2) (N - 2)
      [((-1)%Z, if sc then arr (N - 3) (fun i => -2 / sqrt (4 * INR i + 6)) else Scal RFld (-2));
       (1%Z, if sc then arr (N - 3) (fun i => 2 / sqrt (4 * INR i + 6)) else Scal RFld 2)].
  (** 622-630 *)
  Definition ASDSDrp1mat : smat RFld :=
    let d1 := fun i => 2 * INR i + 4 in
    dmat (N - 2) (N - 2) [(0%Z, arr (N - 2) (fun i => 4 * INR i + 6)); (1%Z, arr (N - 3) d1); ((-1)%Z, arr (N - 3) d1)].
  (** 644-650 *)
  Definition ASDSD2rp1mat : smat RFld :=
    dmat (N - 2) (N - 2) [(0%Z, arr (N - 2) (fun i => - (4 * INR i + 6)));
      (1%Z, arr (N - 3) (fun i => - (2 * INR i + 6))); ((-1)%Z, arr (N - 3) (fun i => - (2 * INR i + 2)))].
  (** 664-670 *)
  Definition ASDSD2Trp1mat : smat RFld :=
    dmat (N - 2) (N - 2) [(0%Z, arr (N - 2) (fun i => - (4 * INR i + 6)));
      ((-1)%Z, arr (N - 3) (fun i => - (2 * INR i + 6))); (1%Z, arr (N - 3) (fun i => - (2 * INR i + 2)))].
  (** 683-689 *)
  Definition AUDUDrp1mat : smat RFld := dmat (N - 1) (N - 1) [(0%Z, arr (N - 1) (fun i => 2 * INR i + 2))].
  (** 702-710 *)
  Definition AUDUDrp1smat : smat RFld :=
    let d1 := fun i => 2 * INR (i + 1) * (INR (i + 1) + 1) / (2 * INR (i + 1) + 1) in
    dmat (N - 1) (N - 1) [(0%Z, arr (N - 1) (fun i => let k := INR i in 2 * (k + 1) ^ 2 * (1 / (2 * k + 1) + 1 / (2 * k + 3))));
      (1%Z, arr (N - 2) d1); ((-1)%Z, arr (N - 2) d1)].
  (** 723-731 *)
  Definition GUDUDrp1smat : smat RFld :=
    dmat (N - 1) (N - 1) [(0%Z, arr (N - 1) (fun i => let k := INR i in -2 * (k + 1) * ((k - 1) / (2 * k + 1) + (k + 3) / (2 * k + 3))));
      (1%Z, arr (N - 2) (fun i => let k := INR (i + 1) in -2 * (k + 1) * (k + 2) / (2 * k + 1)));
      ((-1)%Z, arr (N - 2) (fun i => let k := INR i in -2 * k * (k + 1) / (2 * k + 3)))].
  (** 785-793 *)
  Definition CUDUDrp1mat : smat RFld :=
    dmat (N - 1) (N - 1) [(0%Z, arr (N - 1) (fun i => let k := INR i in -2 * (k + 1) / (2 * k + 1) + 2 * (k + 1) / (2 * k + 3)));
      (1%Z, arr (N - 2) (fun i => let k := INR (i + 1) in 2 * (k + 1) / (2 * k + 1)));
      ((-1)%Z, arr (N - 2) (fun i => let k := INR i in -2 * (k + 1) / (2 * k + 3)))].
  (** 847-859 *)
  Definition BUDUDrp1mat : smat RFld :=
    let d1 := fun i => let k := INR i in 4 / (2 * k + 1) / (2 * k + 3) / (2 * k + 5) in
    let d2 := fun i => let k := INR i in -2 * (k + 2) / (2 * k + 3) / (2 * k + 5) in
    dmat (N - 1) (N - 1) [(0%Z, arr (N - 1) (fun i => let k := INR i in 4 * (k + 1) / (2 * k + 1) / (2 * k + 3)));
      (1%Z, arr (N - 2) d1); (2%Z, arr (N - 3) d2); ((-1)%Z, arr (N - 2) d1); ((-2)%Z, arr (N - 3) d2)].
  (** 895-909 *)
  Definition BSDSDrp1mat : smat RFld :=
    let d1 := fun i => let k := INR i in 2 / (2 * k + 1) / (2 * k + 5) + 2 * (k + 3) / (2 * k + 5) / (2 * k + 7) in
    let d2 := fun i => let k := INR i in -2 / (2 * k + 5) in
    let d3 := fun i => let k := INR i in -2 * (k + 3) / (2 * k + 5) / (2 * k + 7) in
    dmat (N - 2) (N - 2) [(0%Z, arr (N - 2) (fun i => let k := INR i in 2 / (2 * k + 1) + 2 / (2 * k + 5)));
      (1%Z, arr (N - 3) d1); (2%Z, arr (N - 4) d2); (3%Z, arr (N - 5) d3);
      ((-1)%Z, arr (N - 3) d1); ((-2)%Z, arr (N - 4) d2); ((-3)%Z, arr (N - 5) d3)].
End Plain.

(** ** the dictionary mat (912-958): (test, derivatives), (trial, derivatives), weight -> class *)
Inductive lspace := SpL | SpSD | SpSB | SpSN | SpUD | SpLD | SpDN | SpBF.
Inductive weight := W1 | W1x | W1x2.
Record lentry := mkEntry {
  le_test : lspace; le_testd : nat; le_trial : lspace; le_triald : nat; le_weight : weight;
  le_mat : smat RFld
}.
(** [h] is get_norm_sq(test, trial, method), sc tells if the ShenDirichlet bases are scaled *)
Definition legendre_mat (h : nat -> R) (sc : bool) (N : nat) : list lentry :=
  [mkEntry SpL 0 SpL 0 W1 (BLLmat h N);
   mkEntry SpL 0 SpL 1 W1 (CLLmat N);
   mkEntry SpL 1 SpL 0 W1 (CLLmatT N);
   mkEntry SpL 0 SpSD 1 W1 (CLSDmat N sc);
   mkEntry SpSD 1 SpL 0 W1 (CSDLmat N sc);
   mkEntry SpSD 0 SpSD 1 W1 (CSDSDmat N sc);
   mkEntry SpSD 1 SpSD 0 W1 (partial_scale (-1) (CSDSDmat N sc));
   mkEntry SpSD 0 SpSD 0 W1 (BSDSDmat h N sc);
   mkEntry SpSB 0 SpSB 0 W1 (BSBSBmat h N);
   mkEntry SpSN 0 SpSN 0 W1 (BSNSNmat h N);
   mkEntry SpSD 0 SpL 0 W1 (BSDLmat h N sc);
   mkEntry SpL 0 SpSD 0 W1 (BLSDmat h N sc);
   mkEntry SpSD 1 SpSD 1 W1 (ASDSDmat N sc);
   mkEntry SpSD 2 SpSD 0 W1 (partial_scale (-1) (ASDSDmat N sc));
   mkEntry SpSD 0 SpSD 2 W1 (partial_scale (-1) (ASDSDmat N sc));
   mkEntry SpSN 1 SpSN 1 W1 (ASNSNmat N);
   mkEntry SpSN 2 SpSN 0 W1 (partial_scale (-1) (ASNSNmat N));
   mkEntry SpSN 0 SpSN 2 W1 (partial_scale (-1) (ASNSNmat N));
   mkEntry SpL 2 SpL 0 W1 (ALLmat N false);
   mkEntry SpL 0 SpL 2 W1 (ALLmat N true);
   mkEntry SpSB 2 SpSB 2 W1 (SSBSBmat N);
   mkEntry SpSB 1 SpSB 1 W1 (ASBSBmat N);
   mkEntry SpSB 0 SpSB 2 W1 (partial_scale (-1) (ASBSBmat N));
   mkEntry SpSB 2 SpSB 0 W1 (partial_scale (-1) (ASBSBmat N));
   mkEntry SpSB 0 SpSB 4 W1 (SSBSBmat N);
   mkEntry SpSB 4 SpSB 0 W1 (SSBSBmat N);
   mkEntry SpSD 0 SpSD 2 W1x (ASDSD2rp1mat N);
   mkEntry SpSD 2 SpSD 0 W1x (ASDSD2Trp1mat N);
   mkEntry SpUD 1 SpUD 1 W1x (AUDUDrp1mat N);
   mkEntry SpUD 1 SpUD 1 W1x2 (AUDUDrp1smat N);
   mkEntry SpUD 0 SpUD 2 W1x2 (GUDUDrp1smat N);
   mkEntry SpUD 0 SpUD 0 W1 (BUDUDmat h N);
   mkEntry SpLD 0 SpLD 0 W1 (BLDLDmat h N);
   mkEntry SpDN 0 SpDN 0 W1 (BDNDNmat h N);
   mkEntry SpDN 1 SpDN 1 W1 (ADNDNmat N);
   mkEntry SpDN 2 SpDN 0 W1 (partial_scale (-1) (ADNDNmat N));
   mkEntry SpDN 0 SpDN 2 W1 (partial_scale (-1) (ADNDNmat N));
   mkEntry SpBF 4 SpBF 0 W1 (SBFBFmat N);
   mkEntry SpBF 0 SpBF 4 W1 (SBFBFmat N);
   mkEntry SpBF 2 SpBF 2 W1 (SBFBFmat N)].
(** the classes that are not in the dictionary (612-630, 774-793, 836-909), with the products they hold *)
Definition legendre_unused (N : nat) : list lentry :=
  [mkEntry SpSD 1 SpSD 1 W1x (ASDSDrp1mat N);
   mkEntry SpUD 0 SpUD 1 W1x (CUDUDrp1mat N);
   mkEntry SpUD 0 SpUD 0 W1x (BUDUDrp1mat N);
   mkEntry SpSD 0 SpSD 0 W1x (BSDSDrp1mat N)].
