(** EvalModel2.v -- evaluation of multidimensional expansions at points:
    optimization/cython/evaluate.pyx and tensorproductspace.py eval.
    Exact reals; a complex number is a pair.  Real basis matrices (axes that are not Fourier) are
    complex matrices with imaginary part 0, so the four 2D (eight 3D) kernels whose bodies only
    differ in the declared types of P share one definition. *)
From Coq Require Import Arith ZArith Reals List Bool.
From Verif Require Import Base SparseModel.
Import ListNotations.
Local Open Scope R_scope.

Record Cx := mkCx { cre : R; cim : R }.
Definition c0 : Cx := mkCx 0 0.
Definition cadd (a b : Cx) : Cx := mkCx (cre a + cre b) (cim a + cim b).
Definition cmul (a b : Cx) : Cx := mkCx (cre a * cre b - cim a * cim b) (cre a * cim b + cim a * cre b).
Definition cconj (a : Cx) : Cx := mkCx (cre a) (- cim a).
Definition cofR (x : R) : Cx := mkCx x 0.
(** exp(1j*y) *)
Definition cis (y : R) : Cx := mkCx (cos y) (sin y).
Definition csum (n : nat) (f : nat -> Cx) : Cx := gsum c0 cadd n f.
Definition sumR (n : nat) (f : nat -> R) : R := gsum 0 Rplus n f.

(** evaluate.pyx 85, 122, 158, 280, 345, 391, 435, 460, 485, 510, 603, ..: the test
    [ii > 0 & ii < M].  In Python (and Cython) & binds tighter than the comparisons, and comparisons
    chain, so this is [ii > (0 & ii) and (0 & ii) < M], where 0 & ii = 0 *)
Definition conj_test (ii M : Z) : bool := ((Z.land 0 ii <? ii) && (Z.land 0 ii <? M))%Z.
(** tensorproductspace.py 724-729, 797-803, 838-844, arguments.py 764-771 *)
Definition last_conj_index (N : nat) : Z := if Nat.even N then Z.of_nat (N / 2 + 1 - 1) else Z.of_nat (N / 2 + 1).

(** b[i] += p; if test: b[i] += p *)
Definition add_twice (t : bool) (i : nat) (p : R) (b : nat -> R) : nat -> R :=
  let b := upd b i (b i + p) in if t then upd b i (b i + p) else b.

(** *** two dimensions *)
(** evaluate.pyx 52-66 cc0, 90-103 rc0, 127-139 cr0 *)
Definition eval2_c (npts n0 n1 : nat) (b : nat -> Cx) (u : nat -> nat -> Cx) (P0 P1 : nat -> nat -> Cx) : nat -> Cx :=
  for_up n0 0 (fun k b => for_up n1 0 (fun l b => for_up npts 0 (fun i b =>
    upd b i (cadd (b i) (cmul (cmul (u k l) (P0 i k)) (P1 i l)))) b) b) b.
(** evaluate.pyx 68-88 cc1, 105-125 rc1, 141-162 cr1 *)
Definition eval2_r (npts n0 n1 : nat) (b : nat -> R) (u : nat -> nat -> Cx) (P0 P1 : nat -> nat -> Cx) (r2c M start : Z) : nat -> R :=
  for_up n0 0 (fun k b => for_up n1 0 (fun l b => for_up npts 0 (fun i b =>
    let p := cre (cmul (cmul (u k l) (P0 i k)) (P1 i l)) in
    let ii := if (r2c =? 0)%Z then (Z.of_nat k + start)%Z else (Z.of_nat l + start)%Z in
    add_twice (conj_test ii M) i p b) b) b) b.
(** evaluate.pyx 164-174 rr0 *)
Definition eval2_rr (npts n0 n1 : nat) (b : nat -> R) (u : nat -> nat -> R) (P0 P1 : nat -> nat -> R) : nat -> R :=
  for_up n0 0 (fun k b => for_up n1 0 (fun l b => for_up npts 0 (fun i b =>
    upd b i (b i + u k l * P0 i k * P1 i l)) b) b) b.

(** evaluate.pyx 554-576 *)
Definition lm2_cc0 (npts n0 n1 : nat) (b : nat -> Cx) (u : nat -> nat -> Cx) (x0 x1 w0 w1 : nat -> R) : nat -> Cx :=
  for_up n0 0 (fun k b => for_up n1 0 (fun l b => for_up npts 0 (fun i b =>
    let xx := w0 k * x0 i + w1 l * x1 i in
    let yc := cos xx in let ys := sin xx in let ur := cre (u k l) in let ui := cim (u k l) in
    upd b i (mkCx (cre (b i) + (ur * yc - ui * ys)) (cim (b i) + (ur * ys + ui * yc)))) b) b) b.
(** evaluate.pyx 578-605 *)
Definition lm2_cc1 (npts n0 n1 : nat) (b : nat -> R) (u : nat -> nat -> Cx) (x0 x1 w0 w1 : nat -> R) (r2c M start : Z) : nat -> R :=
  for_up n0 0 (fun k b => for_up n1 0 (fun l b => for_up npts 0 (fun i b =>
    let xx := w0 k * x0 i + w1 l * x1 i in
    let yc := cos xx in let ys := sin xx in let ur := cre (u k l) in let ui := cim (u k l) in
    let p := ur * yc - ui * ys in
    let ii := if (r2c =? 0)%Z then (Z.of_nat k + start)%Z else (Z.of_nat l + start)%Z in
    add_twice (conj_test ii M) i p b) b) b) b.
(** evaluate.pyx 607-632; phi k x is bases[0].evaluate_basis(x, k) *)
Definition lm2_rc0 (npts n0 n1 : nat) (b : nat -> Cx) (u : nat -> nat -> Cx) (phi : nat -> R -> R) (x0 x1 w1 : nat -> R) : nat -> Cx :=
  for_up n0 0 (fun k b => let P0 := fun i => phi k (x0 i) in for_up n1 0 (fun l b => for_up npts 0 (fun i b =>
    let xx := w1 l * x1 i in
    let yc := cos xx in let ys := sin xx in let ur := cre (u k l) in let ui := cim (u k l) in
    upd b i (mkCx (cre (b i) + P0 i * (ur * yc - ui * ys)) (cim (b i) + P0 i * (ur * ys + ui * yc)))) b) b) b.
(** evaluate.pyx 635-664 *)
Definition lm2_rc1 (npts n0 n1 : nat) (b : nat -> R) (u : nat -> nat -> Cx) (phi : nat -> R -> R) (x0 x1 w1 : nat -> R) (r2c M start : Z) : nat -> R :=
  for_up n0 0 (fun k b => let P0 := fun i => phi k (x0 i) in for_up n1 0 (fun l b => for_up npts 0 (fun i b =>
    let xx := w1 l * x1 i in
    let yc := cos xx in let ys := sin xx in let ur := cre (u k l) in let ui := cim (u k l) in
    let p := P0 i * (ur * yc - ui * ys) in
    let ii := if (r2c =? 0)%Z then (Z.of_nat k + start)%Z else (Z.of_nat l + start)%Z in
    add_twice (conj_test ii M) i p b) b) b) b.
(** evaluate.pyx 666-691 *)
Definition lm2_cr0 (npts n0 n1 : nat) (b : nat -> Cx) (u : nat -> nat -> Cx) (phi : nat -> R -> R) (x0 x1 w0 : nat -> R) : nat -> Cx :=
  for_up n1 0 (fun l b => let P0 := fun i => phi l (x1 i) in for_up n0 0 (fun k b => for_up npts 0 (fun i b =>
    let xx := w0 k * x0 i in
    let yc := cos xx in let ys := sin xx in let ur := cre (u k l) in let ui := cim (u k l) in
    upd b i (mkCx (cre (b i) + P0 i * (ur * yc - ui * ys)) (cim (b i) + P0 i * (ur * ys + ui * yc)))) b) b) b.
(** evaluate.pyx 693-723 *)
Definition lm2_cr1 (npts n0 n1 : nat) (b : nat -> R) (u : nat -> nat -> Cx) (phi : nat -> R -> R) (x0 x1 w0 : nat -> R) (r2c M start : Z) : nat -> R :=
  for_up n1 0 (fun l b => let P0 := fun i => phi l (x1 i) in for_up n0 0 (fun k b => for_up npts 0 (fun i b =>
    let y2 := w0 k * x0 i in
    let yc := cos y2 in let ys := sin y2 in let ur := cre (u k l) in let ui := cim (u k l) in
    let p := P0 i * (ur * yc - ui * ys) in
    let ii := if (r2c =? 0)%Z then (Z.of_nat k + start)%Z else (Z.of_nat l + start)%Z in
    add_twice (conj_test ii M) i p b) b) b) b.

(** *** three dimensions *)
(** evaluate.pyx 220-250 ccc0, 284-318 rcc0: three stages *)
Definition eval3_staged (npts n0 n1 n2 : nat) (b : nat -> Cx) (u : nat -> nat -> nat -> Cx) (P0 P1 P2 : nat -> nat -> Cx) : nat -> Cx :=
  let c := for_up npts 0 (fun i c => for_up n0 0 (fun k c => for_up n1 0 (fun l c => for_up n2 0 (fun m c =>
    upd c i (upd2 (c i) k l (cadd (c i k l) (cmul (u k l m) (P2 i m))))) c) c) c) (fun _ _ _ => c0) in
  let c2 := for_up npts 0 (fun i c2 => for_up n0 0 (fun k c2 => for_up n1 0 (fun l c2 =>
    upd2 c2 i k (cadd (c2 i k) (cmul (c i k l) (P1 i l)))) c2) c2) (fun _ _ => c0) in
  for_up npts 0 (fun i b => for_up n0 0 (fun k b => upd b i (cadd (b i) (cmul (c2 i k) (P0 i k)))) b) b.
(** evaluate.pyx 348-364 crc0, 394-408 ccr0 *)
Definition eval3_c (npts n0 n1 n2 : nat) (b : nat -> Cx) (u : nat -> nat -> nat -> Cx) (P0 P1 P2 : nat -> nat -> Cx) : nat -> Cx :=
  for_up n0 0 (fun k b => for_up n1 0 (fun l b => for_up n2 0 (fun m b => for_up npts 0 (fun i b =>
    upd b i (cadd (b i) (cmul (cmul (cmul (u k l m) (P0 i k)) (P1 i l)) (P2 i m)))) b) b) b) b.
Definition pick3 (r2c : Z) (k l m : nat) (start : Z) : Z :=
  ((if r2c =? 0 then Z.of_nat k else if r2c =? 1 then Z.of_nat l else Z.of_nat m) + start)%Z.
(** evaluate.pyx 252-282 ccc1 (r2c is 0, 1 or 2) *)
Definition eval3_ccc1 (npts n0 n1 n2 : nat) (b : nat -> R) (u : nat -> nat -> nat -> Cx) (P0 P1 P2 : nat -> nat -> Cx) (r2c M start : Z) : nat -> R :=
  for_up npts 0 (fun i b => for_up n0 0 (fun k b => for_up n1 0 (fun l b =>
    let p1 := cmul (P0 i k) (P1 i l) in
    for_up n2 0 (fun m b =>
      let p2 := cmul p1 (P2 i m) in
      let p := cre (u k l m) * cre p2 - cim (u k l m) * cim p2 in
      add_twice (conj_test (pick3 r2c k l m start) M) i p b) b) b) b) b.
(** evaluate.pyx 320-346 rcc1 *)
Definition eval3_rcc1 (npts n0 n1 n2 : nat) (b : nat -> R) (u : nat -> nat -> nat -> Cx) (P0 : nat -> nat -> R) (P1 P2 : nat -> nat -> Cx) (r2c M start : Z) : nat -> R :=
  for_up n0 0 (fun k b => for_up n1 0 (fun l b => for_up n2 0 (fun m b => for_up npts 0 (fun i b =>
    let p0 := cmul (P1 i l) (P2 i m) in
    let p := P0 i k * (cre (u k l m) * cre p0 - cim (u k l m) * cim p0) in
    let ii := if (r2c =? 1)%Z then (Z.of_nat l + start)%Z else (Z.of_nat m + start)%Z in
    add_twice (conj_test ii M) i p b) b) b) b) b.
(** evaluate.pyx 366-392 crc1 *)
Definition eval3_crc1 (npts n0 n1 n2 : nat) (b : nat -> R) (u : nat -> nat -> nat -> Cx) (P0 : nat -> nat -> Cx) (P1 : nat -> nat -> R) (P2 : nat -> nat -> Cx) (r2c M start : Z) : nat -> R :=
  for_up n0 0 (fun k b => for_up n1 0 (fun l b => for_up n2 0 (fun m b => for_up npts 0 (fun i b =>
    let p0 := cmul (P0 i k) (P2 i m) in
    let p := P1 i l * (cre (u k l m) * cre p0 - cim (u k l m) * cim p0) in
    let ii := if (r2c =? 0)%Z then (Z.of_nat k + start)%Z else (Z.of_nat m + start)%Z in
    add_twice (conj_test ii M) i p b) b) b) b) b.
(** evaluate.pyx 410-436 ccr1 *)
Definition eval3_ccr1 (npts n0 n1 n2 : nat) (b : nat -> R) (u : nat -> nat -> nat -> Cx) (P0 P1 : nat -> nat -> Cx) (P2 : nat -> nat -> R) (r2c M start : Z) : nat -> R :=
  for_up n0 0 (fun k b => for_up n1 0 (fun l b => for_up n2 0 (fun m b => for_up npts 0 (fun i b =>
    let p0 := cmul (P0 i k) (P1 i l) in
    let p := P2 i m * (cre (u k l m) * cre p0 - cim (u k l m) * cim p0) in
    let ii := if (r2c =? 0)%Z then (Z.of_nat k + start)%Z else (Z.of_nat l + start)%Z in
    add_twice (conj_test ii M) i p b) b) b) b) b.
(** evaluate.pyx 438-461 rrc1 (r2c = 2), 463-486 rcr1 (r2c = 1), 488-511 crr1 (r2c = 0) *)
Definition eval3_two_real (npts n0 n1 n2 : nat) (b : nat -> R) (u : nat -> nat -> nat -> Cx) (P0 P1 P2 : nat -> nat -> Cx) (r2c M start : Z) : nat -> R :=
  for_up n0 0 (fun k b => for_up n1 0 (fun l b => for_up n2 0 (fun m b => for_up npts 0 (fun i b =>
    let p := cre (cmul (cmul (cmul (u k l m) (P0 i k)) (P1 i l)) (P2 i m)) in
    add_twice (conj_test (pick3 r2c k l m start) M) i p b) b) b) b) b.
(** evaluate.pyx 513-527 rrr *)
Definition eval3_rrr (npts n0 n1 n2 : nat) (b : nat -> R) (u : nat -> nat -> nat -> R) (P0 P1 P2 : nat -> nat -> R) : nat -> R :=
  for_up n0 0 (fun k b => for_up n1 0 (fun l b => for_up n2 0 (fun m b => for_up npts 0 (fun i b =>
    upd b i (b i + u k l m * P0 i k * P1 i l * P2 i m)) b) b) b) b.

(** evaluate.pyx 757-786: b[i] is overwritten *)
Definition lm3_ccc0 (npts n0 n1 n2 : nat) (b : nat -> Cx) (u : nat -> nat -> nat -> Cx) (x0 x1 x2 w0 w1 w2 : nat -> R) : nat -> Cx :=
  for_up npts 0 (fun i b =>
    let '(br, bi) := for_up n0 0 (fun k s =>
      let y0 := w0 k * x0 i in
      for_up n1 0 (fun l s =>
        let y1 := y0 + w1 l * x1 i in
        for_up n2 0 (fun m s =>
          let '(br, bi) := s in
          let xx := y1 + w2 m * x2 i in
          let yc := cos xx in let ys := sin xx in let ur := cre (u k l m) in let ui := cim (u k l m) in
          (br + (ur * yc - ui * ys), bi + (ur * ys + ui * yc))) s) s) (0, 0) in
    upd b i (mkCx br bi)) b.
(** evaluate.pyx 788-821 *)
Definition lm3_ccc1 (npts n0 n1 n2 : nat) (b : nat -> R) (u : nat -> nat -> nat -> Cx) (x0 x1 x2 w0 w1 w2 : nat -> R) (r2c M start : Z) : nat -> R :=
  for_up npts 0 (fun i b => for_up n0 0 (fun k b =>
    let y0 := w0 k * x0 i in
    for_up n1 0 (fun l b =>
      let y1 := y0 + w1 l * x1 i in
      for_up n2 0 (fun m b =>
        let y2 := y1 + w2 m * x2 i in
        let yc := cos y2 in let ys := sin y2 in let ur := cre (u k l m) in let ui := cim (u k l m) in
        let p := ur * yc - ui * ys in
        add_twice (conj_test (pick3 r2c k l m start) M) i p b) b) b) b) b.
(** evaluate.pyx 823-852 *)
Definition lm3_rcc0 (npts n0 n1 n2 : nat) (b : nat -> Cx) (u : nat -> nat -> nat -> Cx) (phi : nat -> R -> R) (x0 x1 x2 w1 w2 : nat -> R) : nat -> Cx :=
  for_up n0 0 (fun k b => let P0 := fun i => phi k (x0 i) in for_up n1 0 (fun l b => for_up n2 0 (fun m b => for_up npts 0 (fun i b =>
    let y2 := w1 l * x1 i + w2 m * x2 i in
    let yc := cos y2 in let ys := sin y2 in let ur := cre (u k l m) in let ui := cim (u k l m) in
    upd b i (mkCx (cre (b i) + P0 i * (ur * yc - ui * ys)) (cim (b i) + P0 i * (ur * ys + ui * yc)))) b) b) b) b.
(** evaluate.pyx 854-888 *)
Definition lm3_rcc1 (npts n0 n1 n2 : nat) (b : nat -> R) (u : nat -> nat -> nat -> Cx) (phi : nat -> R -> R) (x0 x1 x2 w1 w2 : nat -> R) (r2c M start : Z) : nat -> R :=
  for_up n0 0 (fun k b => let P0 := fun i => phi k (x0 i) in for_up n1 0 (fun l b => for_up n2 0 (fun m b => for_up npts 0 (fun i b =>
    let y2 := w1 l * x1 i + w2 m * x2 i in
    let yc := cos y2 in let ys := sin y2 in let ur := cre (u k l m) in let ui := cim (u k l m) in
    let p := P0 i * (ur * yc - ui * ys) in
    let ii := if (r2c =? 1)%Z then (Z.of_nat l + start)%Z else (Z.of_nat m + start)%Z in
    add_twice (conj_test ii M) i p b) b) b) b) b.
(** evaluate.pyx 890-918 *)
Definition lm3_crc0 (npts n0 n1 n2 : nat) (b : nat -> Cx) (u : nat -> nat -> nat -> Cx) (phi : nat -> R -> R) (x0 x1 x2 w0 w2 : nat -> R) : nat -> Cx :=
  for_up n1 0 (fun l b => let P0 := fun i => phi l (x1 i) in for_up n0 0 (fun k b => for_up n2 0 (fun m b => for_up npts 0 (fun i b =>
    let y2 := w0 k * x0 i + w2 m * x2 i in
    let yc := cos y2 in let ys := sin y2 in let ur := cre (u k l m) in let ui := cim (u k l m) in
    upd b i (mkCx (cre (b i) + P0 i * (ur * yc - ui * ys)) (cim (b i) + P0 i * (ur * ys + ui * yc)))) b) b) b) b.
(** evaluate.pyx 920-954; line 941 uses w1[m], the wavenumbers of the wrong axis *)
Definition lm3_crc1 (npts n0 n1 n2 : nat) (b : nat -> R) (u : nat -> nat -> nat -> Cx) (phi : nat -> R -> R) (x0 x1 x2 w0 w1 w2 : nat -> R) (r2c M start : Z) : nat -> R :=
  for_up n1 0 (fun l b => let P0 := fun i => phi l (x1 i) in for_up n0 0 (fun k b => for_up n2 0 (fun m b => for_up npts 0 (fun i b =>
    let y2 := w0 k * x0 i + w1 m * x2 i in
    let yc := cos y2 in let ys := sin y2 in let ur := cre (u k l m) in let ui := cim (u k l m) in
    let p := P0 i * (ur * yc - ui * ys) in
    let ii := if (r2c =? 0)%Z then (Z.of_nat k + start)%Z else (Z.of_nat m + start)%Z in
    add_twice (conj_test ii M) i p b) b) b) b) b.
(** evaluate.pyx 956-985 *)
Definition lm3_ccr0 (npts n0 n1 n2 : nat) (b : nat -> Cx) (u : nat -> nat -> nat -> Cx) (phi : nat -> R -> R) (x0 x1 x2 w0 w1 : nat -> R) : nat -> Cx :=
  for_up n2 0 (fun m b => let P0 := fun i => phi m (x2 i) in for_up n0 0 (fun k b => for_up n1 0 (fun l b => for_up npts 0 (fun i b =>
    let y2 := w0 k * x0 i + w1 l * x1 i in
    let yc := cos y2 in let ys := sin y2 in let ur := cre (u k l m) in let ui := cim (u k l m) in
    upd b i (mkCx (cre (b i) + P0 i * (ur * yc - ui * ys)) (cim (b i) + P0 i * (ur * ys + ui * yc)))) b) b) b) b.
(** evaluate.pyx 987-1021 *)
Definition lm3_ccr1 (npts n0 n1 n2 : nat) (b : nat -> R) (u : nat -> nat -> nat -> Cx) (phi : nat -> R -> R) (x0 x1 x2 w0 w1 : nat -> R) (r2c M start : Z) : nat -> R :=
  for_up n2 0 (fun m b => let P0 := fun i => phi m (x2 i) in for_up n0 0 (fun k b => for_up n1 0 (fun l b => for_up npts 0 (fun i b =>
    let y2 := w0 k * x0 i + w1 l * x1 i in
    let yc := cos y2 in let ys := sin y2 in let ur := cre (u k l m) in let ui := cim (u k l m) in
    let p := P0 i * (ur * yc - ui * ys) in
    let ii := if (r2c =? 0)%Z then (Z.of_nat k + start)%Z else (Z.of_nat l + start)%Z in
    add_twice (conj_test ii M) i p b) b) b) b) b.

(** *** MPI: a spectral axis of length n is cut in consecutive pieces; [ranks] lists (start, length) *)
Fixpoint ranks (s : nat) (lens : list nat) : list (nat * nat) :=
  match lens with [] => [] | n :: l => (s, n) :: ranks (s + n) l end.
Definition total (lens : list nat) : nat := fold_right plus 0%nat lens.
(** comm.allreduce: the sum over the ranks *)
Definition allreduce {A} (l : list A) (f : A -> R) : R := fold_right (fun a s => f a + s) 0 l.
(** local_slice() of an array: what rank (s, n) holds *)
Definition loc {A} (f : nat -> A) (s : nat) : nat -> A := fun k => f (s + k)%nat.

(** tensorproductspace.py 818-855 _eval_cython, two dimensions, one R2C axis (0 or 1), on a grid of
    ranks lens0 x lens1; output of point i.  b starts as zeros (685-688) *)
Definition eval_cython_2D (N : nat) (r2c : Z) (lens0 lens1 : list nat) (npts : nat) (u : nat -> nat -> Cx) (P0 P1 : nat -> nat -> Cx) (i : nat) : R :=
  allreduce (ranks 0 lens0) (fun r0 => allreduce (ranks 0 lens1) (fun r1 =>
    let start := Z.of_nat (if (r2c =? 0)%Z then fst r0 else fst r1) in
    eval2_r npts (snd r0) (snd r1) (fun _ => 0) (fun k l => u (fst r0 + k)%nat (fst r1 + l)%nat)
      (fun i => loc (P0 i) (fst r0)) (fun i => loc (P1 i) (fst r1)) r2c (last_conj_index N) start i)).
(** the same in three dimensions with the kernel ccc1 *)
Definition eval_cython_3D (N : nat) (r2c : Z) (lens0 lens1 lens2 : list nat) (npts : nat) (u : nat -> nat -> nat -> Cx) (P0 P1 P2 : nat -> nat -> Cx) (i : nat) : R :=
  allreduce (ranks 0 lens0) (fun r0 => allreduce (ranks 0 lens1) (fun r1 => allreduce (ranks 0 lens2) (fun r2 =>
    let start := Z.of_nat (if (r2c =? 0)%Z then fst r0 else if (r2c =? 1)%Z then fst r1 else fst r2) in
    eval3_ccc1 npts (snd r0) (snd r1) (snd r2) (fun _ => 0) (fun k l m => u (fst r0 + k)%nat (fst r1 + l)%nat (fst r2 + m)%nat)
      (fun i => loc (P0 i) (fst r0)) (fun i => loc (P1 i) (fst r1)) (fun i => loc (P2 i) (fst r2)) r2c (last_conj_index N) start i))).
(** tensorproductspace.py 778-816 _eval_lm_cython, bases (Fourier R2C, not Fourier): w is sliced by
    local_slice(), the index of evaluate_basis is not *)
Definition eval_lm_cr_2D (N : nat) (lens0 lens1 : list nat) (npts : nat) (u : nat -> nat -> Cx) (phi : nat -> R -> R) (x0 x1 w0 : nat -> R) (i : nat) : R :=
  allreduce (ranks 0 lens0) (fun r0 => allreduce (ranks 0 lens1) (fun r1 =>
    lm2_cr1 npts (snd r0) (snd r1) (fun _ => 0) (fun k l => u (fst r0 + k)%nat (fst r1 + l)%nat)
      phi x0 x1 (loc w0 (fst r0)) 0 (last_conj_index N) (Z.of_nat (fst r0)) i)).

(** tensorproductspace.py 730-737: the slice of conjugated modes of a rank (offset, n) *)
Definition conj_lo (offset : nat) : Z := ((if Nat.eqb offset 0 then 1 else Z.of_nat offset) - Z.of_nat offset)%Z.
Definition conj_hi (N offset n : nat) : Z := (Z.min (last_conj_index N) (Z.of_nat (offset + n)) - Z.of_nat offset)%Z.
(** sum over a Python slice sl:st of an axis of length n *)
Definition slice_sum (n : nat) (sl st : Z) (f : nat -> R) : R :=
  let lo := pyidx n sl in sumR (pyidx n st - lo) (fun t => f (lo + t)%nat).
(** tensorproductspace.py 699-776 _eval_python, two dimensions, the R2C axis (axis 1) last in
    self.axes: out = tensordot(P0, u), then 748-754 *)
Definition eval_python_2D_rank (N npts n0 n1 offset : nat) (u : nat -> nat -> Cx) (P0 P1 : nat -> nat -> Cx) (i : nat) : R :=
  let out := fun i l => csum n0 (fun k => cmul (P0 i k) (u k l)) in
  let f := fun l => cre (P1 i l) * cre (out i l) - cim (P1 i l) * cim (out i l) in
  sumR n1 f + slice_sum n1 (conj_lo offset) (conj_hi N offset n1) f.
Definition eval_python_2D (N : nat) (lens0 lens1 : list nat) (npts : nat) (u : nat -> nat -> Cx) (P0 P1 : nat -> nat -> Cx) (i : nat) : R :=
  allreduce (ranks 0 lens0) (fun r0 => allreduce (ranks 0 lens1) (fun r1 =>
    eval_python_2D_rank N npts (snd r0) (snd r1) (fst r1) (fun k l => u (fst r0 + k)%nat (fst r1 + l)%nat)
      (fun i => loc (P0 i) (fst r0)) (fun i => loc (P1 i) (fst r1)) i)).
(** three dimensions, axes contracted in the order 0, 1, 2 with the R2C axis 2 last (740-741, 756-769) *)
Definition eval_python_3D_rank (N npts n0 n1 n2 offset : nat) (u : nat -> nat -> nat -> Cx) (P0 P1 P2 : nat -> nat -> Cx) (i : nat) : R :=
  let out := fun i l m => csum n0 (fun k => cmul (P0 i k) (u k l m)) in
  let out := fun i m => csum n1 (fun l => cmul (P1 i l) (out i l m)) in
  let f := fun m => cre (P2 i m) * cre (out i m) - cim (P2 i m) * cim (out i m) in
  sumR n2 f + slice_sum n2 (conj_lo offset) (conj_hi N offset n2) f.
Definition eval_python_3D (N : nat) (lens0 lens1 lens2 : list nat) (npts : nat) (u : nat -> nat -> nat -> Cx) (P0 P1 P2 : nat -> nat -> Cx) (i : nat) : R :=
  allreduce (ranks 0 lens0) (fun r0 => allreduce (ranks 0 lens1) (fun r1 => allreduce (ranks 0 lens2) (fun r2 =>
    eval_python_3D_rank N npts (snd r0) (snd r1) (snd r2) (fst r2) (fun k l m => u (fst r0 + k)%nat (fst r1 + l)%nat (fst r2 + m)%nat)
      (fun i => loc (P0 i) (fst r0)) (fun i => loc (P1 i) (fst r1)) (fun i => loc (P2 i) (fst r2)) i))).
(** the R2C axis first in self.axes (742-746, 749-750): bases (R2C, not Fourier), axes = (0, 1);
    the second basis is real *)
Definition eval_python_2D_first_rank (N npts n0 n1 offset : nat) (u : nat -> nat -> Cx) (P0 : nat -> nat -> Cx) (P1 : nat -> nat -> R) (i : nat) : R :=
  let lo := pyidx n0 (conj_lo offset) in let len := (pyidx n0 (conj_hi N offset n0) - lo)%nat in
  let out := fun i l => cre (cadd (csum n0 (fun k => cmul (P0 i k) (u k l)))
                                  (cconj (csum len (fun t => cmul (P0 i (lo + t)%nat) (u (lo + t)%nat l))))) in
  sumR n1 (fun l => P1 i l * out i l).

(** fourier/bases.py 380-389 R2C._evaluate_expansion_all, kind 'vandermonde', one dimension *)
Definition eval_r2c_1D (N : nat) (u : nat -> Cx) (P : nat -> nat -> Cx) (i : nat) : R :=
  let n := (N / 2 + 1)%nat in
  let hi := if Nat.even N then pyidx n (-1) else n in
  cre (csum n (fun k => cmul (P i k) (u k)))
  + cre (cconj (csum (hi - pyidx n 1) (fun t => cmul (P i (pyidx n 1 + t)%nat) (u (pyidx n 1 + t)%nat)))).

(** forms/arguments.py 748-790 Expr.eval of one term: the kernel on this rank's coefficients; there is
    no allreduce *)
Definition expr_eval_2D_rank (N : nat) (r0 r1 : nat * nat) (npts : nat) (u : nat -> nat -> Cx) (P0 P1 : nat -> nat -> Cx) (sc : R) (i : nat) : R :=
  0 + sc * eval2_r npts (snd r0) (snd r1) (fun _ => 0) (fun k l => u (fst r0 + k)%nat (fst r1 + l)%nat)
      (fun i => loc (P0 i) (fst r0)) (fun i => loc (P1 i) (fst r1)) 1 (last_conj_index N) (Z.of_nat (fst r1)) i.
