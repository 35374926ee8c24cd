(** MatvecModel.v -- the special matrix-vector products of chebyshev/matrices.py, legendre/matrices.py
    and of the Helmholtz and Biharmonic classes of chebyshev/la.py, with the kernels of
    optimization/cython/Matvec.pyx, for one line (the iterators over the other axes call the line
    kernel for every line).

    Line numbers without a file refer to optimization/cython/Matvec.pyx.  Exact real arithmetic; C
    integers (int, 32 bits) wrap around where products of indices are formed.  The kernels run
    without bounds checks: sizes for which they read or write outside the arrays give None.  The
    products of HelmholtzModel.v (Helmholtz_matvec, ANN_matvec) are used from there. *)
From Coq Require Import Reals ZArith List Arith Bool.
From Verif Require Import Base Fld SparseModel RPoly StencilModel StencilModel2 LegMatrixModel HelmholtzModel BiharmonicModel.
Import ListNotations.
Local Open Scope R_scope.

(** A[z] as an array (double[::1]) or as a number (double); None is a KeyError or a TypeError *)
Definition akey (A : smat RFld) (z : Z) : option (nat * (nat -> R)) :=
  match dict_get RFld z (sm_items RFld A) with Some (Arr _ n f) => Some (n, f) | _ => None end.
Definition skey (A : smat RFld) (z : Z) : option R :=
  match dict_get RFld z (sm_items RFld A) with Some (Scal _ x) => Some x | _ => None end.
(** matrixbase.py 391-394 scale_array *)
Definition scale_array (sc : R) (c : nat -> R) : nat -> R := if Rlt_dec (1 / 10 ^ 8) (Rabs (sc - 1)) then fun i => c i * sc else c.
Definition zeros : nat -> R := fun _ => 0.
(** a C int *)
Definition wrap32 (z : Z) : Z := ((z + 2 ^ 31) mod 2 ^ 32 - 2 ^ 31)%Z.

(** ** kernels; b is the zero array on entry *)
(** 41-58 CDN_matvec_ptr and 112-130 CDD_matvec_ptr; Nd = ud.shape[0] + 1 *)
Definition CDD_matvec (nud : nat) (ld ud v : nat -> R) : option (nat -> R) :=
  let Nd := (nud + 1)%nat in
  if Nat.ltb Nd 2 then None else
  let b := upd zeros 0 (ud 0%nat * v 1%nat) in
  let b := upd b (Nd - 1) (ld (Nd - 2)%nat * v (Nd - 2)%nat) in
  Some (for_up (Nd - 2) 1 (fun i b => upd b i (ud i * v (i + 1)%nat + ld (i - 1)%nat * v (i - 1)%nat)) b).
(** 77-98 BDN_matvec_ptr; M = dd.shape[0], ud is a number *)
Definition BDN_matvec (M : nat) (ld dd : nat -> R) (ud : R) (v : nat -> R) : option (nat -> R) :=
  if Nat.ltb M 4 then None else
  let b := upd zeros 0 (ud * v 2%nat + dd 0%nat * v 0%nat) in
  let b := upd b 1 (ud * v 3%nat + dd 1%nat * v 1%nat) in
  let b := upd b (M - 2) (ld (M - 4)%nat * v (M - 4)%nat + dd (M - 2)%nat * v (M - 2)%nat) in
  let b := upd b (M - 1) (ld (M - 3)%nat * v (M - 3)%nat + dd (M - 1)%nat * v (M - 1)%nat) in
  Some (for_up (M - 2 - 2) 2 (fun i b => upd b i (ud * v (i + 2)%nat + dd i * v i + ld (i - 2)%nat * v (i - 2)%nat)) b).
(** 145-183 SBB_matvec_ptr; M = dd.shape[0]; the state is b, s1, s2, o1, o2 *)
Definition SBB_step (dd v : nat -> R) (k : nat) (s : (nat -> R) * (R * R) * (R * R)) : (nat -> R) * (R * R) * (R * R) :=
  let '(b, (s1, s2), (o1, o2)) := s in
  let j := (k + 2)%nat in
  let p := INR k * dd k / INR (k + 1) in
  let r := IZR (wrap32 (24 * (Z.of_nat k + 1) * (Z.of_nat k + 2))) * PI in
  let jj := IZR (wrap32 ((Z.of_nat j + 2) * (Z.of_nat j + 2))) in
  let d := v j / (INR j + 3) in
  if Nat.even k then
    let s1 := s1 + d in let s2 := s2 + jj * d in (upd b k (dd k * v k + p * s1 + r * s2), (s1, s2), (o1, o2))
  else
    let o1 := o1 + d in let o2 := o2 + jj * d in (upd b k (dd k * v k + p * o1 + r * o2), (s1, s2), (o1, o2)).
Definition SBB_matvec (M : nat) (dd v : nat -> R) : option (nat -> R) :=
  if Nat.ltb M 2 then None else
  let b := upd zeros (M - 1) (dd (M - 1)%nat * v (M - 1)%nat) in
  let b := upd b (M - 2) (dd (M - 2)%nat * v (M - 2)%nat) in
  let '(b, _, _) := for_down (M - 2) (SBB_step dd v) (b, (0, 0), (0, 0)) in Some b.
(** 202-230 ADD_matvec_ptr; M = dd.shape[0] *)
Definition ADD_step (dd v : nat -> R) (k : nat) (s : (nat -> R) * R * R) : (nat -> R) * R * R :=
  let '(b, s1, s2) := s in
  let j := (k + 2)%nat in
  let p := -4 * INR (k + 1) * PI in
  if Nat.even j then let s1 := s1 + v j in (upd b k (dd k * v k + p * s1), s1, s2)
  else let s2 := s2 + v j in (upd b k (dd k * v k + p * s2), s1, s2).
Definition ADD_matvec (M : nat) (dd v : nat -> R) : option (nat -> R) :=
  if Nat.ltb M 2 then None else
  let b := upd zeros (M - 1) (dd (M - 1)%nat * v (M - 1)%nat) in
  let b := upd b (M - 2) (dd (M - 2)%nat * v (M - 2)%nat) in
  let '(b, _, _) := for_down (M - 2) (ADD_step dd v) (b, 0, 0) in Some b.
(** 244-274 ATT_matvec_ptr; N = v.shape[axis]; j**3 and k**2 are C ints.  The state is b, (s1, s3), (s2, s4) *)
Definition ATT_step (v : nat -> R) (k : nat) (s : (nat -> R) * (R * R) * (R * R)) : (nat -> R) * (R * R) * (R * R) :=
  let '(b, (s1, s3), (s2, s4)) := s in
  let j := (k + 2)%nat in
  let p0 := PI / 2 in
  let p1 := PI / 2 * IZR (wrap32 (Z.of_nat k ^ 2)) in
  let j3 := IZR (wrap32 (Z.of_nat j ^ 3)) in
  if Nat.even j then
    let s1 := s1 + INR j * v j in let s3 := s3 + j3 * v j in (upd b k (p0 * s3 - p1 * s1), (s1, s3), (s2, s4))
  else
    let s2 := s2 + INR j * v j in let s4 := s4 + j3 * v j in (upd b k (p0 * s4 - p1 * s2), (s1, s3), (s2, s4)).
Definition ATT_matvec (N : nat) (v : nat -> R) : option (nat -> R) :=
  if Nat.ltb N 2 then None else
  let b := upd (upd zeros (N - 1) 0) (N - 2) 0 in
  let '(b, _, _) := for_down (N - 2) (ATT_step v) (b, (0, 0), (0, 0)) in Some b.
(** 320-338 CLL_matvec_ptr and 399-417 CTT_matvec_ptr *)
Definition CLL_step (v : nat -> R) (k : nat) (s : (nat -> R) * R * R) : (nat -> R) * R * R :=
  let '(b, s1, s2) := s in
  let j := (k + 1)%nat in
  if Nat.even j then let s1 := s1 + v j in (upd b k (2 * s1), s1, s2)
  else let s2 := s2 + v j in (upd b k (2 * s2), s1, s2).
Definition CLL_matvec (N : nat) (v : nat -> R) : option (nat -> R) :=
  if Nat.ltb N 1 then None else
  let '(b, _, _) := for_down (N - 1) (CLL_step v) (upd zeros (N - 1) 0, 0, 0) in Some b.
Definition CTT_step (v : nat -> R) (k : nat) (s : (nat -> R) * R * R) : (nat -> R) * R * R :=
  let '(b, s1, s2) := s in
  let j := (k + 1)%nat in
  if Nat.even j then let s1 := s1 + INR (k + 1) * v j in (upd b k (PI * s1), s1, s2)
  else let s2 := s2 + INR (k + 1) * v j in (upd b k (PI * s2), s1, s2).
Definition CTT_matvec (N : nat) (v : nat -> R) : option (nat -> R) :=
  if Nat.ltb N 1 then None else
  let '(b, _, _) := for_down (N - 1) (CTT_step v) (upd zeros (N - 1) 0, 0, 0) in Some b.
(** 351-385 CTSD_matvec_ptr *)
Definition CTSD_step (v : nat -> R) (i : nat) (s : (nat -> R) * R * R) : (nat -> R) * R * R :=
  let '(b, su0, su1) := s in
  let b := if Nat.ltb 0 i then upd b i (- INR (i + 1) * PI * v (i - 1)%nat) else upd b i 0 in
  if Nat.even i then let su0 := su0 + v (i + 1)%nat in (upd b i (b i - su0 * (2 * PI)), su0, su1)
  else let su1 := su1 + v (i + 1)%nat in (upd b i (b i - su1 * (2 * PI)), su0, su1).
Definition CTSD_matvec (N : nat) (v : nat -> R) : option (nat -> R) :=
  if Nat.ltb N 4 then None else
  let b := upd zeros (N - 1) 0 in
  let b := upd b (N - 2) (- INR (N - 2 + 1) * PI * v (N - 3)%nat) in
  let b := upd b (N - 3) (- INR (N - 3 + 1) * PI * v (N - 4)%nat) in
  let '(b, _, _) := for_down (N - 3) (CTSD_step v) (b, 0, 0) in Some b.
(** 437-458 Tridiagonal_matvec_ptr; M = dd.shape[0] *)
Definition Tridiagonal_matvec (M : nat) (ld dd ud v : nat -> R) : option (nat -> R) :=
  if Nat.ltb M 4 then None else
  let b := upd zeros 0 (dd 0%nat * v 0%nat + ud 0%nat * v 2%nat) in
  let b := upd b 1 (dd 1%nat * v 1%nat + ud 1%nat * v 3%nat) in
  let b := for_up (M - 2 - 2) 2 (fun i b => upd b i (ld (i - 2)%nat * v (i - 2)%nat + dd i * v i + ud i * v (i + 2)%nat)) b in
  let b := upd b (M - 2) (ld (M - 2 - 2)%nat * v (M - 2 - 2)%nat + dd (M - 2)%nat * v (M - 2)%nat) in
  Some (upd b (M - 1) (ld (M - 1 - 2)%nat * v (M - 1 - 2)%nat + dd (M - 1)%nat * v (M - 1)%nat)).
(** 480-512 Pentadiagonal_matvec_ptr; M = dd.shape[0] *)
Definition Pentadiagonal_matvec (M : nat) (ldd ld dd ud udd v : nat -> R) : option (nat -> R) :=
  if Nat.ltb M 8 then None else
  let b := upd zeros 0 (dd 0%nat * v 0%nat + ud 0%nat * v 2%nat + udd 0%nat * v 4%nat) in
  let b := upd b 1 (dd 1%nat * v 1%nat + ud 1%nat * v 3%nat + udd 1%nat * v 5%nat) in
  let b := upd b 2 (ld 0%nat * v 0%nat + dd 2%nat * v 2%nat + ud 2%nat * v 4%nat + udd 2%nat * v 6%nat) in
  let b := upd b 3 (ld 1%nat * v 1%nat + dd 3%nat * v 3%nat + ud 3%nat * v 5%nat + udd 3%nat * v 7%nat) in
  let b := for_up (M - 4 - 4) 4 (fun i b => upd b i (ldd (i - 4)%nat * v (i - 4)%nat + ld (i - 2)%nat * v (i - 2)%nat
             + dd i * v i + ud i * v (i + 2)%nat + udd i * v (i + 4)%nat)) b in
  let up := fun i => ldd (i - 4)%nat * v (i - 4)%nat + ld (i - 2)%nat * v (i - 2)%nat + dd i * v i + ud i * v (i + 2)%nat in
  let lo := fun i => ldd (i - 4)%nat * v (i - 4)%nat + ld (i - 2)%nat * v (i - 2)%nat + dd i * v i in
  let b := upd b (M - 4) (up (M - 4)%nat) in
  let b := upd b (M - 3) (up (M - 3)%nat) in
  let b := upd b (M - 2) (lo (M - 2)%nat) in
  Some (upd b (M - 1) (lo (M - 1)%nat)).
(** 532-551 CBD_matvec_ptr; M = udd.shape[0] *)
Definition CBD_matvec (M : nat) (ld ud udd v : nat -> R) : option (nat -> R) :=
  if Nat.ltb M 1 then None else
  let b := upd zeros 0 (ud 0%nat * v 1%nat + udd 0%nat * v 3%nat) in
  let b := for_up (M - 1) 1 (fun i b => upd b i (ld (i - 1)%nat * v (i - 1)%nat + ud i * v (i + 1)%nat + udd i * v (i + 3)%nat)) b in
  Some (upd b M (ld (M - 1)%nat * v (M - 1)%nat + ud M * v (M + 1)%nat)).
(** 571-592 CDB_matvec_ptr; M = ud.shape[0] *)
Definition CDB_matvec (M : nat) (lld ld ud v : nat -> R) : option (nat -> R) :=
  if Nat.ltb M 3 then None else
  let b := upd zeros 0 (ud 0%nat * v 1%nat) in
  let b := for_up 2 1 (fun k b => upd b k (ld (k - 1)%nat * v (k - 1)%nat + ud k * v (k + 1)%nat)) b in
  let b := for_up (M - 3) 3 (fun k b => upd b k (lld (k - 3)%nat * v (k - 3)%nat + ld (k - 1)%nat * v (k - 1)%nat + ud k * v (k + 1)%nat)) b in
  let b := for_up 2 M (fun k b => upd b k (lld (k - 3)%nat * v (k - 3)%nat + ld (k - 1)%nat * v (k - 1)%nat)) b in
  Some (upd b (M + 2) (lld (M - 1)%nat * v (M - 1)%nat)).
(** 613-633 BBD_matvec_ptr; M = uud.shape[0], ld is a number *)
Definition BBD_matvec (M : nat) (ld : R) (dd ud uud v : nat -> R) : option (nat -> R) :=
  if Nat.ltb M 2 then None else
  let b := upd zeros 0 (dd 0%nat * v 0%nat + ud 0%nat * v 2%nat + uud 0%nat * v 4%nat) in
  let b := upd b 1 (dd 1%nat * v 1%nat + ud 1%nat * v 3%nat + uud 1%nat * v 5%nat) in
  let b := for_up (M - 2) 2 (fun k b => upd b k (ld * v (k - 2)%nat + dd k * v k + ud k * v (k + 2)%nat + uud k * v (k + 4)%nat)) b in
  Some (for_up 2 M (fun k b => upd b k (ld * v (k - 2)%nat + dd k * v k + ud k * v (k + 2)%nat)) b).

(** ** format='cython'.  Every method fills c with zeros first and multiplies by the scale at the end *)
Definition obind {X Y} (o : option X) (f : X -> option Y) : option Y := match o with Some x => f x | None => None end.
Definition with_scale (sc : R) (o : option (nat -> R)) : option (nat -> R) := match o with Some c => Some (scale_array sc c) | None => None end.
(** chebyshev/matrices.py 251-268 BSDSDmat.matvec *)
Definition BSDSD_cython (A : smat RFld) (v : nat -> R) : option (nat -> R) :=
  obind (akey A 0) (fun d0 => obind (skey A (-2)) (fun x =>
    with_scale (sm_scale RFld A) (Tridiagonal_matvec (fst d0) (fun _ => x) (snd d0) (fun _ => x) v))).
(** 341-353 BSDSNmat.matvec (three-dimensional v) *)
Definition BSDSN_cython (A : smat RFld) (v : nat -> R) : option (nat -> R) :=
  obind (akey A (-2)) (fun l => obind (akey A 0) (fun d0 => obind (skey A 2) (fun x =>
    with_scale (sm_scale RFld A) (BDN_matvec (fst d0) (snd l) (snd d0) x v)))).
(** 533-563 BSBSBmat.matvec (three-dimensional v) *)
Definition BSBSB_cython (A : smat RFld) (v : nat -> R) : option (nat -> R) :=
  obind (akey A (-4)) (fun lll => obind (akey A (-2)) (fun l => obind (akey A 0) (fun d0 => obind (akey A 2) (fun u => obind (akey A 4) (fun uu =>
    with_scale (sm_scale RFld A) (Pentadiagonal_matvec (fst d0) (snd lll) (snd l) (snd d0) (snd u) (snd uu) v)))))).
(** 602-627 BSBSDmat.matvec *)
Definition BSBSD_cython (A : smat RFld) (v : nat -> R) : option (nat -> R) :=
  obind (skey A (-2)) (fun x => obind (akey A 0) (fun d0 => obind (akey A 2) (fun u => obind (akey A 4) (fun uu =>
    with_scale (sm_scale RFld A) (BBD_matvec (fst uu) x (snd d0) (snd u) (snd uu) v))))).
(** 680-690 CSDSNmat.matvec and 717-740 CSDSDmat.matvec *)
Definition CSD_cython (A : smat RFld) (v : nat -> R) : option (nat -> R) :=
  obind (akey A (-1)) (fun l => obind (akey A 1) (fun u =>
    with_scale (sm_scale RFld A) (CDD_matvec (fst u) (snd l) (snd u) v))).
(** 797-806 CTSDmat.matvec; N = v.shape[axis] *)
Definition CTSD_cython (N : nat) (A : smat RFld) (v : nat -> R) : option (nat -> R) := with_scale (sm_scale RFld A) (CTSD_matvec N v).
(** 877-886 CTTmat.matvec; [ks] is self._keyscale *)
Definition CTT_cython (N : nat) (ks : R) (A : smat RFld) (v : nat -> R) : option (nat -> R) := with_scale (sm_scale RFld A * ks) (CTT_matvec N v).
(** 915-937 CSBSDmat.matvec *)
Definition CSBSD_cython (A : smat RFld) (v : nat -> R) : option (nat -> R) :=
  obind (akey A (-1)) (fun l => obind (akey A 1) (fun u => obind (akey A 3) (fun uu =>
    with_scale (sm_scale RFld A) (CBD_matvec (fst uu) (snd l) (snd u) (snd uu) v)))).
(** 966-991 CSDSBmat.matvec *)
Definition CSDSB_cython (A : smat RFld) (v : nat -> R) : option (nat -> R) :=
  obind (akey A (-3)) (fun ll => obind (akey A (-1)) (fun l => obind (akey A 1) (fun u =>
    with_scale (sm_scale RFld A) (CDB_matvec (fst u) (snd ll) (snd l) (snd u) v)))).
(** 1019-1044 ASBSBmat.matvec *)
Definition ASBSB_cython (A : smat RFld) (v : nat -> R) : option (nat -> R) :=
  obind (akey A (-2)) (fun l => obind (akey A 0) (fun d0 => obind (akey A 2) (fun u =>
    with_scale (sm_scale RFld A) (Tridiagonal_matvec (fst d0) (snd l) (snd d0) (snd u) v)))).
(** 1084-1093 ASDSDmat.matvec and 1461-1472 SSBSBmat.matvec: self[0]/self._keyscale *)
Definition ASDSD_cython (ks : R) (A : smat RFld) (v : nat -> R) : option (nat -> R) :=
  obind (akey A 0) (fun d0 => with_scale (sm_scale RFld A * ks) (ADD_matvec (fst d0) (fun i => snd d0 i / ks) v)).
Definition SSBSB_cython (ks : R) (A : smat RFld) (v : nat -> R) : option (nat -> R) :=
  obind (akey A 0) (fun d0 => with_scale (sm_scale RFld A * ks) (SBB_matvec (fst d0) (fun i => snd d0 i / ks) v)).
(** 1217-1226 ATTmat.matvec *)
Definition ATT_cython (N : nat) (ks : R) (A : smat RFld) (v : nat -> R) : option (nat -> R) := with_scale (sm_scale RFld A * ks) (ATT_matvec N v).
(** legendre/matrices.py 486-488 CLLmat.matvec *)
Definition CLL_cython (N : nat) (ks : R) (A : smat RFld) (v : nat -> R) : option (nat -> R) := with_scale (sm_scale RFld A * ks) (CLL_matvec N v).

(** ** format='self': sums of slices.  c[lo:hi] += w, with hi - lo = len(w) required by numpy *)
Definition slice_add (lo hi len : nat) (w : nat -> R) (o : option (nat -> R)) : option (nat -> R) :=
  match o with
  | Some c => if Nat.eqb (hi - lo) len then Some (fun i => if (Nat.leb lo i && Nat.ltb i hi)%bool then c i + w (i - lo)%nat else c i) else None
  | None => None
  end.
(** d * v[a:b] of an array d of length n: numpy requires n = b - a *)
Definition slice_mul (d : nat * (nat -> R)) (a b : nat) (v : nat -> R) : option (nat * (nat -> R)) :=
  if Nat.eqb (fst d) (b - a) then Some (fst d, fun i => snd d i * v (a + i)%nat) else None.
Definition slice_scal (x : R) (a b : nat) (v : nat -> R) : nat * (nat -> R) := ((b - a)%nat, fun i => x * v (a + i)%nat).
Definition slice_addm (lo hi : nat) (d : nat * (nat -> R)) (a b : nat) (v : nat -> R) (o : option (nat -> R)) : option (nat -> R) :=
  obind (slice_mul d a b v) (fun w => slice_add lo hi (fst w) (snd w) o).
Definition slice_adds (lo hi : nat) (x : R) (a b : nat) (v : nat -> R) (o : option (nat -> R)) : option (nat -> R) :=
  let w := slice_scal x a b v in slice_add lo hi (fst w) (snd w) o.
(** chebyshev/matrices.py 269-279 BSDSDmat; M = self.shape[1] *)
Definition BSDSD_self (A : smat RFld) (v : nat -> R) : option (nat -> R) :=
  let M := sm_cols RFld A in
  obind (akey A 0) (fun d0 => obind (skey A (-2)) (fun l => obind (skey A 2) (fun u =>
    with_scale (sm_scale RFld A)
      (slice_adds 2 M u 0 (M - 2) v (slice_addm 0 M d0 0 M v (slice_adds 0 (M - 2) l 2 M v (Some zeros))))))).
(** 541-556 BSBSBmat; N = self.shape[0], n = len(v), vv = v[:-4] *)
Definition BSBSB_self (n : nat) (A : smat RFld) (v : nat -> R) : option (nat -> R) :=
  let N := sm_rows RFld A in let m := (n - 4)%nat in
  obind (akey A 0) (fun d0 => obind (akey A 2) (fun d2 => obind (akey A 4) (fun d4 => obind (akey A (-2)) (fun m2 => obind (akey A (-4)) (fun m4 =>
    with_scale (sm_scale RFld A)
      (slice_addm 4 N m4 0 (m - 4) v (slice_addm 2 N m2 0 (m - 2) v (slice_addm 0 (N - 4) d4 4 m v
        (slice_addm 0 (N - 2) d2 2 m v (slice_addm 0 N d0 0 m v (Some zeros))))))))))).
(** 606-619 BSBSDmat; vv = v[:-2] *)
Definition BSBSD_self (n : nat) (A : smat RFld) (v : nat -> R) : option (nat -> R) :=
  let N := sm_rows RFld A in let m := (n - 2)%nat in
  obind (skey A (-2)) (fun x => obind (akey A 0) (fun d0 => obind (akey A 2) (fun d2 => obind (akey A 4) (fun d4 =>
    with_scale (sm_scale RFld A)
      (slice_adds 2 N x 0 (m - 4) v (slice_addm 0 (N - 2) d4 4 m v
        (slice_addm 0 N d2 2 m v (slice_addm 0 N d0 0 (m - 2) v (Some zeros))))))))).
(** 721-733 CSDSDmat *)
Definition CSDSD_self (A : smat RFld) (v : nat -> R) : option (nat -> R) :=
  let N := sm_rows RFld A in
  obind (akey A 1) (fun d1 => obind (akey A (-1)) (fun m1 =>
    with_scale (sm_scale RFld A) (slice_addm 1 N m1 0 (N - 1) v (slice_addm 0 (N - 1) d1 1 N v (Some zeros))))).
(** 919-931 CSBSDmat *)
Definition CSBSD_self (A : smat RFld) (v : nat -> R) : option (nat -> R) :=
  let N := sm_rows RFld A in let M := sm_cols RFld A in
  obind (akey A (-1)) (fun m1 => obind (akey A 1) (fun d1 => obind (akey A 3) (fun d3 =>
    with_scale (sm_scale RFld A)
      (slice_addm 0 (N - 1) d3 3 M v (slice_addm 0 N d1 1 (M - 1) v (slice_addm 1 N m1 0 (M - 3) v (Some zeros))))))).
(** 970-983 CSDSBmat *)
Definition CSDSB_self (A : smat RFld) (v : nat -> R) : option (nat -> R) :=
  let N := sm_rows RFld A in let M := sm_cols RFld A in
  obind (akey A (-3)) (fun m3 => obind (akey A (-1)) (fun m1 => obind (akey A 1) (fun d1 =>
    with_scale (sm_scale RFld A)
      (slice_addm 0 (N - 3) d1 1 M v (slice_addm 1 (N - 1) m1 0 M v (slice_addm 3 N m3 0 (M - 1) v (Some zeros))))))).
(** 1023-1036 ASBSBmat *)
Definition ASBSB_self (A : smat RFld) (v : nat -> R) : option (nat -> R) :=
  let N := sm_rows RFld A in
  obind (akey A 0) (fun d0 => obind (akey A 2) (fun d2 => obind (akey A (-2)) (fun m2 =>
    with_scale (sm_scale RFld A)
      (slice_addm 2 N m2 0 (N - 2) v (slice_addm 0 (N - 2) d2 2 N v (slice_addm 0 N d0 0 N v (Some zeros))))))).
(** legendre/matrices.py 471-485 CLLmat: ve = v[-2:0:-2].cumsum(), vo = v[-1:0:-2].cumsum(), c[-3::-2] = 2*ve,
    c[-2::-2] = 2*vo; entry t of such a slice is at N-2-2t, N-1-2t, N-3-2t, N-2-2t *)
Fixpoint cumsum (w : nat -> R) (t : nat) : R := match t with O => w O | S t' => cumsum w t' + w t end.
Definition CLL_self (N : nat) (ks : R) (A : smat RFld) (v : nat -> R) : option (nat -> R) :=
  let ve := cumsum (fun t => v (N - 2 - 2 * t)%nat) in
  let vo := cumsum (fun t => v (N - 1 - 2 * t)%nat) in
  let c1 := fun i => if (Nat.ltb (i + 2) N && Nat.even (N - 3 - i))%bool then 2 * ve ((N - 3 - i) / 2)%nat else 0 in
  let c2 := fun i => if (Nat.ltb (i + 1) N && Nat.even (N - 2 - i))%bool then 2 * vo ((N - 2 - i) / 2)%nat else c1 i in
  with_scale (sm_scale RFld A * ks) (Some c2).

(** ** chebyshev/matrices.py 406-429 BSNSNmat.matvec: c is not cleared; n = len(c), R = N - 2 rows *)
Definition BSNSN_matvec (n : nat) (A : smat RFld) (v c : nat -> R) : option (nat -> R) :=
  obind (akey A 0) (fun d0 => obind (akey A 2) (fun d2 =>
    let N := sm_rows RFld A in
    if Nat.ltb N 4 then None else
    let d0 := snd d0 in let d2 := snd d2 in
    let c := upd c 0 (d0 0%nat * v 0%nat + d2 0%nat * v 2%nat) in
    let c := upd c 1 (d0 1%nat * v 1%nat + d2 1%nat * v 3%nat) in
    let c := for_up (N - 2 - 2) 2 (fun k c => upd c k (d2 (k - 2)%nat * v (k - 2)%nat + d0 k * v k + d2 k * v (k + 2)%nat)) c in
    let c := upd c (N - 2) (d2 (N - 4)%nat * v (N - 4)%nat + d0 (N - 2)%nat * v (N - 2)%nat) in
    let c := upd c (N - 1) (d2 (N - 3)%nat * v (N - 3)%nat + d0 (N - 1)%nat * v (N - 1)%nat) in
    Some (for_up n 0 (fun k c => upd c k (c k * sm_scale RFld A)) c))).

(** ** Biharmonic.matvec, chebyshev/la.py 549-555: 818-905 Biharmonic_matvec_ptr and
    optimization/numba/biharmonic.py 374-445 (64-bit integers there) *)
Definition bmv_step (im : impl) (M : nat) (a0 : R) (sii ldd ld dd ud udd v : nat -> R) (k : nat)
    (s : (nat -> R) * (R * R) * (R * R)) : (nat -> R) * (R * R) * (R * R) :=
  let '(b, (s1, s2), (o1, o2)) := s in
  let j := (k + 6)%nat in
  let w := fun z => match im with Numba => z | Cython => wrap32 z end in
  let p := INR k * sii k / (INR k + 1) in
  let r := IZR (w (24 * (Z.of_nat k + 1) * (Z.of_nat k + 2))%Z) * PI in
  let jj := IZR (w ((Z.of_nat j + 2) * (Z.of_nat j + 2))%Z) in
  let d := v j / (INR j + 3) in
  let near := fun b => upd b k (b k +
      (if Nat.ltb 3 k then ldd (k - 4)%nat * v (k - 4)%nat + ld (k - 2)%nat * v (k - 2)%nat + dd k * v k + ud k * v (k + 2)%nat + udd k * v (k + 4)%nat
       else if Nat.ltb 1 k then ld (k - 2)%nat * v (k - 2)%nat + dd k * v k + ud k * v (k + 2)%nat + udd k * v (k + 4)%nat
       else dd k * v k + ud k * v (k + 2)%nat + udd k * v (k + 4)%nat)) in
  if Nat.even k then
    let s1 := s1 + d in let s2 := s2 + jj * d in (near (upd b k ((p * s1 + r * s2) * a0)), (s1, s2), (o1, o2))
  else
    let o1 := o1 + d in let o2 := o2 + jj * d in (near (upd b k ((p * o1 + r * o2) * a0)), (s1, s2), (o1, o2)).
Definition Biharmonic_matvec (im : impl) (S A B : smat RFld) (a0 alfa beta : R) (v : nat -> R) : option (nat -> R) :=
  obind (bh_keys S A B) (fun D =>
    let M := sm_rows RFld S in
    if Nat.ltb M 10 then None else
    let dd := fun i => a0 * sii D i + alfa * aii D i + beta * bii D i in
    let ld := fun i => alfa * ail D i + beta * bil D i in
    let ldd := fun i => beta * bill D i in
    let ud := fun i => a0 * siu D i + alfa * aiu D i + beta * biu D i in
    let udd := fun i => a0 * siuu D i + beta * biuu D i in
    let r0 := fun i => ldd (i - 4)%nat * v (i - 4)%nat + ld (i - 2)%nat * v (i - 2)%nat + dd i * v i in
    let r1 := fun i => r0 i + ud i * v (i + 2)%nat in
    let r2 := fun i => r1 i + udd i * v (i + 4)%nat in
    let b := upd zeros (M - 1) (r0 (M - 1)%nat) in
    let b := upd b (M - 2) (r0 (M - 2)%nat) in
    let b := upd b (M - 3) (r1 (M - 3)%nat) in
    let b := upd b (M - 4) (r1 (M - 4)%nat) in
    let b := upd b (M - 5) (r2 (M - 5)%nat) in
    let b := upd b (M - 6) (r2 (M - 6)%nat) in
    let '(b, _, _) := for_down (M - 6) (bmv_step im M a0 (sii D) ldd ld dd ud udd v) (b, (0, 0), (0, 0)) in Some b).
