(** BiharmonicModel.v -- the Chebyshev biharmonic solver: chebyshev/la.py Biharmonic with the
    kernels of optimization/numba/biharmonic.py (cython/la.pyx 975-1290 has the same line kernels;
    its separate 2D and 3D versions are not modelled), for one line.

    Line numbers without a file refer to optimization/numba/biharmonic.py.  Exact real arithmetic.
    The kernels treat the even and the odd coefficients separately: [odd] is 0 or 1 and an array
    x[odd::2] is [half odd x]. *)
From Coq Require Import Reals ZArith List Arith Bool.
From Verif Require Import Base Fld SparseModel RPoly StencilModel StencilModel2 LegMatrixModel HelmholtzModel.
Import ListNotations.
Local Open Scope R_scope.

(** the diagonals sii, siu, siuu of S, ail, aii, aiu of A, bill, bil, bii, biu, biuu of B *)
Record bdiags := mkB { sii : nat -> R; siu : nat -> R; siuu : nat -> R; ail : nat -> R; aii : nat -> R; aiu : nat -> R;
                       bill : nat -> R; bil : nat -> R; bii : nat -> R; biu : nat -> R; biuu : nat -> R }.
Definition half (odd : nat) (x : nat -> R) (k : nat) : R := x (2 * k + odd)%nat.

(** 8*(k+1)*(k+2)*(k*(k+4)+3*(j+2)*(j+2))*a*pi/(j+3.) with k = 2*kk+odd, j = 2*i+odd *)
Definition far (a : R) (odd kk i : nat) : R :=
  let k := INR (2 * kk + odd) in let j := INR (2 * i + odd) in
  8 * (k + 1) * (k + 2) * (k * (k + 4) + 3 * (j + 2) * (j + 2)) * a * PI / (j + 3).

Section OE.
  Variables (M odd : nat) (a b c : R) (D : bdiags).
  Let h := half odd.
  (** for i in range(lo, M): x[i] = g(i, x[i]) *)
  Definition on_range (lo : nat) (g : nat -> R -> R) (x : nat -> R) : nat -> R :=
    fun i => if (Nat.leb lo i && Nat.ltb i M)%bool then g i (x i) else x i.

  Record bst := mkBst { k0 : nat -> R; k1 : nat -> R; k2 : nat -> R;
                        v0 : nat -> R; v1 : nat -> R; v2 : nat -> R; m0 : nat -> R; m1 : nat -> R }.
  Definition zero : nat -> R := fun _ => 0.
  (** 105-142: the first three rows (c0, c1, c2), u0[0], u1[0], u2[0] *)
  Definition bh_init : bst :=
    let c0 := upd (upd (upd (upd (upd zero 0 (a * h (sii D) 0 + b * h (aii D) 0 + c * h (bii D) 0))
                                      1 (a * h (siu D) 0 + b * h (aiu D) 0 + c * h (biu D) 0))
                                 2 (a * h (siuu D) 0 + c * h (biuu D) 0))
                            3 (far a odd 0 3)) 4 (far a odd 0 4) in
    let c1 := upd (upd (upd (upd (upd zero 0 (b * h (ail D) 0 + c * h (bil D) 0))
                                      1 (a * h (sii D) 1 + b * h (aii D) 1 + c * h (bii D) 1))
                                 2 (a * h (siu D) 1 + b * h (aiu D) 1 + c * h (biu D) 1))
                            3 (a * h (siuu D) 1 + c * h (biuu D) 1)) 4 (far a odd 1 4) in
    let c2 := upd (upd (upd (upd (upd zero 0 (c * h (bill D) 0))
                                      1 (b * h (ail D) 1 + c * h (bil D) 1))
                                 2 (a * h (sii D) 2 + b * h (aii D) 2 + c * h (bii D) 2))
                            3 (a * h (siu D) 2 + b * h (aiu D) 2 + c * h (biu D) 2)) 4 (a * h (siuu D) 2 + c * h (biuu D) 2) in
    let c0 := on_range 5 (fun i _ => far a odd 0 i) c0 in
    let c1 := on_range 5 (fun i _ => far a odd 1 i) c1 in
    let c2 := on_range 5 (fun i _ => far a odd 2 i) c2 in
    mkBst c0 c1 c2 (upd zero 0 (c0 0%nat)) (upd zero 0 (c0 1%nat)) (upd zero 0 (c0 2%nat)) zero zero.
  (** 143-179: one iteration of the elimination *)
  Definition bh_step (kk : nat) (s : bst) : bst :=
    let l0 := upd (m0 s) (kk - 1) (k1 s (kk - 1)%nat / v0 s (kk - 1)%nat) in
    let l1 := if Nat.ltb kk (M - 1) then upd (m1 s) (kk - 1) (k2 s (kk - 1)%nat / v0 s (kk - 1)%nat) else m1 s in
    let c1 := on_range kk (fun i x => x - l0 (kk - 1)%nat * k0 s i) (k1 s) in
    let c2 := if Nat.ltb kk (M - 1) then on_range kk (fun i x => x - l1 (kk - 1)%nat * k0 s i) (k2 s) else k2 s in
    let c0 := on_range kk (fun i _ => c1 i) (k0 s) in
    let c1 := on_range kk (fun i _ => c2 i) c1 in
    let c2 := if Nat.ltb kk (M - 2) then
                let c2 := upd c2 kk (c * h (bill D) kk) in
                let c2 := upd c2 (kk + 1) (b * h (ail D) (kk + 1) + c * h (bil D) (kk + 1)) in
                let c2 := upd c2 (kk + 2) (a * h (sii D) (kk + 2) + b * h (aii D) (kk + 2) + c * h (bii D) (kk + 2)) in
                let c2 := if Nat.ltb kk (M - 3) then upd c2 (kk + 3) (a * h (siu D) (kk + 2) + b * h (aiu D) (kk + 2) + c * h (biu D) (kk + 2)) else c2 in
                let c2 := if Nat.ltb kk (M - 4) then upd c2 (kk + 4) (a * h (siuu D) (kk + 2) + c * h (biuu D) (kk + 2)) else c2 in
                if Nat.ltb kk (M - 5) then on_range (kk + 5) (fun i _ => far a odd (kk + 2) i) c2 else c2
              else c2 in
    mkBst c0 c1 c2 (upd (v0 s) kk (c0 kk))
          (if Nat.ltb kk (M - 1) then upd (v1 s) kk (c0 (kk + 1)%nat) else v1 s)
          (if Nat.ltb kk (M - 2) then upd (v2 s) kk (c0 (kk + 2)%nat) else v2 s) l0 l1.
  (** 92-179 LU_oe_Biharmonic_1D; M = sii.shape[0] *)
  Definition bh_lu : bst := for_up (M - 1) 1 bh_step bh_init.
End OE.

(** 223-238 Biharmonic_factor_oe_pr; [L] = l0.shape[0], so the M of the code is L + 1; the state is a, b *)
Definition pr_a (odd k : nat) : R := let k := INR (2 * k + odd) in 8 * k * (k + 1) * (k + 2) * (k + 4) * PI.
Definition pr_b (odd k : nat) : R := let k := INR (2 * k + odd) in 24 * (k + 1) * (k + 2) * PI.
Definition pr_step (odd : nat) (l0 l1 : nat -> R) (k : nat) (s : (nat -> R) * (nat -> R)) : (nat -> R) * (nat -> R) :=
  let '(x, y) := s in
  (upd x k (pr_a odd k - l0 (k - 1)%nat * x (k - 1)%nat - l1 (k - 2)%nat * x (k - 2)%nat),
   upd y k (pr_b odd k - l0 (k - 1)%nat * y (k - 1)%nat - l1 (k - 2)%nat * y (k - 2)%nat)).
Definition bh_factor (L odd : nat) (l0 l1 : nat -> R) : (nat -> R) * (nat -> R) :=
  let z := fun _ : nat => 0 in
  let x := upd (upd z 0 (pr_a odd 0)) 1 (pr_a odd 1 - l0 0%nat * pr_a odd 0) in
  let y := upd (upd z 0 (pr_b odd 0)) 1 (pr_b odd 1 - l0 0%nat * pr_b odd 0) in
  for_up (L + 1 - 3 - 2) 2 (pr_step odd l0 l1) (x, y).

(** 291-298 ForwardBsolve_L, M = l0.shape[0] *)
Definition bh_forward (M : nat) (l0 l1 f : nat -> R) : nat -> R :=
  let y := upd (fun _ => 0) 0 (f 0%nat) in
  let y := upd y 1 (f 1%nat - l0 0%nat * y 0%nat) in
  for_up (M - 2) 2 (fun i y => upd y i (f i - l0 (i - 1)%nat * y (i - 1)%nat - l1 (i - 2)%nat * y (i - 2)%nat)) y.
(** 261-275 BackBsolve_U; the state is uk, s1, s2 *)
Definition bh_back_step (odd : nat) (f u0 u1 u2 a b : nat -> R) (ac : R) (kk : nat) (s : (nat -> R) * R * R) : (nat -> R) * R * R :=
  let '(u, s1, s2) := s in
  let j := INR (2 * kk + odd + 6) in
  let s1 := s1 + u (kk + 3)%nat / (j + 3) in
  let s2 := s2 + u (kk + 3)%nat / (j + 3) * ((j + 2) * (j + 2)) in
  (upd u kk ((f kk - u1 kk * u (kk + 1)%nat - u2 kk * u (kk + 2)%nat - a kk * ac * s1 - b kk * ac * s2) / u0 kk), s1, s2).
Definition bh_backward (M odd : nat) (f u u0 u1 u2 a b : nat -> R) (ac : R) : nat -> R :=
  let u := upd u (M - 1) (f (M - 1)%nat / u0 (M - 1)%nat) in
  let u := upd u (M - 2) ((f (M - 2)%nat - u1 (M - 2)%nat * u (M - 1)%nat) / u0 (M - 2)%nat) in
  let u := upd u (M - 3) ((f (M - 3)%nat - u1 (M - 3)%nat * u (M - 2)%nat - u2 (M - 3)%nat * u (M - 1)%nat) / u0 (M - 3)%nat) in
  let '(u, _, _) := for_down (M - 3) (bh_back_step odd f u0 u1 u2 a b ac) (u, 0, 0) in u.

(** the kernels divide by u0[0], ..., u0[M-1]: a zero there is an error (ZeroDivisionError or NaN),
    here [false] *)
Definition pivots_ok (M : nat) (u0 : nat -> R) : bool := forallb (fun k => if Req_EM_T (u0 k) 0 then false else true) (seq 0 M).

(** chebyshev/la.py 443-520, 76-91, 254-258 and 277-288, one-dimensional: n = S.shape[0], u0[odd] etc.
    have M = ceil(n/2) entries, the sliced diagonals of the odd part floor(n/2).  The kernels write
    c0[4], so fewer than five entries are out of bounds *)
Definition bh_half (n odd : nat) (a b c : R) (D : bdiags) (f u : nat -> R) : option (nat -> R) :=
  let M := ((n + 1) / 2)%nat in
  let Mo := ((n + 1 - odd) / 2)%nat in
  if Nat.ltb Mo 5 then None else
  let s := bh_lu Mo odd a b c D in
  if pivots_ok M (v0 s) then
    let '(x, y) := bh_factor M odd (m0 s) (m1 s) in
    Some (bh_backward M odd (bh_forward M (m0 s) (m1 s) (half odd f)) (half odd u) (v0 s) (v1 s) (v2 s) x y a)
  else None.
Definition bh_keys (S A B : smat RFld) : option bdiags :=
  match key S 0, key S 2, key S 4, key A (-2), key A 0, key A 2 with
  | Some s0, Some s2, Some s4, Some am, Some a0, Some a2 =>
      match key B (-4), key B (-2), key B 0, key B 2, key B 4 with
      | Some bm4, Some bm2, Some b0, Some b2, Some b4 => Some (mkB s0 s2 s4 am a0 a2 bm4 bm2 b0 b2 b4)
      | _, _, _, _, _ => None
      end
  | _, _, _, _, _, _ => None
  end.
(** Biharmonic(S, A, B, a0, alfa, beta)(f, u) *)
Definition biharmonic6 (S A B : smat RFld) (a0 al be : R) (f u : nat -> R) : option (nat -> R) :=
  match bh_keys S A B with
  | Some D =>
      let n := sm_rows RFld S in
      let M := ((n + 1) / 2)%nat in
      match bh_half n 0 a0 al be D f u, bh_half n 1 a0 al be D f u with
      | Some e, Some o => Some (fun i => if Nat.ltb (i / 2) M then (if Nat.even i then e (i / 2)%nat else o (i / 2)%nat) else u i)
      | _, _ => None
      end
  | None => None
  end.
(** Biharmonic(S, A, B)(f, u): 462-465 *)
Definition biharmonic3 (S A B : smat RFld) (f u : nat -> R) : option (nat -> R) :=
  biharmonic6 S A B (sm_scale RFld S) (sm_scale RFld A) (sm_scale RFld B) f u.
