(** FMMSweepModel.v -- FMMcheb, cython/transforms.pyx 690-870, and conversionmatrix, legendre/dlt.py 1353-1362.

    One line of the array, exact real arithmetic.  The work arrays wk, ck are functions of the level, the
    number n = block*D[level]+q of the piece and the coefficient k (in the code: wk[level][n*Mmax+k], k < Mmax).
    The low rank matrices A, their sizes Nk and the sizes Mmin are arguments, as in the code. *)
From Coq Require Import Reals List Arith Bool.
From Verif Require Import Base RPoly HelmholtzProofs Leg2ChebModel ChebTransModel FMMModel.
Import ListNotations.
Local Open Scope R_scope.

(** ** the matrix-vector kernels, transforms.pyx 61-127: what is added to b *)
Definition mv (m n : nat) (A : nat -> nat -> R) (x : nat -> R) (i : nat) : R := if Nat.ltb i m then rsum n (fun j => A i j * x j) else 0.
Definition mv_T (m n : nat) (A : nat -> nat -> R) (x : nat -> R) (j : nat) : R := if Nat.ltb j n then rsum m (fun i => x i * A i j) else 0.
(** _matvectri, lower = 0 and 1 *)
Definition tri_lower (m : nat) (A : nat -> nat -> R) (x : nat -> R) (i : nat) : R := if Nat.ltb i m then rsum (i + 1) (fun j => A i j * x j) else 0.
Definition tri_upper (m n : nat) (A : nat -> nat -> R) (x : nat -> R) (i : nat) : R := if Nat.ltb i m then rsum (n - i) (fun j => A i (i + j)%nat * x (i + j)%nat) else 0.

(** ** the conversion matrices *)
(** dlt.py 1353-1362: dct of cos(k arccos((X+1+2q-D)/D)) at the M Chebyshev points X, / M, first column halved *)
Definition conversionmatrix (D M q k l : nat) : R :=
  let X := fun j => cos ((INR j + / 2) * PI / INR M) in
  let t := dct2 M (fun j => cos (INR k * acos ((X j + 1 + 2 * INR q - INR D) / INR D))) l / INR M in
  if Nat.eqb l 0 then t / 2 else t.
(** leg2chebm.pyx 114-120: one list of matrices, for every d in unique(D), q < d; transforms.pyx 667-675, 699-700, 768-769:
    find_index(uD, d)-1 in uD = [0, unique...] and cuD = cumsum(uD) *)
Fixpoint np_insert (d : nat) (l : list nat) : list nat := match l with [] => [d] | e :: r => if Nat.ltb d e then d :: l else if Nat.eqb d e then l else e :: np_insert d r end.
Definition np_unique (D : list nat) : list nat := fold_right np_insert [] D.
Definition Th_list (D : list nat) (M : nat) : list (nat -> nat -> R) := flat_map (fun d => map (fun q => conversionmatrix d M q) (seq 0 d)) (np_unique D).
Fixpoint find_index (l : list nat) (u : nat) : nat := match l with [] => 0 | e :: r => if Nat.eqb e u then 0 else S (find_index r u) end%nat.
Definition Th_at (D : list nat) (M d q : nat) : nat -> nat -> R :=
  let uD := (0 :: np_unique D)%nat in
  let s0 := (find_index uD d - 1)%nat in
  let s1 := list_sum (firstn (s0 + 1) uD) in
  nth (s1 + q) (Th_list D M) (fun _ _ => 0).

(** ** FMMcheb *)
Definition buf := nat -> nat -> nat -> R.
Definition badd (b : buf) (lev n : nat) (f : nat -> R) : buf := fun l m k => if (Nat.eqb l lev && Nat.eqb m n)%bool then b l m k + f k else b l m k.
Definition bset (b : buf) (lev n M : nat) (f : nat -> R) : buf := fun l m k => if (Nat.eqb l lev && Nat.eqb m n && Nat.ltb k M)%bool then f k else b l m k.
Definition zbuf : buf := fun _ _ _ => 0.
Section Sweep.
  Variables (D : list nat) (s diags : nat).
  (** number of coefficients per level; size and entries of the low rank matrices, numbered in the order of getChebyshev *)
  Variables (Mmin Nk : nat -> nat) (A : nat -> nat -> nat -> R).
  (** TT[odd], Th[s1+q] and the even or odd coefficients of the input *)
  Variables (TT : nat -> nat -> R) (Th : nat -> nat -> nat -> nat -> R) (cia : nat -> R).
  Definition nL := List.length D.
  Definition dl (level : nat) := nth level D 0%nat.
  Definition nb (level : nat) := get_number_of_blocks level D.
  (** trans == 0, 783-787 *)
  Definition sweep_p (level b q p : nat) (st : nat * buf * buf) : nat * buf * buf :=
    let '(ik, wk, ck) := st in
    (S ik, wk, badd ck level (b * dl level + p) (mv (Nk ik) (Nk ik) (A ik) (wk level (b * dl level + q)%nat))).
  (** 776-781 *)
  Definition sweep_q (level b q : nat) (st : nat * buf * buf) : nat * buf * buf :=
    let '(ik, wk, ck) := st in
    let M0 := Mmin level in
    let wk := if Nat.eqb level (nL - 1) then bset wk level (b * dl level + q) M0 (mv_T s M0 TT (fun i => cia (get_j0 level b s D diags + (q + 1) * s + i)%nat)) else wk in
    let wk := if (Nat.ltb 0 level && Nat.ltb 0 b)%bool then
        let b0 := ((b - 1) / dl (level - 1))%nat in let q0 := ((b - 1) mod dl (level - 1))%nat in
        badd wk (level - 1) (b0 * dl (level - 1) + q0) (tri_lower M0 (Th (dl level) q) (wk level (b * dl level + q)%nat))
      else wk in
    for_up (q + 1) 0 (sweep_p level b q) (ik, wk, ck).
  (** 763-787 *)
  Definition sweep_level (level : nat) (st : nat * buf * buf) : nat * buf * buf :=
    for_up (nb level) 0 (fun b st => for_up (dl level) 0 (sweep_q level b) st) st.
  (** 789-799: c1[j1] gets the contribution of c0[block] *)
  Definition down_level (level : nat) (ck : buf) : buf :=
    snd (for_up (nb (level + 1) - 1) 0 (fun b st => for_up (dl (level + 1)) 0 (fun p st =>
      let '(j1, ck) := st in (S j1, badd ck (level + 1) j1 (tri_upper (Mmin level) (Mmin level) (fun i j => Th (dl (level + 1)) p j i) (ck level b)))) st) (0%nat, ck)).
  (** 801-807 *)
  Definition out_level (ck : buf) : nat -> R :=
    let level := (nL - 1)%nat in
    for_up (nb level) 0 (fun b coa => for_up (dl level) 0 (fun p coa i =>
      let r := (get_i0 level b s D + p * s)%nat in
      if (Nat.leb r i && Nat.ltb i (r + s))%bool then coa i + mv s (Mmin level) TT (ck level (b * dl level + p)%nat) (i - r) else coa i) coa) (fun _ => 0).
  (** 746-810 for one value of odd *)
  Definition sweep : nat -> R :=
    let '(_, _, ck) := for_down nL sweep_level (0%nat, zbuf, zbuf) in
    out_level (for_up (nL - 1) 0 down_level ck).

  (** trans == 1, 835-849 *)
  Definition sweepT_q (level b p q : nat) (st : nat * buf * buf) : nat * buf * buf :=
    let '(ik, wk, ck) := st in
    let M0 := Mmin level in
    let wk := if (Nat.eqb q p && Nat.eqb level (nL - 1))%bool then badd wk level (b * dl level + q) (mv_T s M0 TT (fun i => cia (get_i0 level b s D + q * s + i)%nat)) else wk in
    let wk := if (Nat.eqb q p && Nat.ltb 0 level && Nat.ltb b (nb level - 1))%bool then
        let b0 := (b / dl level)%nat in let q0 := (b mod dl level)%nat in
        badd wk (level - 1) (b0 * dl level + q0) (tri_lower M0 (Th (dl level) q) (wk level (b * dl level + q)%nat))
      else wk in
    (S ik, wk, badd ck level (b * dl level + p) (mv_T (Nk ik) (Nk ik) (A ik) (wk level (b * dl level + q)%nat))).
  Definition sweepT_level (level : nat) (st : nat * buf * buf) : nat * buf * buf :=
    for_up (nb level) 0 (fun b st => for_up (dl level) 0 (fun p st => for_up (p + 1) 0 (sweepT_q level b p) st) st) st.
  (** 851-860 *)
  Definition downT_level (level : nat) (ck : buf) : buf :=
    for_up (nb (level + 1) - 1) 1 (fun b ck => for_up (dl (level + 1)) 0 (fun p ck =>
      let b0 := ((b - 1) / dl level)%nat in let p0 := ((b - 1) mod dl level)%nat in
      badd ck (level + 1) (b * dl (level + 1) + p) (tri_upper (Mmin level) (Mmin level) (fun i j => Th (dl (level + 1)) p j i) (ck level (b0 * dl level + p0)%nat))) ck) ck.
  (** 862-870 *)
  Definition outT_level (ck : buf) : nat -> R :=
    let level := (nL - 1)%nat in
    for_up (nb level) 0 (fun b coa => for_up (dl level) 0 (fun p coa i =>
      let r := (get_j0 level b s D diags + (p + 1) * s)%nat in
      if (Nat.leb r i && Nat.ltb i (r + s))%bool then coa i + mv s (Mmin level) TT (ck level (b * dl level + p)%nat) (i - r) else coa i) coa) (fun _ => 0).
  Definition sweepT : nat -> R :=
    let '(_, _, ck) := for_down nL sweepT_level (0%nat, zbuf, zbuf) in
    outT_level (for_up (nL - 1) 0 downT_level ck).
End Sweep.
(** leg2chebm.pyx 121-124: T[odd][i] = chebvander(linspace(-1, 1, 2s+1)[:-1])[2i+odd] *)
Definition TT_at (s odd i k : nat) : R := peval (chebT k) (-1 + INR (2 * i + odd) / INR s).
(** 744-810, 812-870: both parities *)
Definition FMMcheb (N : nat) (D : list nat) (s diags : nat) (Mmin Nk : nat -> nat) (A : nat -> nat -> nat -> R) (trans : bool) (u : nat -> R) : nat -> R :=
  let Mmax := fold_right Nat.max 0%nat (map Mmin (seq 0 (List.length D))) in
  fun r => if Nat.ltb r N then
    let odd := (r mod 2)%nat in
    let cia := fun j => if Nat.ltb j (N / 2 + (N mod 2) * (1 - odd)) then u (2 * j + odd)%nat else 0 in
    (if trans then sweepT else sweep) D s diags Mmin Nk A (TT_at s odd) (Th_at D Mmax) cia (r / 2)%nat else 0.

(** ** the transforms with FMMcheb *)
(** leg2chebm.pyx 150-182 Leg2Cheb.__call__ and apply, N > use_direct *)
Definition Leg2Cheb_sweep (N : nat) (D : list nat) (s diags : nat) (Mmin Nk : nat -> nat) (A : nat -> nat -> nat -> R) (trans : bool) (u : nat -> R) : nat -> R :=
  let Nd := get_number_of_blocks (List.length D) D in
  let scale := fun f => let f := for_up N 0 (fun i f => upd f i (f i * (2 / PI))) f in upd f 0 (f 0%nat * / 2) in
  let u := if trans then scale u else u in
  let v := FMMcheb N D s diags Mmin Nk A trans u in
  let v := direct2 (2 * s) Nd (2 * diags) N trans Lam u v in
  let v := direct1_on diags N trans Lam u v in
  if trans then v else scale v.
(** leg2chebm.pyx 218-248 Cheb2Leg.__call__ and apply *)
Definition Cheb2Leg_sweep (N : nat) (D : list nat) (s diags : nat) (Mmin Nk : nat -> nat) (A : nat -> nat -> nat -> R) (v : nat -> R) : nat -> R :=
  let Nd := get_number_of_blocks (List.length D) D in
  let w0 := for_up (N - 1) 1 (fun i w => upd w i (w i * INR i)) v in
  let o := FMMcheb N D s diags Mmin Nk A false w0 in
  let o := direct3 (2 * s) Nd (2 * diags) N c2l_dn c2l_a w0 o in
  let o := direct4 diags N c2l_a c2l_dn w0 o in
  for_up N 0 (fun i c => upd c i (c i * (INR i + / 2))) o.
