(** FMMModel.v -- the hierarchical decomposition behind Leg2Cheb and Cheb2Leg for N > use_direct:
    legendre/dlt.py, optimization/cython/leg2chebm.pyx and transforms.pyx.

    One line of the array, exact real arithmetic.  FMMcheb replaces every submatrix by a matrix of low
    rank; here a submatrix holds the entries of the conversion matrix themselves (the functions Mxy, Lxy of
    dlt.py 348-349), so that what is left is the bookkeeping: which entry is handled by which part. *)
From Coq Require Import Reals List Arith Bool.
From Verif Require Import Base RPoly Leg2ChebModel.
Import ListNotations.
Local Open Scope nat_scope.

(** ** sizes *)
(** dlt.py 962-964, transforms.pyx 379-386: prod(D[level+1:]) *)
Definition get_h (level : nat) (D : list nat) : nat := fold_right Nat.mul 1 (skipn (level + 1) D).
(** dlt.py 966-968: 1 + sum(cumprod(flip(D[:level]))), transforms.pyx 388-399 *)
Fixpoint cumprod (acc : nat) (l : list nat) : list nat := match l with [] => [] | d :: r => (acc * d) :: cumprod (acc * d) r end.
Definition get_number_of_blocks (level : nat) (D : list nat) : nat := 1 + list_sum (cumprod 1 (rev (firstn level D))).
(** dlt.py 955-960, transforms.pyx 409-415 *)
Definition get_i0 (level block s : nat) (D : list nat) : nat := block * nth level D 0 * s * get_h level D.
Definition get_j0 (level block s : nat) (D : list nat) (diags : nat) : nat :=
  diags + get_i0 level block s D + list_sum (map (fun i => s * get_h i D) (seq (level + 1) (List.length D - (level + 1)))).
(** leg2chebm.pyx 92-101: the block size s and the padded size Nn *)
Definition padded (N diags Nd : nat) : nat * nat :=
  let s := (N / 2 - diags) / Nd in let rest := (N / 2 - diags) mod Nd in
  if (Nat.ltb 0 rest || Nat.eqb (N mod 2) 1)%bool then (s + 1, 2 * (diags + (s + 1) * Nd)) else (s, N).
(** dlt.py 883-892: s = ceil(N/(2 (1+Nb))), Nn = 2 s (1+Nb), diags = s *)
Definition padded_py (N Nb : nat) : nat * nat :=
  let s := (N + (2 * (1 + Nb) - 1)) / (2 * (1 + Nb)) in (s, 2 * s * (1 + Nb)).

(** ** the submatrices, transforms.pyx 765-794: (first row, first column, size) in the arrays of the even or odd coefficients;
    dlt.py 819-822 evaluates the function on the same square (in the doubled indices) *)
Definition submatrices (D : list nat) (s diags : nat) : list (nat * nat * nat) :=
  flat_map (fun level =>
    let h := s * get_h level D in
    flat_map (fun block =>
      flat_map (fun q => map (fun p => (get_i0 level block s D + p * h, get_j0 level block s D diags + (q + 1) * h, h)) (seq 0 (q + 1)))
        (seq 0 (nth level D 0)))
      (seq 0 (get_number_of_blocks level D)))
    (rev (seq 0 (List.length D))).

Local Open Scope R_scope.
(** FMMcheb with the entries K x y of the square submatrices, x = 2 i + odd, y = 2 j + odd; the arrays have Nn/2 entries, zeros beyond the input *)
Definition fmm_half (N : nat) (D : list nat) (s diags : nat) (K : nat -> nat -> R) (u : nat -> R) (odd i : nat) : R :=
  let cia := fun j => if Nat.ltb j (N / 2 + (N mod 2) * (1 - odd)) then u (2 * j + odd)%nat else 0 in
  fold_right Rplus 0 (map (fun sub => match sub with (r, c, h) =>
     if (Nat.leb r i && Nat.ltb i (r + h))%bool then gsum 0 Rplus h (fun jj => K (2 * i + odd)%nat (2 * (c + jj) + odd)%nat * cia (c + jj)%nat) else 0 end) (submatrices D s diags)).
Definition fmm_cheb (N : nat) (D : list nat) (s diags : nat) (K : nat -> nat -> R) (u : nat -> R) : nat -> R :=
  fun r => if Nat.ltb r N then fmm_half N D s diags K u (r mod 2) (r / 2) else 0.
(** the transposed product: rows and columns change places *)
Definition fmm_half_T (N : nat) (D : list nat) (s diags : nat) (K : nat -> nat -> R) (u : nat -> R) (odd j : nat) : R :=
  let cia := fun i => if Nat.ltb i (N / 2 + (N mod 2) * (1 - odd)) then u (2 * i + odd)%nat else 0 in
  fold_right Rplus 0 (map (fun sub => match sub with (r, c, h) =>
     if (Nat.leb c j && Nat.ltb j (c + h))%bool then gsum 0 Rplus h (fun ii => K (2 * (r + ii) + odd)%nat (2 * j + odd)%nat * cia (r + ii)%nat) else 0 end) (submatrices D s diags)).
Definition fmm_cheb_T (N : nat) (D : list nat) (s diags : nat) (K : nat -> nat -> R) (u : nat -> R) : nat -> R :=
  fun r => if Nat.ltb r N then fmm_half_T N D s diags K u (r mod 2) (r / 2) else 0.

(** transforms.pyx 962-999 FMMdirect2: Nd triangles next to the diagonal *)
Definition direct2 (h Nd n0 N : nat) (trans : bool) (a u v : nat -> R) : nat -> R :=
  for_up Nd 0 (fun k v => for_up (h / 2) 0 (fun m v =>
    let n := (2 * m)%nat in let i0 := (k * h)%nat in let j0 := (n0 + i0)%nat in let n1 := ((n + n0) / 2)%nat in
    for_up (Nat.min (N - (j0 + n)) (h - n)) 0 (fun j v =>
      if trans then upd v (j0 + n + j) (v (j0 + n + j)%nat + a n1 * a (i0 + n1 + j)%nat * u (i0 + j)%nat)
      else upd v (i0 + j) (v (i0 + j)%nat + a n1 * a (i0 + n1 + j)%nat * u (j0 + n + j)%nat)) v) v) v.
(** transforms.pyx 1024-1055 FMMdirect3 *)
Definition direct3 (h Nd n0 N : nat) (dn a u v : nat -> R) : nat -> R :=
  for_up Nd 0 (fun k v => for_up (h / 2) 0 (fun m v =>
    let n := (2 * m)%nat in let i0 := (k * h)%nat in let j0 := (n0 + i0)%nat in let n1 := ((n + n0) / 2)%nat in
    for_up (Nat.min (N - (j0 + n)) (h - n)) 0 (fun j v => upd v (i0 + j) (v (i0 + j)%nat - dn n1 * a (i0 + n1 + j)%nat * u (j0 + n + j)%nat)) v) v) v.
(** FMMdirect1 as in Leg2ChebModel, on an array v *)
Definition direct1_on (n0 N : nat) (trans : bool) (a u v : nat -> R) : nat -> R :=
  if trans then for_up n0 0 (fun h v => for_up (N - 2 * h) 0 (fun i v => upd v (i + 2 * h) (v (i + 2 * h)%nat + a h * a (h + i)%nat * u i)) v) v
  else for_up n0 0 (fun h v => for_up (N - 2 * h) 0 (fun i v => upd v i (v i + a h * a (h + i)%nat * u (2 * h + i)%nat)) v) v.

(** dlt.py 348-349 at x = r, y = r + 2 h *)
Definition Mxy (x y : nat) : R := Lam ((y - x) / 2) * Lam ((y + x) / 2).
(** Lambda(k - 1/2) = Gamma(k) / Gamma(k + 1/2) = 1 / (k Lambda(k)), k >= 1 *)
Definition LamH (k : nat) : R := / (INR k * Lam k).
Definition Lxy (x y : nat) : R := - 1 / INR (x + y + 1) / INR (y - x) * Lam ((y - x - 2) / 2) * LamH ((y + x) / 2).

(** leg2chebm.pyx 150-182 Leg2Cheb.__call__ and apply, N > use_direct *)
Definition Leg2Cheb_fmm (N : nat) (D : list nat) (s diags : nat) (trans : bool) (u : nat -> R) : nat -> R :=
  let Nd := get_number_of_blocks (List.length D) D in
  let scale := fun f => let f := for_up N 0 (fun i f => upd f i (f i * (2 / PI))) f in upd f 0 (f 0%nat * / 2) in
  let u := if trans then scale u else u in
  let v := if trans then fmm_cheb_T N D s diags Mxy u else fmm_cheb N D s diags Mxy u in
  let v := direct2 (2 * s) Nd (2 * diags) N trans Lam u v in
  let v := direct1_on diags N trans Lam u v in
  if trans then v else scale v.
(** leg2chebm.pyx 218-248 Cheb2Leg.__call__ and apply *)
Definition Cheb2Leg_fmm (N : nat) (D : list nat) (s diags : nat) (v : nat -> R) : nat -> R :=
  let Nd := get_number_of_blocks (List.length D) D in
  let w0 := for_up (N - 1) 1 (fun i w => upd w i (w i * INR i)) v in
  let o := fmm_cheb N D s diags Lxy w0 in
  let o := direct3 (2 * s) Nd (2 * diags) N c2l_dn c2l_a w0 o in
  let o := direct4 diags N c2l_a c2l_dn w0 o in
  for_up N 0 (fun i c => upd c i (c i * (INR i + / 2))) o.
