(** GenSpec.v -- what a generated matrix should hold. *)
From Coq Require Import Reals ZArith List Bool Arith.
From Verif Require Import Base Fld SparseModel SparseSpec RPoly StencilSpec JacobiModel GenModel.
Import ListNotations.
Local Open Scope R_scope.

(** a scalar product (p, q) of polynomials: an integral with a weight, or a quadrature rule *)
Definition is_form (f : poly -> poly -> R) : Prop :=
  (forall p p' q q', (forall x, peval p x = peval p' x) -> (forall x, peval q x = peval q' x) -> f p q = f p' q') /\
  (forall p q r, f (padd p q) r = f p r + f q r) /\ (forall c p q, f (pscale c p) q = c * f p q) /\
  (forall p q r, f p (padd q r) = f p q + f p r) /\ (forall c p q, f p (pscale c q) = c * f p q) /\
  (forall p q, f (pX p) q = f p (pX q)).
(** x^q p, and the product with a measure *)
Fixpoint xpow (q : nat) (p : poly) : poly := match q with O => p | S q => pX (xpow q p) end.
Definition times (m : option measure) (p : poly) : poly :=
  match m with None => p | Some m => fold_right (fun t r => padd (pscale (fst t) (xpow (snd t) p)) r) [] m end.
(** basis function j: row j of the stencil matrix, in the orthogonal polynomials P *)
Definition fn (P : nat -> poly) (g : gspace) (j : nat) : poly := pcomb (g_N g) (stencil g j) P.
(** boundary function j, in O orthogonal polynomials with the matrix S *)
Definition bfn (P : nat -> poly) (O : nat) (S : mat) (j : nat) : poly := pcomb O (S j) P.
(** the form with t derivatives on the test function, s on the trial function, and the measure *)
Definition form_entry (f : poly -> poly -> R) (m : option measure) (t s : nat) (v u : poly) : R := f (times m (dn t v)) (dn s u).

(** matrices of multiplication by x^q (C35) *)
Definition powers (P : nat -> poly) (Ax : nat -> mat) : Prop :=
  (forall q j x, x ^ q * peval (P j) x = rsum (j + q + 1) (fun i => Ax q i j * peval (P i) x)) /\
  (forall q i j, (j + q < i \/ i + q < j)%nat -> Ax q i j = 0).
(** matrices of multiplication of the k'th derivatives by x^q, and of integrating l times (C35) *)
Definition dpowers (P : nat -> poly) (k : nat) (am : nat -> mat) : Prop :=
  (forall j x, (j < k)%nat -> deriv_at k (P j) x = 0) /\
  (forall q j x, (k <= j)%nat -> x ^ q * deriv_at k (P j) x = rsum (j - k + q + 1) (fun i => am q (k + i)%nat j * deriv_at k (P (k + i)%nat) x)) /\
  (forall q i j, (k <= i)%nat -> (k <= j)%nat -> (j + q < i \/ i + q < j)%nat -> am q i j = 0).
Definition integrates (P : nat -> poly) (bm : nat -> mat) : Prop :=
  (forall l j x, peval (P j) x = rsum (j + l + 1) (fun i => bm l i j * deriv_at l (P i) x)) /\
  (forall l i j, (j + l < i \/ i + l < j)%nat -> bm l i j = 0).
(** the test functions are dual to the k'th derivatives: (Q_n^(k), phi_m) = 1 for n = m + k and 0 otherwise *)
Definition dual (f : poly -> poly -> R) (P phi : nat -> poly) (k dim : nat) : Prop :=
  forall n m, (m < dim)%nat -> f (dn k (P n)) (phi m) = if (n =? m + k)%nat then 1 else 0.
(** stencil with keys; dim + largest key does not exceed N *)
Definition wf_space (g : gspace) : Prop := (g_dim g <= g_N g)%nat /\ keys g <> [].
(** Jacobi polynomials scaled by g_n *)
Definition jacQ (g : nat -> R) (a b : R) (n : nat) : poly := pscale (g n) (jacP a b n).
