(** ChebQuadModel.v -- the quadrature points and weights of the Chebyshev family. *)
From Coq Require Import Reals List Arith.
From Verif Require Import Base LegMatrixModel.
Import ListNotations.
Local Open Scope R_scope.

(** chebyshev/bases.py 202-216 points_and_weights(N, weighted=True) on the reference domain.
    GL: numpy's chebpts2(N) is cos(linspace(-pi, 0, N)), the points are its negative.
    GC (written LG): numpy's chebgauss(N) has the points cos(pi (2 i + 1) / (2 N)) and weights pi / N. *)
Definition cheb_point (q : quad) (N i : nat) : R :=
  match q with
  | GL => - cos (- PI + INR i * (PI / INR (N - 1)))
  | LG => cos (PI * INR (2 * i + 1) / (2 * INR N))
  end.
Definition cheb_weight (q : quad) (N i : nat) : R :=
  match q with
  | GL => let w := PI / INR (N - 1) in
          let w0 := if Nat.eqb i 0 then w / 2 else w in
          if Nat.eqb i (N - 1) then w0 / 2 else w0
  | LG => PI / INR N
  end.
Definition cheb_rule (q : quad) (N : nat) : list (R * R) := map (fun i => (cheb_point q N i, cheb_weight q N i)) (seq 0 N).
