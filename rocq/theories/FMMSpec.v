(** FMMSpec.v -- specification: how often an entry of the upper triangle is visited. *)
From Coq Require Import List Arith Bool.
Import ListNotations.
Local Open Scope nat_scope.

Definition how_many {A} (f : A -> bool) (l : list A) : nat := List.length (filter f l).
(** row i, column j lies in the square with corner (r, c) and side h *)
Definition in_square (i j : nat) (sq : nat * nat * nat) : bool :=
  let '(r, c, h) := sq in Nat.leb r i && Nat.ltb i (r + h) && Nat.leb c j && Nat.ltb j (c + h).
(** on one of the first d diagonals *)
Definition in_band (d i j : nat) : bool := Nat.leb i j && Nat.ltb j (i + d).
(** in the upper triangle of the k-th diagonal block of size s of the matrix shifted d columns to the right *)
Definition in_triangle (d s i j k : nat) : bool :=
  Nat.leb (k * s) i && Nat.ltb i (k * s + s) && Nat.leb (i + d) j && Nat.ltb j (d + k * s + s).
(** number of times the entry is visited by the band, the Nd triangles and the squares *)
Definition visits (d s Nd : nat) (squares : list (nat * nat * nat)) (i j : nat) : nat :=
  (if in_band d i j then 1 else 0) + how_many (in_triangle d s i j) (seq 0 Nd) + how_many (in_square i j) squares.
