(** FMMSweepSpec.v -- specification: the product with a list of square low rank submatrices. *)
From Coq Require Import Reals List Arith Bool.
From Verif Require Import Base RPoly FMMModel.
Import ListNotations.
Local Open Scope R_scope.

(** sum of f n x_n over the elements x_n of a list, n counted from ik *)
Fixpoint numbered_sum {X} (f : nat -> X -> R) (ik : nat) (l : list X) : R := match l with [] => 0 | x :: r => f ik x + numbered_sum f (S ik) r end.
(** the row with index x of a square of side h sits at 2 x + odd of 2 h points on [-1, 1) *)
Definition node (odd h x : nat) : R := -1 + INR (2 * x + odd) / INR h.
(** sum_kl a_kl T_k T_l at the nodes *)
Definition low_rank (odd h n : nat) (a : nat -> nat -> R) (x y : nat) : R :=
  gsum 0 Rplus n (fun k => gsum 0 Rplus n (fun l => a k l * peval (chebT k) (node odd h x) * peval (chebT l) (node odd h y))).
(** rows i of the product of all submatrices (first row, first column, side) with v; of the transposed ones *)
Definition product (sub : nat -> nat -> nat -> nat -> R) (squares : list (nat * nat * nat)) (v : nat -> R) (i : nat) : R :=
  numbered_sum (fun ik sq => let '(r, c, h) := sq in if (Nat.leb r i && Nat.ltb i (r + h))%bool then gsum 0 Rplus h (fun y => sub ik h (i - r)%nat y * v (c + y)%nat) else 0) 0 squares.
Definition product_T (sub : nat -> nat -> nat -> nat -> R) (squares : list (nat * nat * nat)) (v : nat -> R) (j : nat) : R :=
  numbered_sum (fun ik sq => let '(r, c, h) := sq in if (Nat.leb c j && Nat.ltb j (c + h))%bool then gsum 0 Rplus h (fun x => sub ik h x (j - c)%nat * v (r + x)%nat) else 0) 0 squares.

(** the submatrices n of size Nk n, coefficients A n, differ from the entries of a matrix K by at most eps inside an N x N matrix;
    (r, c, h) addresses the even (odd = 0) or odd (odd = 1) rows and columns *)
Definition accurate (N : nat) (squares : list (nat * nat * nat)) (Nk : nat -> nat) (A : nat -> nat -> nat -> R) (K : nat -> nat -> R) (eps : R) : Prop :=
  forall n r c h x y odd, nth_error squares n = Some (r, c, h) -> (x < h)%nat -> (y < h)%nat -> (odd < 2)%nat -> (2 * (r + x) + odd < N)%nat -> (2 * (c + y) + odd < N)%nat ->
  Rabs (low_rank odd h (Nk n) (A n) x y - K (2 * (r + x) + odd)%nat (2 * (c + y) + odd)%nat) <= eps.

(** the submatrices are numbered from the finest level (the last) to the coarsest; level l has level_count D l of them, after level_start D l others *)
Definition level_count (D : list nat) (l : nat) : nat := (get_number_of_blocks l D * (nth l D 0 * (nth l D 0 + 1) / 2))%nat.
Definition level_start (D : list nat) (l : nat) : nat := list_sum (map (level_count D) (seq (l + 1) (List.length D - (l + 1)))).
(** the number of coefficients does not decrease towards the finest level, and no submatrix is larger than the number of its level *)
Definition sizes_fit (D : list nat) (Mmin Nk : nat -> nat) : Prop :=
  (forall l, (l + 1 < List.length D)%nat -> (Mmin l <= Mmin (l + 1)))%nat /\
  (forall l n, (l < List.length D)%nat -> (level_start D l <= n < level_start D l + level_count D l)%nat -> (Nk n <= Mmin l)%nat).
