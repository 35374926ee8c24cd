(** StencilProofs5a.v -- the cancellation behind the Jacobi stencils Phi1 .. Phi4: the sums that
    have to vanish at the two ends, with all Gamma functions and factorials cancelled
    (A = a + x, B = b + x, y = a + b + 2 x, d = a - b; in y, d, x the denominators are
    polynomials in one variable, which keeps the kernel's work small). *)
From Coq Require Import Reals Lra List.
Import ListNotations.
Local Open Scope R_scope.

Definition phi1_L0 (a b x y A B : R) : list R :=
  [(1 * (A + 1)) / ((y + 2));
   ((-1) * 1 * (B + 2)) / ((y + 4));
   (1 * (a - b) * (y + 3) * (-1)) / ((y + 2) * (y + 4))].

Lemma phi1_L0_zero a b x y d A B : -2 < y -> a = (y + d) / 2 - x -> b = (y - d) / 2 - x -> A = (y + d) / 2 -> B = (y - d) / 2 ->
  fold_right Rplus 0 (phi1_L0 a b x y A B) = 0.
Proof. intros Hy -> -> -> ->. cbn [fold_right phi1_L0]. field. lra. Qed.

Definition phi1_R0 (a b x y A B : R) : list R :=
  [(1 * (B + 1)) / ((y + 2));
   ((-1) * 1 * (A + 2)) / ((y + 4));
   (1 * (a - b) * (y + 3)) / ((y + 2) * (y + 4))].

Lemma phi1_R0_zero a b x y d A B : -2 < y -> a = (y + d) / 2 - x -> b = (y - d) / 2 - x -> A = (y + d) / 2 -> B = (y - d) / 2 ->
  fold_right Rplus 0 (phi1_R0 a b x y A B) = 0.
Proof. intros Hy -> -> -> ->. cbn [fold_right phi1_R0]. field. lra. Qed.

Definition phi2_L0 (a b x y A B : R) : list R :=
  [(2 * (A + 1) * (A + 2)) / ((y + 2) * (y + 3) * (y + 4));
   (2 * (y + 5) * ((((((((((a ^ 2) - ((4 * a) * b)) - ((2 * a) * x)) - (5 * a)) + (b ^ 2)) - ((2 * b) * x)) - (5 * b)) - (2 * (x ^ 2))) - (10 * x)) - 12)) / ((y + 3) * (y + 4) * (y + 6) * (y + 7));
   (2 * (B + 3) * (B + 4)) / ((y + 6) * (y + 7) * (y + 8));
   (4 * (a - b) * (-1) * (A + 2)) / ((y + 2) * (y + 4) * (y + 6));
   ((-1) * 4 * (a - b) * (-1) * (B + 3)) / ((y + 4) * (y + 6) * (y + 8))].

Lemma phi2_L0_zero a b x y d A B : -2 < y -> a = (y + d) / 2 - x -> b = (y - d) / 2 - x -> A = (y + d) / 2 -> B = (y - d) / 2 ->
  fold_right Rplus 0 (phi2_L0 a b x y A B) = 0.
Proof. intros Hy -> -> -> ->. cbn [fold_right phi2_L0]. field. lra. Qed.

Definition phi2_L1 (a b x y A B : R) : list R :=
  [(2 * (A + 1) * (A + 2) * (x + 0) * (x + 0 + b + a + 1)) / ((y + 2) * (y + 3) * (y + 4));
   (2 * (y + 5) * ((((((((((a ^ 2) - ((4 * a) * b)) - ((2 * a) * x)) - (5 * a)) + (b ^ 2)) - ((2 * b) * x)) - (5 * b)) - (2 * (x ^ 2))) - (10 * x)) - 12) * (x + 2) * (x + 2 + b + a + 1)) / ((y + 3) * (y + 4) * (y + 6) * (y + 7));
   (2 * (B + 3) * (B + 4) * (x + 4) * (x + 4 + b + a + 1)) / ((y + 6) * (y + 7) * (y + 8));
   (4 * (a - b) * (-1) * (A + 2) * (x + 1) * (x + 1 + b + a + 1)) / ((y + 2) * (y + 4) * (y + 6));
   ((-1) * 4 * (a - b) * (-1) * (B + 3) * (x + 3) * (x + 3 + b + a + 1)) / ((y + 4) * (y + 6) * (y + 8))].

Lemma phi2_L1_zero a b x y d A B : -2 < y -> a = (y + d) / 2 - x -> b = (y - d) / 2 - x -> A = (y + d) / 2 -> B = (y - d) / 2 ->
  fold_right Rplus 0 (phi2_L1 a b x y A B) = 0.
Proof. intros Hy -> -> -> ->. cbn [fold_right phi2_L1]. field. lra. Qed.

Definition phi2_R0 (a b x y A B : R) : list R :=
  [(2 * (B + 1) * (B + 2)) / ((y + 2) * (y + 3) * (y + 4));
   (2 * (y + 5) * ((((((((((a ^ 2) - ((4 * a) * b)) - ((2 * a) * x)) - (5 * a)) + (b ^ 2)) - ((2 * b) * x)) - (5 * b)) - (2 * (x ^ 2))) - (10 * x)) - 12)) / ((y + 3) * (y + 4) * (y + 6) * (y + 7));
   (2 * (A + 3) * (A + 4)) / ((y + 6) * (y + 7) * (y + 8));
   (4 * (a - b) * (B + 2)) / ((y + 2) * (y + 4) * (y + 6));
   ((-1) * 4 * (a - b) * (A + 3)) / ((y + 4) * (y + 6) * (y + 8))].

Lemma phi2_R0_zero a b x y d A B : -2 < y -> a = (y + d) / 2 - x -> b = (y - d) / 2 - x -> A = (y + d) / 2 -> B = (y - d) / 2 ->
  fold_right Rplus 0 (phi2_R0 a b x y A B) = 0.
Proof. intros Hy -> -> -> ->. cbn [fold_right phi2_R0]. field. lra. Qed.

Definition phi2_R1 (a b x y A B : R) : list R :=
  [(2 * (B + 1) * (B + 2) * (x + 0) * (x + 0 + a + b + 1)) / ((y + 2) * (y + 3) * (y + 4));
   (2 * (y + 5) * ((((((((((a ^ 2) - ((4 * a) * b)) - ((2 * a) * x)) - (5 * a)) + (b ^ 2)) - ((2 * b) * x)) - (5 * b)) - (2 * (x ^ 2))) - (10 * x)) - 12) * (x + 2) * (x + 2 + a + b + 1)) / ((y + 3) * (y + 4) * (y + 6) * (y + 7));
   (2 * (A + 3) * (A + 4) * (x + 4) * (x + 4 + a + b + 1)) / ((y + 6) * (y + 7) * (y + 8));
   (4 * (a - b) * (B + 2) * (x + 1) * (x + 1 + a + b + 1)) / ((y + 2) * (y + 4) * (y + 6));
   ((-1) * 4 * (a - b) * (A + 3) * (x + 3) * (x + 3 + a + b + 1)) / ((y + 4) * (y + 6) * (y + 8))].

Lemma phi2_R1_zero a b x y d A B : -2 < y -> a = (y + d) / 2 - x -> b = (y - d) / 2 - x -> A = (y + d) / 2 -> B = (y - d) / 2 ->
  fold_right Rplus 0 (phi2_R1 a b x y A B) = 0.
Proof. intros Hy -> -> -> ->. cbn [fold_right phi2_R1]. field. lra. Qed.

Definition phi3_L0 (a b x y A B : R) : list R :=
  [(4 * (A + 1) * (A + 2) * (A + 3)) / ((y + 2) * (y + 3) * (y + 4) * (y + 5) * (y + 6));
   (3 * 4 * ((((((((((a ^ 2) - ((3 * a) * b)) - (a * x)) - (3 * a)) + (b ^ 2)) - (b * x)) - (3 * b)) - (x ^ 2)) - (6 * x)) - 8) * (A + 3)) / ((y + 3) * (y + 4) * (y + 6) * (y + 8) * (y + 9));
   (3 * 4 * ((((((((((- (a ^ 2)) + ((3 * a) * b)) + (a * x)) + (4 * a)) - (b ^ 2)) + (b * x)) + (4 * b)) + (x ^ 2)) + (8 * x)) + 15) * (B + 4)) / ((y + 5) * (y + 6) * (y + 8) * (y + 10) * (y + 11));
   ((-1) * 4 * (B + 4) * (B + 5) * (B + 6)) / ((y + 8) * (y + 9) * (y + 10) * (y + 11) * (y + 12));
   (3 * 4 * (a - b) * (-1) * (A + 2) * (A + 3)) / ((y + 2) * (y + 4) * (y + 5) * (y + 6) * (y + 8));
   (4 * (a - b) * (y + 7) * ((((((((((a ^ 2) - ((8 * a) * b)) - ((6 * a) * x)) - (21 * a)) + (b ^ 2)) - ((6 * b) * x)) - (21 * b)) - (6 * (x ^ 2))) - (42 * x)) - 70) * (-1)) / ((y + 4) * (y + 5) * (y + 6) * (y + 8) * (y + 9) * (y + 10));
   (3 * 4 * (a - b) * (-1) * (B + 4) * (B + 5)) / ((y + 6) * (y + 8) * (y + 9) * (y + 10) * (y + 12))].

Lemma phi3_L0_zero a b x y d A B : -2 < y -> a = (y + d) / 2 - x -> b = (y - d) / 2 - x -> A = (y + d) / 2 -> B = (y - d) / 2 ->
  fold_right Rplus 0 (phi3_L0 a b x y A B) = 0.
Proof. intros Hy -> -> -> ->. cbn [fold_right phi3_L0]. field. lra. Qed.

Definition phi3_L1 (a b x y A B : R) : list R :=
  [(4 * (A + 1) * (A + 2) * (A + 3) * (x + 0) * (x + 0 + b + a + 1)) / ((y + 2) * (y + 3) * (y + 4) * (y + 5) * (y + 6));
   (3 * 4 * ((((((((((a ^ 2) - ((3 * a) * b)) - (a * x)) - (3 * a)) + (b ^ 2)) - (b * x)) - (3 * b)) - (x ^ 2)) - (6 * x)) - 8) * (A + 3) * (x + 2) * (x + 2 + b + a + 1)) / ((y + 3) * (y + 4) * (y + 6) * (y + 8) * (y + 9));
   (3 * 4 * ((((((((((- (a ^ 2)) + ((3 * a) * b)) + (a * x)) + (4 * a)) - (b ^ 2)) + (b * x)) + (4 * b)) + (x ^ 2)) + (8 * x)) + 15) * (B + 4) * (x + 4) * (x + 4 + b + a + 1)) / ((y + 5) * (y + 6) * (y + 8) * (y + 10) * (y + 11));
   ((-1) * 4 * (B + 4) * (B + 5) * (B + 6) * (x + 6) * (x + 6 + b + a + 1)) / ((y + 8) * (y + 9) * (y + 10) * (y + 11) * (y + 12));
   (3 * 4 * (a - b) * (-1) * (A + 2) * (A + 3) * (x + 1) * (x + 1 + b + a + 1)) / ((y + 2) * (y + 4) * (y + 5) * (y + 6) * (y + 8));
   (4 * (a - b) * (y + 7) * ((((((((((a ^ 2) - ((8 * a) * b)) - ((6 * a) * x)) - (21 * a)) + (b ^ 2)) - ((6 * b) * x)) - (21 * b)) - (6 * (x ^ 2))) - (42 * x)) - 70) * (-1) * (x + 3) * (x + 3 + b + a + 1)) / ((y + 4) * (y + 5) * (y + 6) * (y + 8) * (y + 9) * (y + 10));
   (3 * 4 * (a - b) * (-1) * (B + 4) * (B + 5) * (x + 5) * (x + 5 + b + a + 1)) / ((y + 6) * (y + 8) * (y + 9) * (y + 10) * (y + 12))].

Lemma phi3_L1_zero a b x y d A B : -2 < y -> a = (y + d) / 2 - x -> b = (y - d) / 2 - x -> A = (y + d) / 2 -> B = (y - d) / 2 ->
  fold_right Rplus 0 (phi3_L1 a b x y A B) = 0.
Proof. intros Hy -> -> -> ->. cbn [fold_right phi3_L1]. field. lra. Qed.

Definition phi3_L2 (a b x y A B : R) : list R :=
  [(4 * (A + 1) * (A + 2) * (A + 3) * (x + 0) * (x + 0 - 1) * (x + 0 + b + a + 1) * (x + 0 + b + a + 2)) / ((y + 2) * (y + 3) * (y + 4) * (y + 5) * (y + 6));
   (3 * 4 * ((((((((((a ^ 2) - ((3 * a) * b)) - (a * x)) - (3 * a)) + (b ^ 2)) - (b * x)) - (3 * b)) - (x ^ 2)) - (6 * x)) - 8) * (A + 3) * (x + 2) * (x + 2 - 1) * (x + 2 + b + a + 1) * (x + 2 + b + a + 2)) / ((y + 3) * (y + 4) * (y + 6) * (y + 8) * (y + 9));
   (3 * 4 * ((((((((((- (a ^ 2)) + ((3 * a) * b)) + (a * x)) + (4 * a)) - (b ^ 2)) + (b * x)) + (4 * b)) + (x ^ 2)) + (8 * x)) + 15) * (B + 4) * (x + 4) * (x + 4 - 1) * (x + 4 + b + a + 1) * (x + 4 + b + a + 2)) / ((y + 5) * (y + 6) * (y + 8) * (y + 10) * (y + 11));
   ((-1) * 4 * (B + 4) * (B + 5) * (B + 6) * (x + 6) * (x + 6 - 1) * (x + 6 + b + a + 1) * (x + 6 + b + a + 2)) / ((y + 8) * (y + 9) * (y + 10) * (y + 11) * (y + 12));
   (3 * 4 * (a - b) * (-1) * (A + 2) * (A + 3) * (x + 1) * (x + 1 - 1) * (x + 1 + b + a + 1) * (x + 1 + b + a + 2)) / ((y + 2) * (y + 4) * (y + 5) * (y + 6) * (y + 8));
   (4 * (a - b) * (y + 7) * ((((((((((a ^ 2) - ((8 * a) * b)) - ((6 * a) * x)) - (21 * a)) + (b ^ 2)) - ((6 * b) * x)) - (21 * b)) - (6 * (x ^ 2))) - (42 * x)) - 70) * (-1) * (x + 3) * (x + 3 - 1) * (x + 3 + b + a + 1) * (x + 3 + b + a + 2)) / ((y + 4) * (y + 5) * (y + 6) * (y + 8) * (y + 9) * (y + 10));
   (3 * 4 * (a - b) * (-1) * (B + 4) * (B + 5) * (x + 5) * (x + 5 - 1) * (x + 5 + b + a + 1) * (x + 5 + b + a + 2)) / ((y + 6) * (y + 8) * (y + 9) * (y + 10) * (y + 12))].

Lemma phi3_L2_zero a b x y d A B : -2 < y -> a = (y + d) / 2 - x -> b = (y - d) / 2 - x -> A = (y + d) / 2 -> B = (y - d) / 2 ->
  fold_right Rplus 0 (phi3_L2 a b x y A B) = 0.
Proof. intros Hy -> -> -> ->. cbn [fold_right phi3_L2]. field. lra. Qed.

Definition phi3_R0 (a b x y A B : R) : list R :=
  [(4 * (B + 1) * (B + 2) * (B + 3)) / ((y + 2) * (y + 3) * (y + 4) * (y + 5) * (y + 6));
   (3 * 4 * ((((((((((a ^ 2) - ((3 * a) * b)) - (a * x)) - (3 * a)) + (b ^ 2)) - (b * x)) - (3 * b)) - (x ^ 2)) - (6 * x)) - 8) * (B + 3)) / ((y + 3) * (y + 4) * (y + 6) * (y + 8) * (y + 9));
   (3 * 4 * ((((((((((- (a ^ 2)) + ((3 * a) * b)) + (a * x)) + (4 * a)) - (b ^ 2)) + (b * x)) + (4 * b)) + (x ^ 2)) + (8 * x)) + 15) * (A + 4)) / ((y + 5) * (y + 6) * (y + 8) * (y + 10) * (y + 11));
   ((-1) * 4 * (A + 4) * (A + 5) * (A + 6)) / ((y + 8) * (y + 9) * (y + 10) * (y + 11) * (y + 12));
   (3 * 4 * (a - b) * (B + 2) * (B + 3)) / ((y + 2) * (y + 4) * (y + 5) * (y + 6) * (y + 8));
   (4 * (a - b) * (y + 7) * ((((((((((a ^ 2) - ((8 * a) * b)) - ((6 * a) * x)) - (21 * a)) + (b ^ 2)) - ((6 * b) * x)) - (21 * b)) - (6 * (x ^ 2))) - (42 * x)) - 70)) / ((y + 4) * (y + 5) * (y + 6) * (y + 8) * (y + 9) * (y + 10));
   (3 * 4 * (a - b) * (A + 4) * (A + 5)) / ((y + 6) * (y + 8) * (y + 9) * (y + 10) * (y + 12))].

Lemma phi3_R0_zero a b x y d A B : -2 < y -> a = (y + d) / 2 - x -> b = (y - d) / 2 - x -> A = (y + d) / 2 -> B = (y - d) / 2 ->
  fold_right Rplus 0 (phi3_R0 a b x y A B) = 0.
Proof. intros Hy -> -> -> ->. cbn [fold_right phi3_R0]. field. lra. Qed.

Definition phi3_R1 (a b x y A B : R) : list R :=
  [(4 * (B + 1) * (B + 2) * (B + 3) * (x + 0) * (x + 0 + a + b + 1)) / ((y + 2) * (y + 3) * (y + 4) * (y + 5) * (y + 6));
   (3 * 4 * ((((((((((a ^ 2) - ((3 * a) * b)) - (a * x)) - (3 * a)) + (b ^ 2)) - (b * x)) - (3 * b)) - (x ^ 2)) - (6 * x)) - 8) * (B + 3) * (x + 2) * (x + 2 + a + b + 1)) / ((y + 3) * (y + 4) * (y + 6) * (y + 8) * (y + 9));
   (3 * 4 * ((((((((((- (a ^ 2)) + ((3 * a) * b)) + (a * x)) + (4 * a)) - (b ^ 2)) + (b * x)) + (4 * b)) + (x ^ 2)) + (8 * x)) + 15) * (A + 4) * (x + 4) * (x + 4 + a + b + 1)) / ((y + 5) * (y + 6) * (y + 8) * (y + 10) * (y + 11));
   ((-1) * 4 * (A + 4) * (A + 5) * (A + 6) * (x + 6) * (x + 6 + a + b + 1)) / ((y + 8) * (y + 9) * (y + 10) * (y + 11) * (y + 12));
   (3 * 4 * (a - b) * (B + 2) * (B + 3) * (x + 1) * (x + 1 + a + b + 1)) / ((y + 2) * (y + 4) * (y + 5) * (y + 6) * (y + 8));
   (4 * (a - b) * (y + 7) * ((((((((((a ^ 2) - ((8 * a) * b)) - ((6 * a) * x)) - (21 * a)) + (b ^ 2)) - ((6 * b) * x)) - (21 * b)) - (6 * (x ^ 2))) - (42 * x)) - 70) * (x + 3) * (x + 3 + a + b + 1)) / ((y + 4) * (y + 5) * (y + 6) * (y + 8) * (y + 9) * (y + 10));
   (3 * 4 * (a - b) * (A + 4) * (A + 5) * (x + 5) * (x + 5 + a + b + 1)) / ((y + 6) * (y + 8) * (y + 9) * (y + 10) * (y + 12))].

Lemma phi3_R1_zero a b x y d A B : -2 < y -> a = (y + d) / 2 - x -> b = (y - d) / 2 - x -> A = (y + d) / 2 -> B = (y - d) / 2 ->
  fold_right Rplus 0 (phi3_R1 a b x y A B) = 0.
Proof. intros Hy -> -> -> ->. cbn [fold_right phi3_R1]. field. lra. Qed.

Definition phi3_R2 (a b x y A B : R) : list R :=
  [(4 * (B + 1) * (B + 2) * (B + 3) * (x + 0) * (x + 0 - 1) * (x + 0 + a + b + 1) * (x + 0 + a + b + 2)) / ((y + 2) * (y + 3) * (y + 4) * (y + 5) * (y + 6));
   (3 * 4 * ((((((((((a ^ 2) - ((3 * a) * b)) - (a * x)) - (3 * a)) + (b ^ 2)) - (b * x)) - (3 * b)) - (x ^ 2)) - (6 * x)) - 8) * (B + 3) * (x + 2) * (x + 2 - 1) * (x + 2 + a + b + 1) * (x + 2 + a + b + 2)) / ((y + 3) * (y + 4) * (y + 6) * (y + 8) * (y + 9));
   (3 * 4 * ((((((((((- (a ^ 2)) + ((3 * a) * b)) + (a * x)) + (4 * a)) - (b ^ 2)) + (b * x)) + (4 * b)) + (x ^ 2)) + (8 * x)) + 15) * (A + 4) * (x + 4) * (x + 4 - 1) * (x + 4 + a + b + 1) * (x + 4 + a + b + 2)) / ((y + 5) * (y + 6) * (y + 8) * (y + 10) * (y + 11));
   ((-1) * 4 * (A + 4) * (A + 5) * (A + 6) * (x + 6) * (x + 6 - 1) * (x + 6 + a + b + 1) * (x + 6 + a + b + 2)) / ((y + 8) * (y + 9) * (y + 10) * (y + 11) * (y + 12));
   (3 * 4 * (a - b) * (B + 2) * (B + 3) * (x + 1) * (x + 1 - 1) * (x + 1 + a + b + 1) * (x + 1 + a + b + 2)) / ((y + 2) * (y + 4) * (y + 5) * (y + 6) * (y + 8));
   (4 * (a - b) * (y + 7) * ((((((((((a ^ 2) - ((8 * a) * b)) - ((6 * a) * x)) - (21 * a)) + (b ^ 2)) - ((6 * b) * x)) - (21 * b)) - (6 * (x ^ 2))) - (42 * x)) - 70) * (x + 3) * (x + 3 - 1) * (x + 3 + a + b + 1) * (x + 3 + a + b + 2)) / ((y + 4) * (y + 5) * (y + 6) * (y + 8) * (y + 9) * (y + 10));
   (3 * 4 * (a - b) * (A + 4) * (A + 5) * (x + 5) * (x + 5 - 1) * (x + 5 + a + b + 1) * (x + 5 + a + b + 2)) / ((y + 6) * (y + 8) * (y + 9) * (y + 10) * (y + 12))].

Lemma phi3_R2_zero a b x y d A B : -2 < y -> a = (y + d) / 2 - x -> b = (y - d) / 2 - x -> A = (y + d) / 2 -> B = (y - d) / 2 ->
  fold_right Rplus 0 (phi3_R2 a b x y A B) = 0.
Proof. intros Hy -> -> -> ->. cbn [fold_right phi3_R2]. field. lra. Qed.

Definition phi4_L0 (a b x y A B : R) : list R :=
  [(8 * (A + 1) * (A + 2) * (A + 3) * (A + 4)) / ((y + 2) * (y + 3) * (y + 4) * (y + 5) * (y + 6) * (y + 7) * (y + 8));
   (16 * ((((((((((3 * (a ^ 2)) - ((8 * a) * b)) - ((2 * a) * x)) - (7 * a)) + (3 * (b ^ 2))) - ((2 * b) * x)) - (7 * b)) - (2 * (x ^ 2))) - (14 * x)) - 20) * (A + 3) * (A + 4)) / ((y + 3) * (y + 4) * (y + 6) * (y + 7) * (y + 8) * (y + 10) * (y + 11));
   (8 * (y + 9) * (((((((((((((((((((((((((((((((((((a ^ 4) - ((16 * (a ^ 3)) * b)) - ((12 * (a ^ 3)) * x)) - (54 * (a ^ 3))) + ((36 * (a ^ 2)) * (b ^ 2))) + (((24 * (a ^ 2)) * b) * x)) + ((108 * (a ^ 2)) * b)) - ((6 * (a ^ 2)) * (x ^ 2))) - ((54 * (a ^ 2)) * x)) - (109 * (a ^ 2))) - ((16 * a) * (b ^ 3))) + (((24 * a) * (b ^ 2)) * x)) + ((108 * a) * (b ^ 2))) + (((48 * a) * b) * (x ^ 2))) + (((432 * a) * b) * x)) + ((932 * a) * b)) + ((12 * a) * (x ^ 3))) + ((162 * a) * (x ^ 2))) + ((714 * a) * x)) + (1026 * a)) + (b ^ 4)) - ((12 * (b ^ 3)) * x)) - (54 * (b ^ 3))) - ((6 * (b ^ 2)) * (x ^ 2))) - ((54 * (b ^ 2)) * x)) - (109 * (b ^ 2))) + ((12 * b) * (x ^ 3))) + ((162 * b) * (x ^ 2))) + ((714 * b) * x)) + (1026 * b)) + (6 * (x ^ 4))) + (108 * (x ^ 3))) + (714 * (x ^ 2))) + (2052 * x)) + 2160)) / ((y + 5) * (y + 6) * (y + 7) * (y + 8) * (y + 10) * (y + 11) * (y + 12) * (y + 13));
   (16 * ((((((((((3 * (a ^ 2)) - ((8 * a) * b)) - ((2 * a) * x)) - (11 * a)) + (3 * (b ^ 2))) - ((2 * b) * x)) - (11 * b)) - (2 * (x ^ 2))) - (22 * x)) - 56) * (B + 5) * (B + 6)) / ((y + 7) * (y + 8) * (y + 10) * (y + 11) * (y + 12) * (y + 14) * (y + 15));
   (8 * (B + 5) * (B + 6) * (B + 7) * (B + 8)) / ((y + 10) * (y + 11) * (y + 12) * (y + 13) * (y + 14) * (y + 15) * (y + 16));
   (32 * (a - b) * (-1) * (A + 2) * (A + 3) * (A + 4)) / ((y + 2) * (y + 4) * (y + 5) * (y + 6) * (y + 7) * (y + 8) * (y + 10));
   (32 * (a - b) * ((((((((((a ^ 2) - ((5 * a) * b)) - ((3 * a) * x)) - (12 * a)) + (b ^ 2)) - ((3 * b) * x)) - (12 * b)) - (3 * (x ^ 2))) - (24 * x)) - 43) * (-1) * (A + 4)) / ((y + 4) * (y + 5) * (y + 6) * (y + 8) * (y + 10) * (y + 11) * (y + 12));
   (32 * (a - b) * ((((((((((- (a ^ 2)) + ((5 * a) * b)) + ((3 * a) * x)) + (15 * a)) - (b ^ 2)) + ((3 * b) * x)) + (15 * b)) + (3 * (x ^ 2))) + (30 * x)) + 70) * (-1) * (B + 5)) / ((y + 6) * (y + 7) * (y + 8) * (y + 10) * (y + 12) * (y + 13) * (y + 14));
   ((-1) * 32 * (a - b) * (-1) * (B + 5) * (B + 6) * (B + 7)) / ((y + 8) * (y + 10) * (y + 11) * (y + 12) * (y + 13) * (y + 14) * (y + 16))].

Lemma phi4_L0_zero a b x y d A B : -2 < y -> a = (y + d) / 2 - x -> b = (y - d) / 2 - x -> A = (y + d) / 2 -> B = (y - d) / 2 ->
  fold_right Rplus 0 (phi4_L0 a b x y A B) = 0.
Proof. intros Hy -> -> -> ->. cbn [fold_right phi4_L0]. field. lra. Qed.

Definition phi4_L1 (a b x y A B : R) : list R :=
  [(8 * (A + 1) * (A + 2) * (A + 3) * (A + 4) * (x + 0) * (x + 0 + b + a + 1)) / ((y + 2) * (y + 3) * (y + 4) * (y + 5) * (y + 6) * (y + 7) * (y + 8));
   (16 * ((((((((((3 * (a ^ 2)) - ((8 * a) * b)) - ((2 * a) * x)) - (7 * a)) + (3 * (b ^ 2))) - ((2 * b) * x)) - (7 * b)) - (2 * (x ^ 2))) - (14 * x)) - 20) * (A + 3) * (A + 4) * (x + 2) * (x + 2 + b + a + 1)) / ((y + 3) * (y + 4) * (y + 6) * (y + 7) * (y + 8) * (y + 10) * (y + 11));
   (8 * (y + 9) * (((((((((((((((((((((((((((((((((((a ^ 4) - ((16 * (a ^ 3)) * b)) - ((12 * (a ^ 3)) * x)) - (54 * (a ^ 3))) + ((36 * (a ^ 2)) * (b ^ 2))) + (((24 * (a ^ 2)) * b) * x)) + ((108 * (a ^ 2)) * b)) - ((6 * (a ^ 2)) * (x ^ 2))) - ((54 * (a ^ 2)) * x)) - (109 * (a ^ 2))) - ((16 * a) * (b ^ 3))) + (((24 * a) * (b ^ 2)) * x)) + ((108 * a) * (b ^ 2))) + (((48 * a) * b) * (x ^ 2))) + (((432 * a) * b) * x)) + ((932 * a) * b)) + ((12 * a) * (x ^ 3))) + ((162 * a) * (x ^ 2))) + ((714 * a) * x)) + (1026 * a)) + (b ^ 4)) - ((12 * (b ^ 3)) * x)) - (54 * (b ^ 3))) - ((6 * (b ^ 2)) * (x ^ 2))) - ((54 * (b ^ 2)) * x)) - (109 * (b ^ 2))) + ((12 * b) * (x ^ 3))) + ((162 * b) * (x ^ 2))) + ((714 * b) * x)) + (1026 * b)) + (6 * (x ^ 4))) + (108 * (x ^ 3))) + (714 * (x ^ 2))) + (2052 * x)) + 2160) * (x + 4) * (x + 4 + b + a + 1)) / ((y + 5) * (y + 6) * (y + 7) * (y + 8) * (y + 10) * (y + 11) * (y + 12) * (y + 13));
   (16 * ((((((((((3 * (a ^ 2)) - ((8 * a) * b)) - ((2 * a) * x)) - (11 * a)) + (3 * (b ^ 2))) - ((2 * b) * x)) - (11 * b)) - (2 * (x ^ 2))) - (22 * x)) - 56) * (B + 5) * (B + 6) * (x + 6) * (x + 6 + b + a + 1)) / ((y + 7) * (y + 8) * (y + 10) * (y + 11) * (y + 12) * (y + 14) * (y + 15));
   (8 * (B + 5) * (B + 6) * (B + 7) * (B + 8) * (x + 8) * (x + 8 + b + a + 1)) / ((y + 10) * (y + 11) * (y + 12) * (y + 13) * (y + 14) * (y + 15) * (y + 16));
   (32 * (a - b) * (-1) * (A + 2) * (A + 3) * (A + 4) * (x + 1) * (x + 1 + b + a + 1)) / ((y + 2) * (y + 4) * (y + 5) * (y + 6) * (y + 7) * (y + 8) * (y + 10));
   (32 * (a - b) * ((((((((((a ^ 2) - ((5 * a) * b)) - ((3 * a) * x)) - (12 * a)) + (b ^ 2)) - ((3 * b) * x)) - (12 * b)) - (3 * (x ^ 2))) - (24 * x)) - 43) * (-1) * (A + 4) * (x + 3) * (x + 3 + b + a + 1)) / ((y + 4) * (y + 5) * (y + 6) * (y + 8) * (y + 10) * (y + 11) * (y + 12));
   (32 * (a - b) * ((((((((((- (a ^ 2)) + ((5 * a) * b)) + ((3 * a) * x)) + (15 * a)) - (b ^ 2)) + ((3 * b) * x)) + (15 * b)) + (3 * (x ^ 2))) + (30 * x)) + 70) * (-1) * (B + 5) * (x + 5) * (x + 5 + b + a + 1)) / ((y + 6) * (y + 7) * (y + 8) * (y + 10) * (y + 12) * (y + 13) * (y + 14));
   ((-1) * 32 * (a - b) * (-1) * (B + 5) * (B + 6) * (B + 7) * (x + 7) * (x + 7 + b + a + 1)) / ((y + 8) * (y + 10) * (y + 11) * (y + 12) * (y + 13) * (y + 14) * (y + 16))].

Lemma phi4_L1_zero a b x y d A B : -2 < y -> a = (y + d) / 2 - x -> b = (y - d) / 2 - x -> A = (y + d) / 2 -> B = (y - d) / 2 ->
  fold_right Rplus 0 (phi4_L1 a b x y A B) = 0.
Proof. intros Hy -> -> -> ->. cbn [fold_right phi4_L1]. field. lra. Qed.

Definition phi4_L2 (a b x y A B : R) : list R :=
  [(8 * (A + 1) * (A + 2) * (A + 3) * (A + 4) * (x + 0) * (x + 0 - 1) * (x + 0 + b + a + 1) * (x + 0 + b + a + 2)) / ((y + 2) * (y + 3) * (y + 4) * (y + 5) * (y + 6) * (y + 7) * (y + 8));
   (16 * ((((((((((3 * (a ^ 2)) - ((8 * a) * b)) - ((2 * a) * x)) - (7 * a)) + (3 * (b ^ 2))) - ((2 * b) * x)) - (7 * b)) - (2 * (x ^ 2))) - (14 * x)) - 20) * (A + 3) * (A + 4) * (x + 2) * (x + 2 - 1) * (x + 2 + b + a + 1) * (x + 2 + b + a + 2)) / ((y + 3) * (y + 4) * (y + 6) * (y + 7) * (y + 8) * (y + 10) * (y + 11));
   (8 * (y + 9) * (((((((((((((((((((((((((((((((((((a ^ 4) - ((16 * (a ^ 3)) * b)) - ((12 * (a ^ 3)) * x)) - (54 * (a ^ 3))) + ((36 * (a ^ 2)) * (b ^ 2))) + (((24 * (a ^ 2)) * b) * x)) + ((108 * (a ^ 2)) * b)) - ((6 * (a ^ 2)) * (x ^ 2))) - ((54 * (a ^ 2)) * x)) - (109 * (a ^ 2))) - ((16 * a) * (b ^ 3))) + (((24 * a) * (b ^ 2)) * x)) + ((108 * a) * (b ^ 2))) + (((48 * a) * b) * (x ^ 2))) + (((432 * a) * b) * x)) + ((932 * a) * b)) + ((12 * a) * (x ^ 3))) + ((162 * a) * (x ^ 2))) + ((714 * a) * x)) + (1026 * a)) + (b ^ 4)) - ((12 * (b ^ 3)) * x)) - (54 * (b ^ 3))) - ((6 * (b ^ 2)) * (x ^ 2))) - ((54 * (b ^ 2)) * x)) - (109 * (b ^ 2))) + ((12 * b) * (x ^ 3))) + ((162 * b) * (x ^ 2))) + ((714 * b) * x)) + (1026 * b)) + (6 * (x ^ 4))) + (108 * (x ^ 3))) + (714 * (x ^ 2))) + (2052 * x)) + 2160) * (x + 4) * (x + 4 - 1) * (x + 4 + b + a + 1) * (x + 4 + b + a + 2)) / ((y + 5) * (y + 6) * (y + 7) * (y + 8) * (y + 10) * (y + 11) * (y + 12) * (y + 13));
   (16 * ((((((((((3 * (a ^ 2)) - ((8 * a) * b)) - ((2 * a) * x)) - (11 * a)) + (3 * (b ^ 2))) - ((2 * b) * x)) - (11 * b)) - (2 * (x ^ 2))) - (22 * x)) - 56) * (B + 5) * (B + 6) * (x + 6) * (x + 6 - 1) * (x + 6 + b + a + 1) * (x + 6 + b + a + 2)) / ((y + 7) * (y + 8) * (y + 10) * (y + 11) * (y + 12) * (y + 14) * (y + 15));
   (8 * (B + 5) * (B + 6) * (B + 7) * (B + 8) * (x + 8) * (x + 8 - 1) * (x + 8 + b + a + 1) * (x + 8 + b + a + 2)) / ((y + 10) * (y + 11) * (y + 12) * (y + 13) * (y + 14) * (y + 15) * (y + 16));
   (32 * (a - b) * (-1) * (A + 2) * (A + 3) * (A + 4) * (x + 1) * (x + 1 - 1) * (x + 1 + b + a + 1) * (x + 1 + b + a + 2)) / ((y + 2) * (y + 4) * (y + 5) * (y + 6) * (y + 7) * (y + 8) * (y + 10));
   (32 * (a - b) * ((((((((((a ^ 2) - ((5 * a) * b)) - ((3 * a) * x)) - (12 * a)) + (b ^ 2)) - ((3 * b) * x)) - (12 * b)) - (3 * (x ^ 2))) - (24 * x)) - 43) * (-1) * (A + 4) * (x + 3) * (x + 3 - 1) * (x + 3 + b + a + 1) * (x + 3 + b + a + 2)) / ((y + 4) * (y + 5) * (y + 6) * (y + 8) * (y + 10) * (y + 11) * (y + 12));
   (32 * (a - b) * ((((((((((- (a ^ 2)) + ((5 * a) * b)) + ((3 * a) * x)) + (15 * a)) - (b ^ 2)) + ((3 * b) * x)) + (15 * b)) + (3 * (x ^ 2))) + (30 * x)) + 70) * (-1) * (B + 5) * (x + 5) * (x + 5 - 1) * (x + 5 + b + a + 1) * (x + 5 + b + a + 2)) / ((y + 6) * (y + 7) * (y + 8) * (y + 10) * (y + 12) * (y + 13) * (y + 14));
   ((-1) * 32 * (a - b) * (-1) * (B + 5) * (B + 6) * (B + 7) * (x + 7) * (x + 7 - 1) * (x + 7 + b + a + 1) * (x + 7 + b + a + 2)) / ((y + 8) * (y + 10) * (y + 11) * (y + 12) * (y + 13) * (y + 14) * (y + 16))].

Lemma phi4_L2_zero a b x y d A B : -2 < y -> a = (y + d) / 2 - x -> b = (y - d) / 2 - x -> A = (y + d) / 2 -> B = (y - d) / 2 ->
  fold_right Rplus 0 (phi4_L2 a b x y A B) = 0.
Proof. intros Hy -> -> -> ->. cbn [fold_right phi4_L2]. field. lra. Qed.

Definition phi4_L3 (a b x y A B : R) : list R :=
  [(8 * (A + 1) * (A + 2) * (A + 3) * (A + 4) * (x + 0) * (x + 0 - 1) * (x + 0 - 2) * (x + 0 + b + a + 1) * (x + 0 + b + a + 2) * (x + 0 + b + a + 3)) / ((y + 2) * (y + 3) * (y + 4) * (y + 5) * (y + 6) * (y + 7) * (y + 8));
   (16 * ((((((((((3 * (a ^ 2)) - ((8 * a) * b)) - ((2 * a) * x)) - (7 * a)) + (3 * (b ^ 2))) - ((2 * b) * x)) - (7 * b)) - (2 * (x ^ 2))) - (14 * x)) - 20) * (A + 3) * (A + 4) * (x + 2) * (x + 2 - 1) * (x + 2 - 2) * (x + 2 + b + a + 1) * (x + 2 + b + a + 2) * (x + 2 + b + a + 3)) / ((y + 3) * (y + 4) * (y + 6) * (y + 7) * (y + 8) * (y + 10) * (y + 11));
   (8 * (y + 9) * (((((((((((((((((((((((((((((((((((a ^ 4) - ((16 * (a ^ 3)) * b)) - ((12 * (a ^ 3)) * x)) - (54 * (a ^ 3))) + ((36 * (a ^ 2)) * (b ^ 2))) + (((24 * (a ^ 2)) * b) * x)) + ((108 * (a ^ 2)) * b)) - ((6 * (a ^ 2)) * (x ^ 2))) - ((54 * (a ^ 2)) * x)) - (109 * (a ^ 2))) - ((16 * a) * (b ^ 3))) + (((24 * a) * (b ^ 2)) * x)) + ((108 * a) * (b ^ 2))) + (((48 * a) * b) * (x ^ 2))) + (((432 * a) * b) * x)) + ((932 * a) * b)) + ((12 * a) * (x ^ 3))) + ((162 * a) * (x ^ 2))) + ((714 * a) * x)) + (1026 * a)) + (b ^ 4)) - ((12 * (b ^ 3)) * x)) - (54 * (b ^ 3))) - ((6 * (b ^ 2)) * (x ^ 2))) - ((54 * (b ^ 2)) * x)) - (109 * (b ^ 2))) + ((12 * b) * (x ^ 3))) + ((162 * b) * (x ^ 2))) + ((714 * b) * x)) + (1026 * b)) + (6 * (x ^ 4))) + (108 * (x ^ 3))) + (714 * (x ^ 2))) + (2052 * x)) + 2160) * (x + 4) * (x + 4 - 1) * (x + 4 - 2) * (x + 4 + b + a + 1) * (x + 4 + b + a + 2) * (x + 4 + b + a + 3)) / ((y + 5) * (y + 6) * (y + 7) * (y + 8) * (y + 10) * (y + 11) * (y + 12) * (y + 13));
   (16 * ((((((((((3 * (a ^ 2)) - ((8 * a) * b)) - ((2 * a) * x)) - (11 * a)) + (3 * (b ^ 2))) - ((2 * b) * x)) - (11 * b)) - (2 * (x ^ 2))) - (22 * x)) - 56) * (B + 5) * (B + 6) * (x + 6) * (x + 6 - 1) * (x + 6 - 2) * (x + 6 + b + a + 1) * (x + 6 + b + a + 2) * (x + 6 + b + a + 3)) / ((y + 7) * (y + 8) * (y + 10) * (y + 11) * (y + 12) * (y + 14) * (y + 15));
   (8 * (B + 5) * (B + 6) * (B + 7) * (B + 8) * (x + 8) * (x + 8 - 1) * (x + 8 - 2) * (x + 8 + b + a + 1) * (x + 8 + b + a + 2) * (x + 8 + b + a + 3)) / ((y + 10) * (y + 11) * (y + 12) * (y + 13) * (y + 14) * (y + 15) * (y + 16));
   (32 * (a - b) * (-1) * (A + 2) * (A + 3) * (A + 4) * (x + 1) * (x + 1 - 1) * (x + 1 - 2) * (x + 1 + b + a + 1) * (x + 1 + b + a + 2) * (x + 1 + b + a + 3)) / ((y + 2) * (y + 4) * (y + 5) * (y + 6) * (y + 7) * (y + 8) * (y + 10));
   (32 * (a - b) * ((((((((((a ^ 2) - ((5 * a) * b)) - ((3 * a) * x)) - (12 * a)) + (b ^ 2)) - ((3 * b) * x)) - (12 * b)) - (3 * (x ^ 2))) - (24 * x)) - 43) * (-1) * (A + 4) * (x + 3) * (x + 3 - 1) * (x + 3 - 2) * (x + 3 + b + a + 1) * (x + 3 + b + a + 2) * (x + 3 + b + a + 3)) / ((y + 4) * (y + 5) * (y + 6) * (y + 8) * (y + 10) * (y + 11) * (y + 12));
   (32 * (a - b) * ((((((((((- (a ^ 2)) + ((5 * a) * b)) + ((3 * a) * x)) + (15 * a)) - (b ^ 2)) + ((3 * b) * x)) + (15 * b)) + (3 * (x ^ 2))) + (30 * x)) + 70) * (-1) * (B + 5) * (x + 5) * (x + 5 - 1) * (x + 5 - 2) * (x + 5 + b + a + 1) * (x + 5 + b + a + 2) * (x + 5 + b + a + 3)) / ((y + 6) * (y + 7) * (y + 8) * (y + 10) * (y + 12) * (y + 13) * (y + 14));
   ((-1) * 32 * (a - b) * (-1) * (B + 5) * (B + 6) * (B + 7) * (x + 7) * (x + 7 - 1) * (x + 7 - 2) * (x + 7 + b + a + 1) * (x + 7 + b + a + 2) * (x + 7 + b + a + 3)) / ((y + 8) * (y + 10) * (y + 11) * (y + 12) * (y + 13) * (y + 14) * (y + 16))].

Lemma phi4_L3_zero a b x y d A B : -2 < y -> a = (y + d) / 2 - x -> b = (y - d) / 2 - x -> A = (y + d) / 2 -> B = (y - d) / 2 ->
  fold_right Rplus 0 (phi4_L3 a b x y A B) = 0.
Proof. intros Hy -> -> -> ->. cbn [fold_right phi4_L3]. field. lra. Qed.

Definition phi4_R0 (a b x y A B : R) : list R :=
  [(8 * (B + 1) * (B + 2) * (B + 3) * (B + 4)) / ((y + 2) * (y + 3) * (y + 4) * (y + 5) * (y + 6) * (y + 7) * (y + 8));
   (16 * ((((((((((3 * (a ^ 2)) - ((8 * a) * b)) - ((2 * a) * x)) - (7 * a)) + (3 * (b ^ 2))) - ((2 * b) * x)) - (7 * b)) - (2 * (x ^ 2))) - (14 * x)) - 20) * (B + 3) * (B + 4)) / ((y + 3) * (y + 4) * (y + 6) * (y + 7) * (y + 8) * (y + 10) * (y + 11));
   (8 * (y + 9) * (((((((((((((((((((((((((((((((((((a ^ 4) - ((16 * (a ^ 3)) * b)) - ((12 * (a ^ 3)) * x)) - (54 * (a ^ 3))) + ((36 * (a ^ 2)) * (b ^ 2))) + (((24 * (a ^ 2)) * b) * x)) + ((108 * (a ^ 2)) * b)) - ((6 * (a ^ 2)) * (x ^ 2))) - ((54 * (a ^ 2)) * x)) - (109 * (a ^ 2))) - ((16 * a) * (b ^ 3))) + (((24 * a) * (b ^ 2)) * x)) + ((108 * a) * (b ^ 2))) + (((48 * a) * b) * (x ^ 2))) + (((432 * a) * b) * x)) + ((932 * a) * b)) + ((12 * a) * (x ^ 3))) + ((162 * a) * (x ^ 2))) + ((714 * a) * x)) + (1026 * a)) + (b ^ 4)) - ((12 * (b ^ 3)) * x)) - (54 * (b ^ 3))) - ((6 * (b ^ 2)) * (x ^ 2))) - ((54 * (b ^ 2)) * x)) - (109 * (b ^ 2))) + ((12 * b) * (x ^ 3))) + ((162 * b) * (x ^ 2))) + ((714 * b) * x)) + (1026 * b)) + (6 * (x ^ 4))) + (108 * (x ^ 3))) + (714 * (x ^ 2))) + (2052 * x)) + 2160)) / ((y + 5) * (y + 6) * (y + 7) * (y + 8) * (y + 10) * (y + 11) * (y + 12) * (y + 13));
   (16 * ((((((((((3 * (a ^ 2)) - ((8 * a) * b)) - ((2 * a) * x)) - (11 * a)) + (3 * (b ^ 2))) - ((2 * b) * x)) - (11 * b)) - (2 * (x ^ 2))) - (22 * x)) - 56) * (A + 5) * (A + 6)) / ((y + 7) * (y + 8) * (y + 10) * (y + 11) * (y + 12) * (y + 14) * (y + 15));
   (8 * (A + 5) * (A + 6) * (A + 7) * (A + 8)) / ((y + 10) * (y + 11) * (y + 12) * (y + 13) * (y + 14) * (y + 15) * (y + 16));
   (32 * (a - b) * (B + 2) * (B + 3) * (B + 4)) / ((y + 2) * (y + 4) * (y + 5) * (y + 6) * (y + 7) * (y + 8) * (y + 10));
   (32 * (a - b) * ((((((((((a ^ 2) - ((5 * a) * b)) - ((3 * a) * x)) - (12 * a)) + (b ^ 2)) - ((3 * b) * x)) - (12 * b)) - (3 * (x ^ 2))) - (24 * x)) - 43) * (B + 4)) / ((y + 4) * (y + 5) * (y + 6) * (y + 8) * (y + 10) * (y + 11) * (y + 12));
   (32 * (a - b) * ((((((((((- (a ^ 2)) + ((5 * a) * b)) + ((3 * a) * x)) + (15 * a)) - (b ^ 2)) + ((3 * b) * x)) + (15 * b)) + (3 * (x ^ 2))) + (30 * x)) + 70) * (A + 5)) / ((y + 6) * (y + 7) * (y + 8) * (y + 10) * (y + 12) * (y + 13) * (y + 14));
   ((-1) * 32 * (a - b) * (A + 5) * (A + 6) * (A + 7)) / ((y + 8) * (y + 10) * (y + 11) * (y + 12) * (y + 13) * (y + 14) * (y + 16))].

Lemma phi4_R0_zero a b x y d A B : -2 < y -> a = (y + d) / 2 - x -> b = (y - d) / 2 - x -> A = (y + d) / 2 -> B = (y - d) / 2 ->
  fold_right Rplus 0 (phi4_R0 a b x y A B) = 0.
Proof. intros Hy -> -> -> ->. cbn [fold_right phi4_R0]. field. lra. Qed.

Definition phi4_R1 (a b x y A B : R) : list R :=
  [(8 * (B + 1) * (B + 2) * (B + 3) * (B + 4) * (x + 0) * (x + 0 + a + b + 1)) / ((y + 2) * (y + 3) * (y + 4) * (y + 5) * (y + 6) * (y + 7) * (y + 8));
   (16 * ((((((((((3 * (a ^ 2)) - ((8 * a) * b)) - ((2 * a) * x)) - (7 * a)) + (3 * (b ^ 2))) - ((2 * b) * x)) - (7 * b)) - (2 * (x ^ 2))) - (14 * x)) - 20) * (B + 3) * (B + 4) * (x + 2) * (x + 2 + a + b + 1)) / ((y + 3) * (y + 4) * (y + 6) * (y + 7) * (y + 8) * (y + 10) * (y + 11));
   (8 * (y + 9) * (((((((((((((((((((((((((((((((((((a ^ 4) - ((16 * (a ^ 3)) * b)) - ((12 * (a ^ 3)) * x)) - (54 * (a ^ 3))) + ((36 * (a ^ 2)) * (b ^ 2))) + (((24 * (a ^ 2)) * b) * x)) + ((108 * (a ^ 2)) * b)) - ((6 * (a ^ 2)) * (x ^ 2))) - ((54 * (a ^ 2)) * x)) - (109 * (a ^ 2))) - ((16 * a) * (b ^ 3))) + (((24 * a) * (b ^ 2)) * x)) + ((108 * a) * (b ^ 2))) + (((48 * a) * b) * (x ^ 2))) + (((432 * a) * b) * x)) + ((932 * a) * b)) + ((12 * a) * (x ^ 3))) + ((162 * a) * (x ^ 2))) + ((714 * a) * x)) + (1026 * a)) + (b ^ 4)) - ((12 * (b ^ 3)) * x)) - (54 * (b ^ 3))) - ((6 * (b ^ 2)) * (x ^ 2))) - ((54 * (b ^ 2)) * x)) - (109 * (b ^ 2))) + ((12 * b) * (x ^ 3))) + ((162 * b) * (x ^ 2))) + ((714 * b) * x)) + (1026 * b)) + (6 * (x ^ 4))) + (108 * (x ^ 3))) + (714 * (x ^ 2))) + (2052 * x)) + 2160) * (x + 4) * (x + 4 + a + b + 1)) / ((y + 5) * (y + 6) * (y + 7) * (y + 8) * (y + 10) * (y + 11) * (y + 12) * (y + 13));
   (16 * ((((((((((3 * (a ^ 2)) - ((8 * a) * b)) - ((2 * a) * x)) - (11 * a)) + (3 * (b ^ 2))) - ((2 * b) * x)) - (11 * b)) - (2 * (x ^ 2))) - (22 * x)) - 56) * (A + 5) * (A + 6) * (x + 6) * (x + 6 + a + b + 1)) / ((y + 7) * (y + 8) * (y + 10) * (y + 11) * (y + 12) * (y + 14) * (y + 15));
   (8 * (A + 5) * (A + 6) * (A + 7) * (A + 8) * (x + 8) * (x + 8 + a + b + 1)) / ((y + 10) * (y + 11) * (y + 12) * (y + 13) * (y + 14) * (y + 15) * (y + 16));
   (32 * (a - b) * (B + 2) * (B + 3) * (B + 4) * (x + 1) * (x + 1 + a + b + 1)) / ((y + 2) * (y + 4) * (y + 5) * (y + 6) * (y + 7) * (y + 8) * (y + 10));
   (32 * (a - b) * ((((((((((a ^ 2) - ((5 * a) * b)) - ((3 * a) * x)) - (12 * a)) + (b ^ 2)) - ((3 * b) * x)) - (12 * b)) - (3 * (x ^ 2))) - (24 * x)) - 43) * (B + 4) * (x + 3) * (x + 3 + a + b + 1)) / ((y + 4) * (y + 5) * (y + 6) * (y + 8) * (y + 10) * (y + 11) * (y + 12));
   (32 * (a - b) * ((((((((((- (a ^ 2)) + ((5 * a) * b)) + ((3 * a) * x)) + (15 * a)) - (b ^ 2)) + ((3 * b) * x)) + (15 * b)) + (3 * (x ^ 2))) + (30 * x)) + 70) * (A + 5) * (x + 5) * (x + 5 + a + b + 1)) / ((y + 6) * (y + 7) * (y + 8) * (y + 10) * (y + 12) * (y + 13) * (y + 14));
   ((-1) * 32 * (a - b) * (A + 5) * (A + 6) * (A + 7) * (x + 7) * (x + 7 + a + b + 1)) / ((y + 8) * (y + 10) * (y + 11) * (y + 12) * (y + 13) * (y + 14) * (y + 16))].

Lemma phi4_R1_zero a b x y d A B : -2 < y -> a = (y + d) / 2 - x -> b = (y - d) / 2 - x -> A = (y + d) / 2 -> B = (y - d) / 2 ->
  fold_right Rplus 0 (phi4_R1 a b x y A B) = 0.
Proof. intros Hy -> -> -> ->. cbn [fold_right phi4_R1]. field. lra. Qed.

Definition phi4_R2 (a b x y A B : R) : list R :=
  [(8 * (B + 1) * (B + 2) * (B + 3) * (B + 4) * (x + 0) * (x + 0 - 1) * (x + 0 + a + b + 1) * (x + 0 + a + b + 2)) / ((y + 2) * (y + 3) * (y + 4) * (y + 5) * (y + 6) * (y + 7) * (y + 8));
   (16 * ((((((((((3 * (a ^ 2)) - ((8 * a) * b)) - ((2 * a) * x)) - (7 * a)) + (3 * (b ^ 2))) - ((2 * b) * x)) - (7 * b)) - (2 * (x ^ 2))) - (14 * x)) - 20) * (B + 3) * (B + 4) * (x + 2) * (x + 2 - 1) * (x + 2 + a + b + 1) * (x + 2 + a + b + 2)) / ((y + 3) * (y + 4) * (y + 6) * (y + 7) * (y + 8) * (y + 10) * (y + 11));
   (8 * (y + 9) * (((((((((((((((((((((((((((((((((((a ^ 4) - ((16 * (a ^ 3)) * b)) - ((12 * (a ^ 3)) * x)) - (54 * (a ^ 3))) + ((36 * (a ^ 2)) * (b ^ 2))) + (((24 * (a ^ 2)) * b) * x)) + ((108 * (a ^ 2)) * b)) - ((6 * (a ^ 2)) * (x ^ 2))) - ((54 * (a ^ 2)) * x)) - (109 * (a ^ 2))) - ((16 * a) * (b ^ 3))) + (((24 * a) * (b ^ 2)) * x)) + ((108 * a) * (b ^ 2))) + (((48 * a) * b) * (x ^ 2))) + (((432 * a) * b) * x)) + ((932 * a) * b)) + ((12 * a) * (x ^ 3))) + ((162 * a) * (x ^ 2))) + ((714 * a) * x)) + (1026 * a)) + (b ^ 4)) - ((12 * (b ^ 3)) * x)) - (54 * (b ^ 3))) - ((6 * (b ^ 2)) * (x ^ 2))) - ((54 * (b ^ 2)) * x)) - (109 * (b ^ 2))) + ((12 * b) * (x ^ 3))) + ((162 * b) * (x ^ 2))) + ((714 * b) * x)) + (1026 * b)) + (6 * (x ^ 4))) + (108 * (x ^ 3))) + (714 * (x ^ 2))) + (2052 * x)) + 2160) * (x + 4) * (x + 4 - 1) * (x + 4 + a + b + 1) * (x + 4 + a + b + 2)) / ((y + 5) * (y + 6) * (y + 7) * (y + 8) * (y + 10) * (y + 11) * (y + 12) * (y + 13));
   (16 * ((((((((((3 * (a ^ 2)) - ((8 * a) * b)) - ((2 * a) * x)) - (11 * a)) + (3 * (b ^ 2))) - ((2 * b) * x)) - (11 * b)) - (2 * (x ^ 2))) - (22 * x)) - 56) * (A + 5) * (A + 6) * (x + 6) * (x + 6 - 1) * (x + 6 + a + b + 1) * (x + 6 + a + b + 2)) / ((y + 7) * (y + 8) * (y + 10) * (y + 11) * (y + 12) * (y + 14) * (y + 15));
   (8 * (A + 5) * (A + 6) * (A + 7) * (A + 8) * (x + 8) * (x + 8 - 1) * (x + 8 + a + b + 1) * (x + 8 + a + b + 2)) / ((y + 10) * (y + 11) * (y + 12) * (y + 13) * (y + 14) * (y + 15) * (y + 16));
   (32 * (a - b) * (B + 2) * (B + 3) * (B + 4) * (x + 1) * (x + 1 - 1) * (x + 1 + a + b + 1) * (x + 1 + a + b + 2)) / ((y + 2) * (y + 4) * (y + 5) * (y + 6) * (y + 7) * (y + 8) * (y + 10));
   (32 * (a - b) * ((((((((((a ^ 2) - ((5 * a) * b)) - ((3 * a) * x)) - (12 * a)) + (b ^ 2)) - ((3 * b) * x)) - (12 * b)) - (3 * (x ^ 2))) - (24 * x)) - 43) * (B + 4) * (x + 3) * (x + 3 - 1) * (x + 3 + a + b + 1) * (x + 3 + a + b + 2)) / ((y + 4) * (y + 5) * (y + 6) * (y + 8) * (y + 10) * (y + 11) * (y + 12));
   (32 * (a - b) * ((((((((((- (a ^ 2)) + ((5 * a) * b)) + ((3 * a) * x)) + (15 * a)) - (b ^ 2)) + ((3 * b) * x)) + (15 * b)) + (3 * (x ^ 2))) + (30 * x)) + 70) * (A + 5) * (x + 5) * (x + 5 - 1) * (x + 5 + a + b + 1) * (x + 5 + a + b + 2)) / ((y + 6) * (y + 7) * (y + 8) * (y + 10) * (y + 12) * (y + 13) * (y + 14));
   ((-1) * 32 * (a - b) * (A + 5) * (A + 6) * (A + 7) * (x + 7) * (x + 7 - 1) * (x + 7 + a + b + 1) * (x + 7 + a + b + 2)) / ((y + 8) * (y + 10) * (y + 11) * (y + 12) * (y + 13) * (y + 14) * (y + 16))].

Lemma phi4_R2_zero a b x y d A B : -2 < y -> a = (y + d) / 2 - x -> b = (y - d) / 2 - x -> A = (y + d) / 2 -> B = (y - d) / 2 ->
  fold_right Rplus 0 (phi4_R2 a b x y A B) = 0.
Proof. intros Hy -> -> -> ->. cbn [fold_right phi4_R2]. field. lra. Qed.

Definition phi4_R3 (a b x y A B : R) : list R :=
  [(8 * (B + 1) * (B + 2) * (B + 3) * (B + 4) * (x + 0) * (x + 0 - 1) * (x + 0 - 2) * (x + 0 + a + b + 1) * (x + 0 + a + b + 2) * (x + 0 + a + b + 3)) / ((y + 2) * (y + 3) * (y + 4) * (y + 5) * (y + 6) * (y + 7) * (y + 8));
   (16 * ((((((((((3 * (a ^ 2)) - ((8 * a) * b)) - ((2 * a) * x)) - (7 * a)) + (3 * (b ^ 2))) - ((2 * b) * x)) - (7 * b)) - (2 * (x ^ 2))) - (14 * x)) - 20) * (B + 3) * (B + 4) * (x + 2) * (x + 2 - 1) * (x + 2 - 2) * (x + 2 + a + b + 1) * (x + 2 + a + b + 2) * (x + 2 + a + b + 3)) / ((y + 3) * (y + 4) * (y + 6) * (y + 7) * (y + 8) * (y + 10) * (y + 11));
   (8 * (y + 9) * (((((((((((((((((((((((((((((((((((a ^ 4) - ((16 * (a ^ 3)) * b)) - ((12 * (a ^ 3)) * x)) - (54 * (a ^ 3))) + ((36 * (a ^ 2)) * (b ^ 2))) + (((24 * (a ^ 2)) * b) * x)) + ((108 * (a ^ 2)) * b)) - ((6 * (a ^ 2)) * (x ^ 2))) - ((54 * (a ^ 2)) * x)) - (109 * (a ^ 2))) - ((16 * a) * (b ^ 3))) + (((24 * a) * (b ^ 2)) * x)) + ((108 * a) * (b ^ 2))) + (((48 * a) * b) * (x ^ 2))) + (((432 * a) * b) * x)) + ((932 * a) * b)) + ((12 * a) * (x ^ 3))) + ((162 * a) * (x ^ 2))) + ((714 * a) * x)) + (1026 * a)) + (b ^ 4)) - ((12 * (b ^ 3)) * x)) - (54 * (b ^ 3))) - ((6 * (b ^ 2)) * (x ^ 2))) - ((54 * (b ^ 2)) * x)) - (109 * (b ^ 2))) + ((12 * b) * (x ^ 3))) + ((162 * b) * (x ^ 2))) + ((714 * b) * x)) + (1026 * b)) + (6 * (x ^ 4))) + (108 * (x ^ 3))) + (714 * (x ^ 2))) + (2052 * x)) + 2160) * (x + 4) * (x + 4 - 1) * (x + 4 - 2) * (x + 4 + a + b + 1) * (x + 4 + a + b + 2) * (x + 4 + a + b + 3)) / ((y + 5) * (y + 6) * (y + 7) * (y + 8) * (y + 10) * (y + 11) * (y + 12) * (y + 13));
   (16 * ((((((((((3 * (a ^ 2)) - ((8 * a) * b)) - ((2 * a) * x)) - (11 * a)) + (3 * (b ^ 2))) - ((2 * b) * x)) - (11 * b)) - (2 * (x ^ 2))) - (22 * x)) - 56) * (A + 5) * (A + 6) * (x + 6) * (x + 6 - 1) * (x + 6 - 2) * (x + 6 + a + b + 1) * (x + 6 + a + b + 2) * (x + 6 + a + b + 3)) / ((y + 7) * (y + 8) * (y + 10) * (y + 11) * (y + 12) * (y + 14) * (y + 15));
   (8 * (A + 5) * (A + 6) * (A + 7) * (A + 8) * (x + 8) * (x + 8 - 1) * (x + 8 - 2) * (x + 8 + a + b + 1) * (x + 8 + a + b + 2) * (x + 8 + a + b + 3)) / ((y + 10) * (y + 11) * (y + 12) * (y + 13) * (y + 14) * (y + 15) * (y + 16));
   (32 * (a - b) * (B + 2) * (B + 3) * (B + 4) * (x + 1) * (x + 1 - 1) * (x + 1 - 2) * (x + 1 + a + b + 1) * (x + 1 + a + b + 2) * (x + 1 + a + b + 3)) / ((y + 2) * (y + 4) * (y + 5) * (y + 6) * (y + 7) * (y + 8) * (y + 10));
   (32 * (a - b) * ((((((((((a ^ 2) - ((5 * a) * b)) - ((3 * a) * x)) - (12 * a)) + (b ^ 2)) - ((3 * b) * x)) - (12 * b)) - (3 * (x ^ 2))) - (24 * x)) - 43) * (B + 4) * (x + 3) * (x + 3 - 1) * (x + 3 - 2) * (x + 3 + a + b + 1) * (x + 3 + a + b + 2) * (x + 3 + a + b + 3)) / ((y + 4) * (y + 5) * (y + 6) * (y + 8) * (y + 10) * (y + 11) * (y + 12));
   (32 * (a - b) * ((((((((((- (a ^ 2)) + ((5 * a) * b)) + ((3 * a) * x)) + (15 * a)) - (b ^ 2)) + ((3 * b) * x)) + (15 * b)) + (3 * (x ^ 2))) + (30 * x)) + 70) * (A + 5) * (x + 5) * (x + 5 - 1) * (x + 5 - 2) * (x + 5 + a + b + 1) * (x + 5 + a + b + 2) * (x + 5 + a + b + 3)) / ((y + 6) * (y + 7) * (y + 8) * (y + 10) * (y + 12) * (y + 13) * (y + 14));
   ((-1) * 32 * (a - b) * (A + 5) * (A + 6) * (A + 7) * (x + 7) * (x + 7 - 1) * (x + 7 - 2) * (x + 7 + a + b + 1) * (x + 7 + a + b + 2) * (x + 7 + a + b + 3)) / ((y + 8) * (y + 10) * (y + 11) * (y + 12) * (y + 13) * (y + 14) * (y + 16))].

Lemma phi4_R3_zero a b x y d A B : -2 < y -> a = (y + d) / 2 - x -> b = (y - d) / 2 - x -> A = (y + d) / 2 -> B = (y - d) / 2 ->
  fold_right Rplus 0 (phi4_R3 a b x y A B) = 0.
Proof. intros Hy -> -> -> ->. cbn [fold_right phi4_R3]. field. lra. Qed.
