(** FMMSweepProperties.v -- C47: the sweeps of FMMcheb and the accuracy of the fast conversions. *)
From Coq Require Import Reals List Arith Bool Lia Lra.
From Verif Require Import Base RPoly HelmholtzProofs Leg2ChebModel Leg2ChebSpec Leg2ChebProofs Leg2ChebProofs2 Leg2ChebProofs3 FMMModel FMMProofs FMMProofs2 FMMProofs3 FMMProofs4
  FMMSweepModel FMMSweepSpec FMMSweepProofs FMMSweepProofs2 FMMSweepProofs5 FMMSweepProofs8 FMMSweepProofs9.
Import ListNotations.
Local Open Scope R_scope.

Lemma tr_half n : (n * (n + 1) / 2 = tr n)%nat.
Proof. induction n as [|n IH]; [reflexivity|]. cbn [tr]. rewrite <- IH. replace (S n * (S n + 1))%nat with (n * (n + 1) + S n * 2)%nat by lia. rewrite Nat.div_add by lia. reflexivity. Qed.
Lemma tr_S q d : (q < d)%nat -> (tr q + q < tr d)%nat.
Proof. intros H. induction H as [|d Hd IH]; cbn [tr]; lia. Qed.
Lemma count_eq D l : level_count D l = cnt D l.
Proof. unfold level_count, cnt. fold (dl D l). rewrite tr_half. reflexivity. Qed.
Lemma start_eq D l : level_start D l = off D (S l).
Proof. unfold level_start, off, nL. rewrite Nat.add_1_r. f_equal. apply map_ext. intros x. apply count_eq. Qed.
Lemma fit_ok D Mmin Nk : sizes_fit D Mmin Nk -> sizes_ok D Mmin Nk.
Proof.
  intros (H1 & H2). split.
  - intros l Hl. specialize (H1 l ltac:(lia)). rewrite Nat.add_1_r in H1. exact H1.
  - intros l b q p Hl Hb Hq Hp. apply H2; [exact Hl|]. rewrite start_eq, count_eq. unfold cnt. pose proof (tr_S q (dl D l) Hq). set (t := tr (dl D l)) in *. clearbody t. nia.
Qed.

(** ** the sweeps *)
(** Row k of the conversion matrix with number q of d holds the Chebyshev coefficients of T_k on the q-th of d parts of [-1, 1], exactly. *)
Theorem C47_conversionmatrix : forall d M q k y, (q < d)%nat -> (k < M)%nat ->
  rsum (k + 1) (fun l => conversionmatrix d M q k l * peval (chebT l) y) = peval (chebT k) ((y + 1 + 2 * INR q - INR d) / INR d).
Proof. exact conversion_exact. Qed.
Print Assumptions C47_conversionmatrix.
(** The upward and downward sweeps through the levels give the product with all low rank submatrices; transposed as well. *)
Theorem C47_sweeps : forall N D s diags Mmin Nk A u r, Forall (fun d => (0 < d)%nat) D -> D <> [] -> (0 < s)%nat -> sizes_fit D Mmin Nk -> (r < N)%nat ->
  FMMcheb N D s diags Mmin Nk A false u r
  = product (fun ik h => low_rank (r mod 2) h (Nk ik) (A ik)) (submatrices D s diags) (fun j => if Nat.ltb (2 * j + r mod 2) N then u (2 * j + r mod 2)%nat else 0) (r / 2).
Proof. intros N D s diags Mmin Nk A u r HD HL Hs Hf Hr. exact (FMMcheb_val N D s diags Mmin Nk A HD HL Hs (fit_ok D Mmin Nk Hf) false u r Hr). Qed.
Print Assumptions C47_sweeps.
Theorem C47_sweeps_transpose : forall N D s diags Mmin Nk A u r, Forall (fun d => (0 < d)%nat) D -> D <> [] -> (0 < s)%nat -> sizes_fit D Mmin Nk -> (r < N)%nat ->
  FMMcheb N D s diags Mmin Nk A true u r
  = product_T (fun ik h => low_rank (r mod 2) h (Nk ik) (A ik)) (submatrices D s diags) (fun j => if Nat.ltb (2 * j + r mod 2) N then u (2 * j + r mod 2)%nat else 0) (r / 2).
Proof. intros N D s diags Mmin Nk A u r HD HL Hs Hf Hr. exact (FMMcheb_val N D s diags Mmin Nk A HD HL Hs (fit_ok D Mmin Nk Hf) true u r Hr). Qed.
Print Assumptions C47_sweeps_transpose.
Example C47_sizes_ex : sizes_fit [2; 3]%nat (fun l => 7 + l)%nat (fun n => if Nat.ltb n 18 then 8 else 7)%nat /\ level_start [2; 3]%nat 0 = 18%nat /\ level_count [2; 3]%nat 0 = 3%nat.
Proof.
  split; [|split; reflexivity]. split.
  - intros l _. lia.
  - intros l n Hl H. cbn [List.length] in Hl. assert (E : l = 0%nat \/ l = 1%nat) by lia. destruct E as [-> | ->]; cbn in H.
    + destruct (Nat.ltb_spec n 18); lia.
    + destruct (Nat.ltb_spec n 18); lia.
Qed.

(** ** accuracy: submatrices within eps of the conversion matrix give coefficients within eps * 2/pi * sum |c_k| of the exact ones *)
Theorem C47_leg2cheb_accuracy : forall N D s diags Mmin Nk A eps c i, Forall (fun d => (0 < d)%nat) D -> D <> [] -> (0 < s)%nat -> sizes_fit D Mmin Nk ->
  (N <= 2 * (diags + s * get_number_of_blocks (List.length D) D))%nat -> 0 <= eps -> accurate N (submatrices D s diags) Nk A Mxy eps -> (i < N)%nat ->
  Rabs (Leg2Cheb_sweep N D s diags Mmin Nk A false c i - leg2cheb N false c i) <= 2 / PI * eps * rsum N (fun k => Rabs (c k)).
Proof.
  intros N D s diags Mmin Nk A eps c i HD HL Hs Hf HN He Ha Hi. rewrite leg2cheb_val by exact Hi. exact (Leg2Cheb_error N D s diags Mmin Nk A eps HD HL Hs (fit_ok D Mmin Nk Hf) He HN c i Ha Hi).
Qed.
Print Assumptions C47_leg2cheb_accuracy.
Theorem C47_leg2cheb_transpose_accuracy : forall N D s diags Mmin Nk A eps c i, Forall (fun d => (0 < d)%nat) D -> D <> [] -> (0 < s)%nat -> sizes_fit D Mmin Nk ->
  (N <= 2 * (diags + s * get_number_of_blocks (List.length D) D))%nat -> 0 <= eps -> accurate N (submatrices D s diags) Nk A Mxy eps -> (i < N)%nat ->
  Rabs (Leg2Cheb_sweep N D s diags Mmin Nk A true c i - leg2cheb N true c i) <= 2 / PI * eps * rsum N (fun k => Rabs (c k)).
Proof.
  intros N D s diags Mmin Nk A eps c i HD HL Hs Hf HN He Ha Hi. rewrite leg2cheb_T_val by exact Hi. exact (Leg2Cheb_T_error N D s diags Mmin Nk A eps HD HL Hs (fit_ok D Mmin Nk Hf) He HN c i Ha Hi).
Qed.
Print Assumptions C47_leg2cheb_transpose_accuracy.
Theorem C47_cheb2leg_accuracy : forall N D s diags Mmin Nk A eps v i, Forall (fun d => (0 < d)%nat) D -> D <> [] -> (0 < s)%nat -> (1 <= diags)%nat -> sizes_fit D Mmin Nk ->
  (N <= 2 * (diags + s * get_number_of_blocks (List.length D) D))%nat -> 0 <= eps -> accurate N (submatrices D s diags) Nk A Lxy eps -> (i < N)%nat ->
  Rabs (Cheb2Leg_sweep N D s diags Mmin Nk A v i - cheb2leg N v i) <= (INR i + / 2) * eps * rsum N (fun k => INR (Nat.max k 1) * Rabs (v k)).
Proof.
  intros N D s diags Mmin Nk A eps v i HD HL Hs Hd Hf HN He Ha Hi. rewrite cheb2leg_val by exact Hi. exact (Cheb2Leg_error N D s diags Mmin Nk A eps HD HL Hs (fit_ok D Mmin Nk Hf) He HN v i Hd Ha Hi).
Qed.
Print Assumptions C47_cheb2leg_accuracy.
(** a case with exact submatrices: one square of one even and one odd entry *)
Example C47_accurate_ex : accurate 6 (submatrices [1]%nat 1 1) (fun _ => 2%nat)
   (fun _ k l => match k, l with O, O => Mxy 1 5 | S O, O => Mxy 1 5 - Mxy 0 4 | _, _ => 0 end) Mxy 0 /\ submatrices [1]%nat 1 1 = [(0, 2, 1)]%nat.
Proof.
  split; [|reflexivity]. intros n r c h x y odd E Hx Hy Ho H1 H2. change (submatrices [1]%nat 1 1) with [(0, 2, 1)]%nat in E.
  destruct n as [|[|n]]; cbn [nth_error] in E; [|discriminate|discriminate]. injection E as <- <- <-. assert (x = 0%nat) by lia. assert (y = 0%nat) by lia. subst x y.
  assert (Eo : odd = 0%nat \/ odd = 1%nat) by lia. unfold low_rank. cbn [gsum]. change (peval (chebT 0)) with (fun x => 1 + x * 0). change (peval (chebT 1)) with (fun x => 0 + x * (1 + x * 0)). cbv beta. unfold node.
  destruct Eo as [-> | ->]; cbn [Nat.mul Nat.add INR]; match goal with |- Rabs ?z <= 0 => replace z with 0 by (field); rewrite Rabs_R0; lra end.
Qed.
