(** StencilProofs5.v -- the Jacobi stencils. *)
From Coq Require Import Reals Lra Lia ZArith String List Arith.
From Verif Require Import Base Fld SparseModel SparseSpec RPoly StencilModel StencilSpec StencilProofs StencilProofs5a.
Import ListNotations.
Local Open Scope R_scope.


(** P^(a,b)_n(1) = (a+1)_n / n!  and the derivatives relative to it *)
Fixpoint jw (a : R) (n : nat) : R := match n with O => 1 | S m => jw a m * ((INR m + a + 1) / (INR m + 1)) end.
Definition vJ (a b : R) (k : nat) (x : R) : R :=
  match k with
  | 0%nat => 1
  | 1%nat => x * (x + a + b + 1) / (2 * (a + 1))
  | 2%nat => x * (x - 1) * (x + a + b + 1) * (x + a + b + 2) / (4 * (a + 1) * (a + 2))
  | 3%nat => x * (x - 1) * (x - 2) * (x + a + b + 1) * (x + a + b + 2) * (x + a + b + 3) / (8 * (a + 1) * (a + 2) * (a + 3))
  | _ => 0
  end.
Ltac cases4 k := destruct k as [|[|[|[|k]]]]; [| | | |exfalso; lia].

Lemma jac_right a b n k : -1 < a -> -1 < b -> (k <= 3)%nat -> deriv_at k (jacP a b n) 1 = jw a n * vJ a b k (INR n).
Proof.
  intros Ha Hb. apply three_term_values with (v := fun k n => jw a n * vJ a b k (INR n)).
  - intros j Hj. cases4 j; unfold deriv_at, vJ; simpl; (split; field; lra).
  - intros j q Hj. cbn [jw]. rewrite !S_INR. inr q. set (z := jw a q). clearbody z.
    cases4 j; cbn [vJ pred INR]; field; lra.
Qed.
Lemma jac_left a b n k : -1 < a -> -1 < b -> (k <= 3)%nat ->
  deriv_at k (jacP a b n) (-1) = (-1) ^ n * ((-1) ^ k * (jw b n * vJ b a k (INR n))).
Proof.
  intros Ha Hb. apply three_term_values with (v := fun k n => (-1) ^ n * ((-1) ^ k * (jw b n * vJ b a k (INR n)))).
  - intros j Hj. cases4 j; unfold deriv_at, vJ; simpl; (split; field; lra).
  - intros j q Hj. cbn [jw]. rewrite <- !tech_pow_Rmult. rewrite !S_INR. inr q. set (z := jw b q). clearbody z. set (y := (-1) ^ q). clearbody y.
    cases4 j; cbn [vJ pred INR pow]; field; lra.
Qed.

Section Jac.
Variables (G : R -> R) (a b : R).
Hypothesis HG : forall x, 0 < x -> 0 < G x.
Hypothesis HG1 : forall x, 0 < x -> G (x + 1) = x * G x.
Hypothesis Ha : -1 < a.
Hypothesis Hb : -1 < b.

Lemma G2 x : 0 < x + 1 -> G (x + 2) = (x + 1) * G (x + 1).
Proof. intros. replace (x + 2) with (x + 1 + 1) by ring. apply HG1. lra. Qed.
Lemma G3 x : 0 < x + 1 -> G (x + 3) = (x + 2) * ((x + 1) * G (x + 1)).
Proof. intros. rewrite <- G2 by auto. replace (x + 3) with (x + 2 + 1) by ring. apply HG1. lra. Qed.
Lemma G4 x : 0 < x + 1 -> G (x + 4) = (x + 3) * ((x + 2) * ((x + 1) * G (x + 1))).
Proof. intros. rewrite <- G3 by auto. replace (x + 4) with (x + 3 + 1) by ring. apply HG1. lra. Qed.
Lemma G5 x : 0 < x + 1 -> G (x + 5) = (x + 4) * ((x + 3) * ((x + 2) * ((x + 1) * G (x + 1)))).
Proof. intros. rewrite <- G4 by auto. replace (x + 5) with (x + 4 + 1) by ring. apply HG1. lra. Qed.
Lemma G6 x : 0 < x + 1 -> G (x + 6) = (x + 5) * ((x + 4) * ((x + 3) * ((x + 2) * ((x + 1) * G (x + 1))))).
Proof. intros. rewrite <- G5 by auto. replace (x + 6) with (x + 5 + 1) by ring. apply HG1. lra. Qed.
Lemma G7 x : 0 < x + 1 -> G (x + 7) = (x + 6) * ((x + 5) * ((x + 4) * ((x + 3) * ((x + 2) * ((x + 1) * G (x + 1)))))).
Proof. intros. rewrite <- G6 by auto. replace (x + 7) with (x + 6 + 1) by ring. apply HG1. lra. Qed.
Lemma G8 x : 0 < x + 1 -> G (x + 8) = (x + 7) * ((x + 6) * ((x + 5) * ((x + 4) * ((x + 3) * ((x + 2) * ((x + 1) * G (x + 1))))))).
Proof. intros. rewrite <- G7 by auto. replace (x + 8) with (x + 7 + 1) by ring. apply HG1. lra. Qed.
Lemma G9 x : 0 < x + 1 -> G (x + 9) = (x + 8) * ((x + 7) * ((x + 6) * ((x + 5) * ((x + 4) * ((x + 3) * ((x + 2) * ((x + 1) * G (x + 1)))))))).
Proof. intros. rewrite <- G8 by auto. replace (x + 9) with (x + 8 + 1) by ring. apply HG1. lra. Qed.
Lemma P2 c (m : nat) : c = INR m -> Rpower 2 (- a - b + c) = Rpower 2 (- a - b) * 2 ^ m.
Proof. intros ->. rewrite Rpower_plus, Rpower_pow by lra. reflexivity. Qed.

Ltac gpos := solve [lra | apply exp_pos | apply HG; lra
  | match goal with
    | |- 0 < _ * _ => apply Rmult_lt_0_compat; gpos
    | |- 0 < _ ^ _ => apply pow_lt; gpos
    | |- 0 < Rpower _ _ => apply exp_pos
    end ].
Lemma Rn k n : (k <= 3)%nat -> deriv_at k (jacP a b n) 1 = jw a n * vJ a b k (INR n).
Proof. apply jac_right; auto. Qed.
Lemma Ln k n : (k <= 3)%nat -> deriv_at k (jacP a b n) (-1) = (-1) ^ n * ((-1) ^ k * (jw b n * vJ b a k (INR n))).
Proof. apply jac_left; auto. Qed.

(** jw a n = (a+1)_n / n! through the Gamma function *)
Lemma jw_G c (Hc : -1 < c) m : jw c m = G 1 / G (c + 1) * (G (c + INR m + 1) / G (INR m + 1)).
Proof.
  induction m as [|m IH].
  - cbn [jw INR]. rewrite Rplus_0_r, Rplus_0_l. field. split; apply Rgt_not_eq, HG; lra.
  - cbn [jw]. rewrite IH, S_INR. pose proof (pos_INR m).
    replace (c + (INR m + 1) + 1) with (c + INR m + 1 + 1) by ring. rewrite (HG1 (c + INR m + 1)), (HG1 (INR m + 1)) by lra.
    field. repeat split; try lra; apply Rgt_not_eq, HG; lra.
Qed.
Lemma RVal r o q q1 k : (r <= 3)%nat -> INR o = q -> q + 1 = q1 ->
  deriv_at r (jacP a b (o + k)) 1 = G 1 / G (a + 1) * (G (a + INR k + q1) / G (INR k + q1)) * vJ a b r (INR k + q).
Proof.
  intros Hr <- <-. rewrite Rn by auto. rewrite (jw_G a Ha). rewrite plus_INR.
  replace (a + (INR o + INR k) + 1) with (a + INR k + (INR o + 1)) by ring. replace (INR o + INR k + 1) with (INR k + (INR o + 1)) by ring.
  rewrite (Rplus_comm (INR o) (INR k)). reflexivity.
Qed.
Lemma LVal r o q q1 k : (r <= 3)%nat -> INR o = q -> q + 1 = q1 ->
  deriv_at r (jacP a b (o + k)) (-1) = (-1) ^ o * (-1) ^ k * (-1) ^ r * (G 1 / G (b + 1) * (G (b + INR k + q1) / G (INR k + q1)) * vJ b a r (INR k + q)).
Proof.
  intros Hr <- <-. rewrite Ln by auto. rewrite (jw_G b Hb). rewrite plus_INR, pow_add.
  replace (b + (INR o + INR k) + 1) with (b + INR k + (INR o + 1)) by ring. replace (INR o + INR k + 1) with (INR k + (INR o + 1)) by ring.
  rewrite (Rplus_comm (INR o) (INR k)). ring.
Qed.
Lemma sum_scale st x d C us : Forall2 (fun it u => sval (snd it) x * d (fst it) = C * u) st us -> fold_right Rplus 0 us = 0 -> stencil_sum st x d = 0.
Proof.
  intros H E. assert (stencil_sum st x d = C * fold_right Rplus 0 us) as ->; [|rewrite E; ring].
  clear E. induction H as [|[o s] u st us H1 _ IH]; cbn [stencil_sum fold_right]; [ring|]. cbn [fst snd] in H1. rewrite H1, IH. ring.
Qed.
Definition vden (c : R) (r : nat) : R :=
  match r with 0%nat => 1 | 1%nat => 2 * (c + 1) | 2%nat => 4 * (c + 1) * (c + 2) | _ => 8 * (c + 1) * (c + 2) * (c + 3) end.
Definition CR (k K r : nat) : R :=
  G 1 / G (a + 1) * Rpower 2 (- a - b) * G (a + b + INR k + (INR K + 1)) / (G (b + INR k + (INR K + 1))) / vden a r.
Definition CL (k K r : nat) : R :=
  (-1) ^ k * (-1) ^ r * (G 1 / G (b + 1) * Rpower 2 (- a - b) * G (a + b + INR k + (INR K + 1)) / (G (a + INR k + (INR K + 1))) / vden b r).
Ltac expand := intros;
  cbn [fst snd sval]; unfold CR, CL, vJ, vden; cbn [INR pow];
  match goal with |- context [INR ?k] => let x := fresh "x" in set (x := INR k) in *; clearbody x end;
  try match goal with |- context [(-1) ^ ?k] => let z := fresh "z" in set (z := (-1) ^ k) in *; clearbody z end;
  repeat match goal with
  | |- context [?u + (1 + 1 + 1 + 1 + 1)] => replace (u + (1 + 1 + 1 + 1 + 1)) with (u + 5) by ring
  | |- context [?u + (1 + 1 + 1 + 1)] => replace (u + (1 + 1 + 1 + 1)) with (u + 4) by ring
  | |- context [?u + (1 + 1 + 1)] => replace (u + (1 + 1 + 1)) with (u + 3) by ring
  | |- context [?u + (1 + 1)] => replace (u + (1 + 1)) with (u + 2) by ring
  end;
  rewrite ?(P2 1 1), ?(P2 2 2), ?(P2 3 3), ?(P2 4 4), ?(P2 5 5) by (simpl; lra);
  match goal with H : 0 <= ?x |- _ =>
    rewrite ?(G2 (a + x)), ?(G3 (a + x)), ?(G4 (a + x)), ?(G5 (a + x)), ?(G6 (a + x)), ?(G7 (a + x)), ?(G8 (a + x)), ?(G9 (a + x)) by lra;
    rewrite ?(G2 (b + x)), ?(G3 (b + x)), ?(G4 (b + x)), ?(G5 (b + x)), ?(G6 (b + x)), ?(G7 (b + x)), ?(G8 (b + x)), ?(G9 (b + x)) by lra
  end;
  match goal with H : 0 <= ?x |- _ =>
    (* every factor becomes a variable: what is left is a monomial identity *)
    repeat match goal with |- context [G ?t] =>
      let P := fresh "P" in assert (G t <> 0) as P by (apply Rgt_not_eq, HG; clear - H Ha Hb; lra); revert P; generalize (G t); intros ? P end;
    repeat match goal with |- context [a + b + 2 * x + IZR ?n] =>
      let P := fresh "P" in assert (a + b + 2 * x + IZR n <> 0) as P by (clear - H Ha Hb; lra); revert P; generalize (a + b + 2 * x + IZR n); intros ? P end;
    repeat match goal with |- context [a + x + IZR ?n] =>
      let P := fresh "P" in assert (a + x + IZR n <> 0) as P by (clear - H Ha Hb; lra); revert P; generalize (a + x + IZR n); intros ? P end;
    repeat match goal with |- context [b + x + IZR ?n] =>
      let P := fresh "P" in assert (b + x + IZR n <> 0) as P by (clear - H Ha Hb; lra); revert P; generalize (b + x + IZR n); intros ? P end;
    repeat match goal with |- context [x + IZR ?m + a + b + IZR ?n] => generalize (x + IZR m + a + b + IZR n); intros ? end;
    repeat match goal with |- context [x + IZR ?m + b + a + IZR ?n] => generalize (x + IZR m + b + a + IZR n); intros ? end;
    repeat match goal with |- context [x + IZR ?m - IZR ?n] => generalize (x + IZR m - IZR n); intros ? end;
    repeat match goal with |- context [?u - IZR ?n] => match u with context [x] => generalize (u - IZR n); intros ? end end;
    repeat match goal with |- context [?u + IZR ?n] => match u with context [x] => generalize (u + IZR n); intros ? end end;
    repeat match goal with |- context [a + IZR ?n] =>
      let P := fresh "P" in assert (a + IZR n <> 0) as P by (clear - H Ha Hb; lra); revert P; generalize (a + IZR n); intros ? P end;
    repeat match goal with |- context [b + IZR ?n] =>
      let P := fresh "P" in assert (b + IZR n <> 0) as P by (clear - H Ha Hb; lra); revert P; generalize (b + IZR n); intros ? P end;
    cbn [pow]; field; repeat split; assumption
  end.
Ltac itemR r o q q1 := cbn [fst snd sval]; rewrite (RVal r o q q1) by (solve [lia | simpl; lra | lra]); expand.
Ltac itemL r o q q1 := cbn [fst snd sval]; rewrite (LVal r o q q1) by (solve [lia | simpl; lra | lra]); expand.
Lemma j1 : bcs_ok (jacP a b) (jacobi_Phi1_ne G a b).
Proof.
  unf; apply bcs_ok_intro; [nodup | nodup | ]. intros k. pose proof (pos_INR k) as Hx. cbn [sc_bcs].
  repeat (apply Forall_cons || apply Forall_nil); cbn [sc_stencil bc_order bc_side end_point].
  - apply (sum_scale _ _ _ (CL k 1 0) (phi1_L0 a b (INR k) (a + b + 2 * INR k) (a + INR k) (b + INR k))).
    + 
      constructor; [itemL 0%nat 0%nat 0 1|].
      constructor; [itemL 0%nat 2%nat 2 3|].
      constructor; [itemL 0%nat 1%nat 1 2|].
      constructor.
    + apply (phi1_L0_zero) with (d := a - b); lra.
  - apply (sum_scale _ _ _ (CR k 1 0) (phi1_R0 a b (INR k) (a + b + 2 * INR k) (a + INR k) (b + INR k))).
    + 
      constructor; [itemR 0%nat 0%nat 0 1|].
      constructor; [itemR 0%nat 2%nat 2 3|].
      constructor; [itemR 0%nat 1%nat 1 2|].
      constructor.
    + apply (phi1_R0_zero) with (d := a - b); lra.
Qed.

Lemma j2 : bcs_ok (jacP a b) (jacobi_Phi2_ne G a b).
Proof.
  unf; apply bcs_ok_intro; [nodup | nodup | ]. intros k. pose proof (pos_INR k) as Hx. cbn [sc_bcs].
  repeat (apply Forall_cons || apply Forall_nil); cbn [sc_stencil bc_order bc_side end_point].
  - apply (sum_scale _ _ _ (CL k 2 0) (phi2_L0 a b (INR k) (a + b + 2 * INR k) (a + INR k) (b + INR k))).
    + 
      constructor; [itemL 0%nat 0%nat 0 1|].
      constructor; [itemL 0%nat 2%nat 2 3|].
      constructor; [itemL 0%nat 4%nat 4 5|].
      constructor; [itemL 0%nat 1%nat 1 2|].
      constructor; [itemL 0%nat 3%nat 3 4|].
      constructor.
    + apply (phi2_L0_zero) with (d := a - b); lra.
  - apply (sum_scale _ _ _ (CL k 2 1) (phi2_L1 a b (INR k) (a + b + 2 * INR k) (a + INR k) (b + INR k))).
    + 
      constructor; [itemL 1%nat 0%nat 0 1|].
      constructor; [itemL 1%nat 2%nat 2 3|].
      constructor; [itemL 1%nat 4%nat 4 5|].
      constructor; [itemL 1%nat 1%nat 1 2|].
      constructor; [itemL 1%nat 3%nat 3 4|].
      constructor.
    + apply (phi2_L1_zero) with (d := a - b); lra.
  - apply (sum_scale _ _ _ (CR k 2 0) (phi2_R0 a b (INR k) (a + b + 2 * INR k) (a + INR k) (b + INR k))).
    + 
      constructor; [itemR 0%nat 0%nat 0 1|].
      constructor; [itemR 0%nat 2%nat 2 3|].
      constructor; [itemR 0%nat 4%nat 4 5|].
      constructor; [itemR 0%nat 1%nat 1 2|].
      constructor; [itemR 0%nat 3%nat 3 4|].
      constructor.
    + apply (phi2_R0_zero) with (d := a - b); lra.
  - apply (sum_scale _ _ _ (CR k 2 1) (phi2_R1 a b (INR k) (a + b + 2 * INR k) (a + INR k) (b + INR k))).
    + 
      constructor; [itemR 1%nat 0%nat 0 1|].
      constructor; [itemR 1%nat 2%nat 2 3|].
      constructor; [itemR 1%nat 4%nat 4 5|].
      constructor; [itemR 1%nat 1%nat 1 2|].
      constructor; [itemR 1%nat 3%nat 3 4|].
      constructor.
    + apply (phi2_R1_zero) with (d := a - b); lra.
Qed.

Lemma j3 : bcs_ok (jacP a b) (jacobi_Phi3_ne G a b).
Proof.
  unf; apply bcs_ok_intro; [nodup | nodup | ]. intros k. pose proof (pos_INR k) as Hx. cbn [sc_bcs].
  repeat (apply Forall_cons || apply Forall_nil); cbn [sc_stencil bc_order bc_side end_point].
  - apply (sum_scale _ _ _ (CL k 3 0) (phi3_L0 a b (INR k) (a + b + 2 * INR k) (a + INR k) (b + INR k))).
    + 
      constructor; [itemL 0%nat 0%nat 0 1|].
      constructor; [itemL 0%nat 2%nat 2 3|].
      constructor; [itemL 0%nat 4%nat 4 5|].
      constructor; [itemL 0%nat 6%nat 6 7|].
      constructor; [itemL 0%nat 1%nat 1 2|].
      constructor; [itemL 0%nat 3%nat 3 4|].
      constructor; [itemL 0%nat 5%nat 5 6|].
      constructor.
    + apply (phi3_L0_zero) with (d := a - b); lra.
  - apply (sum_scale _ _ _ (CL k 3 1) (phi3_L1 a b (INR k) (a + b + 2 * INR k) (a + INR k) (b + INR k))).
    + 
      constructor; [itemL 1%nat 0%nat 0 1|].
      constructor; [itemL 1%nat 2%nat 2 3|].
      constructor; [itemL 1%nat 4%nat 4 5|].
      constructor; [itemL 1%nat 6%nat 6 7|].
      constructor; [itemL 1%nat 1%nat 1 2|].
      constructor; [itemL 1%nat 3%nat 3 4|].
      constructor; [itemL 1%nat 5%nat 5 6|].
      constructor.
    + apply (phi3_L1_zero) with (d := a - b); lra.
  - apply (sum_scale _ _ _ (CL k 3 2) (phi3_L2 a b (INR k) (a + b + 2 * INR k) (a + INR k) (b + INR k))).
    + 
      constructor; [itemL 2%nat 0%nat 0 1|].
      constructor; [itemL 2%nat 2%nat 2 3|].
      constructor; [itemL 2%nat 4%nat 4 5|].
      constructor; [itemL 2%nat 6%nat 6 7|].
      constructor; [itemL 2%nat 1%nat 1 2|].
      constructor; [itemL 2%nat 3%nat 3 4|].
      constructor; [itemL 2%nat 5%nat 5 6|].
      constructor.
    + apply (phi3_L2_zero) with (d := a - b); lra.
  - apply (sum_scale _ _ _ (CR k 3 0) (phi3_R0 a b (INR k) (a + b + 2 * INR k) (a + INR k) (b + INR k))).
    + 
      constructor; [itemR 0%nat 0%nat 0 1|].
      constructor; [itemR 0%nat 2%nat 2 3|].
      constructor; [itemR 0%nat 4%nat 4 5|].
      constructor; [itemR 0%nat 6%nat 6 7|].
      constructor; [itemR 0%nat 1%nat 1 2|].
      constructor; [itemR 0%nat 3%nat 3 4|].
      constructor; [itemR 0%nat 5%nat 5 6|].
      constructor.
    + apply (phi3_R0_zero) with (d := a - b); lra.
  - apply (sum_scale _ _ _ (CR k 3 1) (phi3_R1 a b (INR k) (a + b + 2 * INR k) (a + INR k) (b + INR k))).
    + 
      constructor; [itemR 1%nat 0%nat 0 1|].
      constructor; [itemR 1%nat 2%nat 2 3|].
      constructor; [itemR 1%nat 4%nat 4 5|].
      constructor; [itemR 1%nat 6%nat 6 7|].
      constructor; [itemR 1%nat 1%nat 1 2|].
      constructor; [itemR 1%nat 3%nat 3 4|].
      constructor; [itemR 1%nat 5%nat 5 6|].
      constructor.
    + apply (phi3_R1_zero) with (d := a - b); lra.
  - apply (sum_scale _ _ _ (CR k 3 2) (phi3_R2 a b (INR k) (a + b + 2 * INR k) (a + INR k) (b + INR k))).
    + 
      constructor; [itemR 2%nat 0%nat 0 1|].
      constructor; [itemR 2%nat 2%nat 2 3|].
      constructor; [itemR 2%nat 4%nat 4 5|].
      constructor; [itemR 2%nat 6%nat 6 7|].
      constructor; [itemR 2%nat 1%nat 1 2|].
      constructor; [itemR 2%nat 3%nat 3 4|].
      constructor; [itemR 2%nat 5%nat 5 6|].
      constructor.
    + apply (phi3_R2_zero) with (d := a - b); lra.
Qed.

Lemma j4 : bcs_ok (jacP a b) (jacobi_Phi4_ne G a b).
Proof.
  unf; apply bcs_ok_intro; [nodup | nodup | ]. intros k. pose proof (pos_INR k) as Hx. cbn [sc_bcs].
  repeat (apply Forall_cons || apply Forall_nil); cbn [sc_stencil bc_order bc_side end_point].
  - apply (sum_scale _ _ _ (CL k 4 0) (phi4_L0 a b (INR k) (a + b + 2 * INR k) (a + INR k) (b + INR k))).
    + 
      constructor; [itemL 0%nat 0%nat 0 1|].
      constructor; [itemL 0%nat 2%nat 2 3|].
      constructor; [itemL 0%nat 4%nat 4 5|].
      constructor; [itemL 0%nat 6%nat 6 7|].
      constructor; [itemL 0%nat 8%nat 8 9|].
      constructor; [itemL 0%nat 1%nat 1 2|].
      constructor; [itemL 0%nat 3%nat 3 4|].
      constructor; [itemL 0%nat 5%nat 5 6|].
      constructor; [itemL 0%nat 7%nat 7 8|].
      constructor.
    + apply (phi4_L0_zero) with (d := a - b); lra.
  - apply (sum_scale _ _ _ (CL k 4 1) (phi4_L1 a b (INR k) (a + b + 2 * INR k) (a + INR k) (b + INR k))).
    + 
      constructor; [itemL 1%nat 0%nat 0 1|].
      constructor; [itemL 1%nat 2%nat 2 3|].
      constructor; [itemL 1%nat 4%nat 4 5|].
      constructor; [itemL 1%nat 6%nat 6 7|].
      constructor; [itemL 1%nat 8%nat 8 9|].
      constructor; [itemL 1%nat 1%nat 1 2|].
      constructor; [itemL 1%nat 3%nat 3 4|].
      constructor; [itemL 1%nat 5%nat 5 6|].
      constructor; [itemL 1%nat 7%nat 7 8|].
      constructor.
    + apply (phi4_L1_zero) with (d := a - b); lra.
  - apply (sum_scale _ _ _ (CL k 4 2) (phi4_L2 a b (INR k) (a + b + 2 * INR k) (a + INR k) (b + INR k))).
    + 
      constructor; [itemL 2%nat 0%nat 0 1|].
      constructor; [itemL 2%nat 2%nat 2 3|].
      constructor; [itemL 2%nat 4%nat 4 5|].
      constructor; [itemL 2%nat 6%nat 6 7|].
      constructor; [itemL 2%nat 8%nat 8 9|].
      constructor; [itemL 2%nat 1%nat 1 2|].
      constructor; [itemL 2%nat 3%nat 3 4|].
      constructor; [itemL 2%nat 5%nat 5 6|].
      constructor; [itemL 2%nat 7%nat 7 8|].
      constructor.
    + apply (phi4_L2_zero) with (d := a - b); lra.
  - apply (sum_scale _ _ _ (CL k 4 3) (phi4_L3 a b (INR k) (a + b + 2 * INR k) (a + INR k) (b + INR k))).
    + 
      constructor; [itemL 3%nat 0%nat 0 1|].
      constructor; [itemL 3%nat 2%nat 2 3|].
      constructor; [itemL 3%nat 4%nat 4 5|].
      constructor; [itemL 3%nat 6%nat 6 7|].
      constructor; [itemL 3%nat 8%nat 8 9|].
      constructor; [itemL 3%nat 1%nat 1 2|].
      constructor; [itemL 3%nat 3%nat 3 4|].
      constructor; [itemL 3%nat 5%nat 5 6|].
      constructor; [itemL 3%nat 7%nat 7 8|].
      constructor.
    + apply (phi4_L3_zero) with (d := a - b); lra.
  - apply (sum_scale _ _ _ (CR k 4 0) (phi4_R0 a b (INR k) (a + b + 2 * INR k) (a + INR k) (b + INR k))).
    + 
      constructor; [itemR 0%nat 0%nat 0 1|].
      constructor; [itemR 0%nat 2%nat 2 3|].
      constructor; [itemR 0%nat 4%nat 4 5|].
      constructor; [itemR 0%nat 6%nat 6 7|].
      constructor; [itemR 0%nat 8%nat 8 9|].
      constructor; [itemR 0%nat 1%nat 1 2|].
      constructor; [itemR 0%nat 3%nat 3 4|].
      constructor; [itemR 0%nat 5%nat 5 6|].
      constructor; [itemR 0%nat 7%nat 7 8|].
      constructor.
    + apply (phi4_R0_zero) with (d := a - b); lra.
  - apply (sum_scale _ _ _ (CR k 4 1) (phi4_R1 a b (INR k) (a + b + 2 * INR k) (a + INR k) (b + INR k))).
    + 
      constructor; [itemR 1%nat 0%nat 0 1|].
      constructor; [itemR 1%nat 2%nat 2 3|].
      constructor; [itemR 1%nat 4%nat 4 5|].
      constructor; [itemR 1%nat 6%nat 6 7|].
      constructor; [itemR 1%nat 8%nat 8 9|].
      constructor; [itemR 1%nat 1%nat 1 2|].
      constructor; [itemR 1%nat 3%nat 3 4|].
      constructor; [itemR 1%nat 5%nat 5 6|].
      constructor; [itemR 1%nat 7%nat 7 8|].
      constructor.
    + apply (phi4_R1_zero) with (d := a - b); lra.
  - apply (sum_scale _ _ _ (CR k 4 2) (phi4_R2 a b (INR k) (a + b + 2 * INR k) (a + INR k) (b + INR k))).
    + 
      constructor; [itemR 2%nat 0%nat 0 1|].
      constructor; [itemR 2%nat 2%nat 2 3|].
      constructor; [itemR 2%nat 4%nat 4 5|].
      constructor; [itemR 2%nat 6%nat 6 7|].
      constructor; [itemR 2%nat 8%nat 8 9|].
      constructor; [itemR 2%nat 1%nat 1 2|].
      constructor; [itemR 2%nat 3%nat 3 4|].
      constructor; [itemR 2%nat 5%nat 5 6|].
      constructor; [itemR 2%nat 7%nat 7 8|].
      constructor.
    + apply (phi4_R2_zero) with (d := a - b); lra.
  - apply (sum_scale _ _ _ (CR k 4 3) (phi4_R3 a b (INR k) (a + b + 2 * INR k) (a + INR k) (b + INR k))).
    + 
      constructor; [itemR 3%nat 0%nat 0 1|].
      constructor; [itemR 3%nat 2%nat 2 3|].
      constructor; [itemR 3%nat 4%nat 4 5|].
      constructor; [itemR 3%nat 6%nat 6 7|].
      constructor; [itemR 3%nat 8%nat 8 9|].
      constructor; [itemR 3%nat 1%nat 1 2|].
      constructor; [itemR 3%nat 3%nat 3 4|].
      constructor; [itemR 3%nat 5%nat 5 6|].
      constructor; [itemR 3%nat 7%nat 7 8|].
      constructor.
    + apply (phi4_R3_zero) with (d := a - b); lra.
Qed.
Ltac jac1 :=
  unf; apply bcs_ok_intro; [nodup | nodup | ];
  let k := fresh "k" in intros k;
  let x := fresh "x" in let Hx := fresh "Hx" in pose proof (pos_INR k) as Hx;
  let z := fresh "z" in let w := fresh "w" in let v := fresh "v" in
  cbn [sc_bcs];
  repeat (apply Forall_cons; [
     cbn [stencil_sum sval sc_stencil sc_bcs bc_order bc_side end_point];
     cbn [Nat.add]; rewrite ?Rn, ?Ln by lia; cbn [jw];
     rewrite ?S_INR; rewrite <- ?tech_pow_Rmult;
     set (x := INR k) in *; try set (z := (-1) ^ k); try set (w := jw a k); try set (v := jw b k);
     clearbody x; try clearbody z; try clearbody v; try clearbody w;
     rewrite ?(P2 1 1), ?(P2 2 2), ?(P2 3 3), ?(P2 4 4), ?(P2 5 5) by (simpl; lra);
     rewrite ?(G2 x), ?(G3 x), ?(G4 x), ?(G5 x), ?(G6 x), ?(G7 x), ?(G8 x), ?(G9 x) by lra;
     rewrite ?(G2 (a + x)), ?(G3 (a + x)), ?(G4 (a + x)), ?(G5 (a + x)) by lra;
     rewrite ?(G2 (b + x)), ?(G3 (b + x)), ?(G4 (b + x)), ?(G5 (b + x)) by lra;
     cbn [pow]; unfold vJ | ]); try apply Forall_nil.
Ltac fin := field; repeat split; try (apply Rgt_not_eq, Rlt_gt; gpos).

Lemma jacobi_ne_ok : Forall (bcs_ok (jacP a b)) (jacobi_ne_classes G a b).
Proof.
  unfold jacobi_ne_classes.
  repeat (apply Forall_cons; [ first [apply j1 | apply j2 | apply j3 | apply j4 | jac1; fin] |]). apply Forall_nil.
Qed.
End Jac.
