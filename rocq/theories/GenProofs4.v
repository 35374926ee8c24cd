(** GenProofs4.v -- the assembled matrices. *)
From Coq Require Import Reals ZArith List Bool Arith Lia Lra.
From Verif Require Import Base Fld SparseModel SparseSpec RPoly StencilModel StencilSpec StencilProofs StencilProofs8 MatrixProofs JacobiModel JacobiProofs2 JacobiProofs3 GenModel GenSpec GenProofs GenProofs2 GenProofs3.
Import ListNotations.
Local Open Scope R_scope.
Notation rsum := (gsum 0 Rplus).

(** ** stencil products *)
Section Stencil.
Variables (f : poly -> poly -> R) (P P' : nat -> poly) (Ax : nat -> mat) (test trial : gspace) (B : mat) (t s : nat) (m : option measure).
Hypothesis F : is_form f.
Hypothesis HA : powers P Ax.
Hypothesis HB : forall l n, (l < g_N test)%nat -> (n < g_N trial)%nat -> B l n = f (dn t (P l)) (dn s (P' n)).
(** no measure; or the test function is not differentiated and the trial space is orthogonal to the polynomials beyond the test space *)
Hypothesis HM : m = None \/ t = 0%nat /\ forall l n, (g_N test <= l)%nat -> (n < g_N trial)%nat -> f (P l) (dn s (P' n)) = 0.
Lemma product_ok i j : product test trial Ax m B i j = form_entry f m t s (fn P test i) (fn P' trial j).
Proof.
  destruct m as [ms|].
  - destruct HM as [H|[T0 HZ]]; [discriminate|]. unfold form_entry. rewrite (product_some f P P' Ax test trial B t s F HA HB ms i j).
    + rewrite T0. reflexivity.
    + intros k l _ _ Hl _. rewrite T0. cbn [dn]. unfold fn. rewrite (f_dn_r f F). apply sum_0. intros n Hn. rewrite HZ by auto. ring.
  - unfold form_entry, times. apply (product_none f P P' Ax test trial B t s F HB).
Qed.
End Stencil.

Lemma bc_right (f : poly -> poly -> R) (P P' : nat -> poly) t s O (S B : mat) N l j : is_form f -> (l < N)%nat ->
  (forall l n, (l < N)%nat -> (n < O)%nat -> B l n = f (dn t (P l)) (dn s (P' n))) ->
  mmul O B (tr S) l j = f (dn t (P l)) (dn s (bfn P' O S j)).
Proof. intros F Hl HB. unfold mmul, tr, bfn. rewrite (f_dn_r f F). apply sum_ext. intros n Hn. rewrite HB by auto. ring. Qed.

(** the boundary functions are a space whose stencil is S *)
Section Bc.
Variables (f : poly -> poly -> R) (P P' : nat -> poly) (Ax : nat -> mat) (test : gspace) (O nb : nat) (S B : mat) (s : nat) (m : option measure).
Hypothesis F : is_form f.
Hypothesis HA : powers P Ax.
Hypothesis HB : forall l n, (l < g_N test)%nat -> (n < O)%nat -> B l n = f (P l) (dn s (P' n)).
(** orthogonality: the derivative of P'_n has degree at most n *)
Hypothesis HO : forall l n, (n < O)%nat -> (n < l)%nat -> f (P l) (dn s (P' n)) = 0.
Hypothesis HN : (O <= g_N test)%nat.
Hypothesis HK : (0 <= first_key test)%Z.
Hypothesis Hnb : (nb <= O)%nat.
Let right := mmul O B (tr S).
Definition bc_product : mat := match m with
  | None => mmul (g_N test) (stencil test) (mmul O B (tr S))
  | Some m => mmul (g_N test) (stencil test) (mmul (g_N test) (tr (measure_matrix Ax m)) (mmul O B (tr S))) end.
Lemma right_val l j : (l < g_N test)%nat -> right l j = f (P l) (dn s (bfn P' O S j)).
Proof. intros Hl. unfold right. rewrite (bc_right f P P' 0 s O S B (g_N test) l j F Hl); [reflexivity|]. exact HB. Qed.
Lemma right_zero l j : (O <= l)%nat -> f (P l) (dn s (bfn P' O S j)) = 0.
Proof. intros Hl. unfold bfn. rewrite (f_dn_r f F). apply sum_0. intros n Hn. rewrite HO by lia. ring. Qed.
Lemma bc_product_ok i j : bc_product i j = form_entry f m 0 s (fn P test i) (bfn P' O S j).
Proof.
  unfold bc_product, form_entry. cbn [dn]. set (u := dn s (bfn P' O S j)) in *. destruct m as [ms|].
  - rewrite (f_val_l f F _ (g_N test) (stencil test i) (fun k => times (Some ms) (P k)) u) by (intros x; apply (times_comb P (Some ms))).
    unfold mmul at 1. apply sum_ext. intros k Hk. f_equal. fold right.
    change (times (Some ms) (P k)) with (dn 0 (times (Some ms) (P k))). rewrite (f_measure f F P Ax HA 0). cbn [dn]. unfold mmul.
    rewrite (sum_ext (g_N test) _ (fun l => fold_right (fun tm s0 => fst tm * (Ax (snd tm) l k * f (P l) u) + s0) 0 ms)).
    + induction ms as [|tm ms IH]; cbn [fold_right]; [apply sum_0; reflexivity|]. rewrite sum_add, sum_scal, IH. f_equal. f_equal.
      apply sum_range. intros l H1 H2. destruct HA as [_ HAb].
      destruct (Nat.le_gt_cases (g_N test) l) as [H|H]; [unfold u; rewrite right_zero by lia; ring|]. rewrite HAb by lia. ring.
    + intros l Hl. rewrite (right_val l j Hl). fold u. unfold tr, measure_matrix. induction ms as [|tm ms IH]; cbn [fold_right]; [ring|]. rewrite Rmult_plus_distr_r, IH. ring.
  - unfold mmul at 1, fn, times. rewrite (f_pcomb_l f F). apply sum_ext. intros k Hk. f_equal. fold right. apply right_val, Hk.
Qed.
Lemma bc_ok i j : (j < nb)%nat -> assemble_stencil_bc test O S Ax m B i j = form_entry f m 0 s (fn P test i) (bfn P' O S j).
Proof.
  intros Hj. rewrite <- bc_product_ok. unfold assemble_stencil_bc. fold bc_product. apply banded_ok. intros H.
  enough (exists k l, stencil test i k <> 0 /\ (Z.abs (Z.of_nat l - Z.of_nat k) <= degree_of m)%Z /\ right l j <> 0 /\ (l < g_N test)%nat) as (k & l & H1 & H2 & H3 & H4).
  { apply key_range in H1. destruct (Nat.lt_ge_cases l O) as [Hl|Hl]; [lia|]. exfalso. apply H3. rewrite right_val by exact H4. apply right_zero, Hl. }
  unfold bc_product in H. destruct m as [ms|]; cbn [degree_of].
  - unfold mmul at 1 in H. apply nonzero_sum in H as (k & Hk & H).
    assert (stencil test i k <> 0) as Hs by (intros E; rewrite E in H; apply H; ring).
    assert (mmul (g_N test) (tr (measure_matrix Ax ms)) (mmul O B (tr S)) k j <> 0) as H' by (intros E; rewrite E in H; apply H; ring).
    unfold mmul at 1 in H'. apply nonzero_sum in H' as (l & Hl & H').
    assert (measure_matrix Ax ms l k <> 0) as Hm by (intros E; unfold tr at 1 in H'; rewrite E in H'; apply H'; ring).
    apply measure_band in Hm; [|apply HA]. exists k, l. repeat split; auto; try lia. unfold right. intros E. rewrite E in H'. apply H'. ring.
  - unfold mmul at 1 in H. apply nonzero_sum in H as (k & Hk & H). exists k, k. repeat split; auto; try lia.
    + intros E. rewrite E in H. apply H. ring.
    + unfold right. intros E. rewrite E in H. apply H. ring.
Qed.
End Bc.

(** ** Phi_k *)
Section PhiA.
Variables (f : poly -> poly -> R) (P : nat -> poly) (test : gspace) (am bm : nat -> mat) (s : nat) (ms : measure).
Let k := ((g_N test - g_dim test) / 2)%nat.
Hypothesis F : is_form f.
Hypothesis HA : dpowers P k am.
Hypothesis HB : integrates P bm.
Hypothesis HD : dual f P (fn P test) k (g_dim test).
Hypothesis Hs : (s <= k)%nat.
Lemma phi_orth_ok N : exists A, assemble_phi_orth test N s am bm ms = Some A /\
  forall i j, (i < g_dim test)%nat -> (j < N)%nat -> A i j = f (times (Some ms) (dn s (P j))) (fn P test i).
Proof.
  unfold assemble_phi_orth. fold k. destruct (Nat.ltb_spec k s); [lia|]. eexists. split; [reflexivity|]. intros i j Hi Hj.
  rewrite banded_ok; [apply (Lsum_ok f P (fn P test) k (g_dim test) am bm F HA HB HD); auto|].
  intros Hn. apply (Lsum_band P k am bm HA HB) in Hn; lia.
Qed.
Lemma phi_ok trial : exists A, assemble_phi test trial s am bm ms = Some A /\
  forall i j, (i < g_dim test)%nat -> A i j = f (times (Some ms) (dn s (fn P trial j))) (fn P test i).
Proof.
  unfold assemble_phi. fold k. destruct (Nat.ltb_spec k s); [lia|]. eexists. split; [reflexivity|]. intros i j Hi.
  rewrite banded_ok.
  - unfold mmul, tr. unfold fn at 1. apply (Lsum_comb f P (fn P test) k (g_dim test) am bm F HA HB HD); auto.
  - unfold mmul, tr. intros Hn. apply nonzero_sum in Hn as (n & Hn & Hv).
    assert (stencil trial j n <> 0) as H1 by (intros E; rewrite E in Hv; apply Hv; ring).
    assert (Lsum k (k - s) (g_dim test) (g_N trial) am bm ms i n <> 0) as H2 by (intros E; rewrite E in Hv; apply Hv; ring).
    apply key_range in H1. apply (Lsum_band P k am bm HA HB) in H2; lia.
Qed.
Lemma phi_bc_ok O nb S : (k <= O)%nat -> (nb <= O)%nat -> exists A, assemble_phi_bc test O S s am bm ms = Some A /\
  forall i j, (i < g_dim test)%nat -> (j < nb)%nat -> A i j = f (times (Some ms) (dn s (bfn P O S j))) (fn P test i).
Proof.
  intros HO Hnb. unfold assemble_phi_bc. fold k. destruct (Nat.ltb_spec k s); [lia|]. destruct (Nat.leb_spec k O); [|lia].
  eexists. split; [reflexivity|]. intros i j Hi Hj. rewrite banded_ok.
  - unfold mmul, tr. unfold bfn. apply (Lsum_comb f P (fn P test) k (g_dim test) am bm F HA HB HD); auto.
  - unfold mmul, tr. intros Hn. apply nonzero_sum in Hn as (n & Hn & Hv).
    assert (Lsum k (k - s) (g_dim test) O am bm ms i n <> 0) as H2 by (intros E; rewrite E in Hv; apply Hv; ring).
    apply (Lsum_band P k am bm HA HB) in H2; lia.
Qed.
End PhiA.

(** ** Legendre classes *)
Definition space_of (cls : stencil_class) (N : nat) : gspace := mkGspace N (N - List.length (sc_bcs cls)) (stencil_matrix cls N) 0.
Lemma fn_class cls N k m x :
  NoDup (map fst (sc_stencil cls)) -> Forall (fun it => (fst it <= List.length (sc_bcs cls))%nat) (sc_stencil cls) ->
  (k < N - List.length (sc_bcs cls))%nat ->
  deriv_at m (fn legL (space_of cls N) k) x = stencil_sum (sc_stencil cls) (INR k) (fun o => deriv_at m (legL (o + k)%nat) x).
Proof. intros H1 H2 H3. exact (basis_deriv legL cls N k m x H1 H2 H3). Qed.
Definition phi_classes : list (nat * stencil_class) := [(1%nat, legendre_Phi1); (2%nat, legendre_Phi2); (3%nat, legendre_Phi3); (4%nat, legendre_Phi4); (6%nat, legendre_Phi6)].
Ltac phi_case m x Hm :=
  (split; [reflexivity|]);
  match goal with |- peval (fn legL (space_of ?c ?n) m) x = _ => change (peval (fn legL (space_of c n) m) x) with (deriv_at 0 (fn legL (space_of c n) m) x);
    rewrite (fn_class c n m 0 x); [|solve [nodup]|solve [nodup]|exact Hm] end;
  cbn [stencil_sum sc_stencil legendre_Phi1 legendre_Phi2 legendre_Phi3 legendre_Phi4 legendre_Phi6 sval gsum Nat.mul];
  unfold deriv_at; cbn [dn]; rewrite ?(Nat.add_comm _ m); cbn [Nat.add Nat.mul]; rewrite ?Nat.add_0_r;
  repeat match goal with |- context [peval (legL ?a) x] => let v := fresh "v" in set (v := peval (legL a) x); clearbody v end;
  unfold pc; cbn [bn Nat.add pr pow]; rewrite !INR_IZR_INZ in *; cbn [Z.of_nat Pos.of_succ_nat Pos.succ] in *;
  match goal with H : 0 <= IZR ?z |- _ => set (y := IZR z) in *; clearbody y end; field; neq0.
Lemma phi_comb k cls N m x : In (k, cls) phi_classes -> (m < N - 2 * k)%nat ->
  List.length (sc_bcs cls) = (2 * k)%nat /\ peval (fn legL (space_of cls N) m) x = peval (comb2 m (S k) (pc k m)) x.
Proof.
  intros H Hm. rewrite comb2_eval. pose proof (pos_INR m) as HM.
  destruct H as [H|[H|[H|[H|[H|[]]]]]]; injection H as <- <-.
  - phi_case m x Hm.
  - phi_case m x Hm.
  - phi_case m x Hm.
  - phi_case m x Hm.
  - phi_case m x Hm.
Qed.
