(** LegMatrixProofs.v -- from tables to matrices. *)
From Coq Require Import Reals Lra Lia List Arith ZArith.
From Verif Require Import Base Fld SparseModel SparseSpec RPoly StencilModel StencilModel2 StencilSpec StencilProofs StencilProofs3
  MatrixSpec MatrixProofs MatrixProofs2 LegMatrixModel LegMatrixSpec.
Import ListNotations.
Local Open Scope R_scope.

(** ** functions given by a stencil *)
Definition expands (U : nat -> poly) (st : list (nat * sitem)) (dim : nat) : Prop :=
  forall k m x, (k < dim)%nat -> deriv_at m (U k) x = stencil_sum st (INR k) (fun o => deriv_at m (legL (o + k)) x).
Definition unit_stencil : list (nat * sitem) := [(0%nat, SConst 1)].
Definition space_stencil (sc : bool) (s : lspace) : list (nat * sitem) :=
  match s with SpL => unit_stencil | _ => sc_stencil (space_class sc s) end.
Lemma space_expands sc s N : expands (space_basis sc s N) (space_stencil sc s) (space_dim sc s N).
Proof.
  intros k m x Hk. destruct s; [cbn [space_basis space_stencil unit_stencil stencil_sum sval Nat.add]; ring|..];
    apply basis_deriv; try exact Hk; destruct sc; nodup.
Qed.

Fixpoint spoly (st : list (nat * sitem)) (x : R) (d : nat -> poly) : poly :=
  match st with [] => [] | (o, s) :: r => padd (pscale (sval s x) (d o)) (spoly r x d) end.
Lemma peval_spoly st y d x : peval (spoly st y d) x = stencil_sum st y (fun o => peval (d o) x).
Proof. induction st as [|[o s] r IH]; cbn [spoly stencil_sum]; [reflexivity|]. rewrite peval_padd, peval_pscale, IH. reflexivity. Qed.
Lemma ip_spoly_r p st y d : ip p (spoly st y d) = stencil_sum st y (fun o => ip p (d o)).
Proof. induction st as [|[o s] r IH]; cbn [spoly stencil_sum]; [apply ip_nil_r|]. rewrite ip_padd_r, ip_pscale_r, IH. reflexivity. Qed.
Lemma ip_spoly_l p st y d : ip (spoly st y d) p = stencil_sum st y (fun o => ip (d o) p).
Proof. rewrite ip_comm, ip_spoly_r. induction st as [|[o s] r IH]; cbn [stencil_sum]; [reflexivity|]. rewrite IH, ip_comm. reflexivity. Qed.
Lemma stencil_sum_ext st y d d' : (forall o, d o = d' o) -> stencil_sum st y d = stencil_sum st y d'.
Proof. intros H. induction st as [|[o s] r IH]; cbn [stencil_sum]; [reflexivity|]. rewrite IH, H. reflexivity. Qed.

Lemma ip_stencils U V st1 st2 r c w a b k j : expands U st1 r -> expands V st2 c -> (k < r)%nat -> (j < c)%nat ->
  ip (pmul w (dn a (U k))) (dn b (V j)) =
  stencil_sum st1 (INR k) (fun o => stencil_sum st2 (INR j) (fun o' => ip (pmul w (dn a (legL (o + k)))) (dn b (legL (o' + j))))).
Proof.
  intros HU HV Hk Hj.
  rewrite (ip_ext _ (spoly st1 (INR k) (fun o => pmul w (dn a (legL (o + k))))) _ (spoly st2 (INR j) (fun o => dn b (legL (o + j))))).
  - rewrite ip_spoly_l. apply stencil_sum_ext. intros o. apply ip_spoly_r.
  - intros x. rewrite peval_pmul, peval_spoly. specialize (HU k a x Hk). unfold deriv_at in HU. rewrite HU.
    clear. induction st1 as [|[o s] t IH]; cbn [stencil_sum]; [ring|]. rewrite <- IH, peval_pmul. ring.
  - intros x. rewrite peval_spoly. exact (HV j b x Hj).
Qed.

Definition wpoly (w : weight) : poly := match w with W1 => w0 | W1x => w1 | W1x2 => w2 end.
Lemma wpoly_val w x : peval (wpoly w) x = weight_fun w x.
Proof. destruct w; [apply w0_val|apply w1_val|apply w2_val]. Qed.
Lemma integral_poly f p : (forall x, f x = peval p x) -> integral f (-1) 1 (pint p).
Proof.
  intros E. apply newton_integral; [lra| |].
  - intros x e He. destruct (continuity_peval p x e He) as (d & Hd & H). exists d. split; [exact Hd|].
    intros y Hy. specialize (H y Hy). rewrite !E. exact H.
  - eapply newton_ext; [|apply pint_newton]. intros x. rewrite E. reflexivity.
Qed.
Lemma leg_inner_ip w a b u v : leg_inner (weight_fun w) (deriv_at a u) (deriv_at b v) (ip (pmul (wpoly w) (dn a u)) (dn b v)).
Proof.
  unfold leg_inner, ip. apply integral_poly. intros x. rewrite !peval_pmul, wpoly_val. reflexivity.
Qed.

(** a matrix holds the products when its entries are the double sums over the stencils *)
Lemma entry_intro sc N e D :
  sm_rows RFld (le_mat e) = space_dim sc (le_test e) N -> sm_cols RFld (le_mat e) = space_dim sc (le_trial e) N ->
  (forall n m, ip (pmul (wpoly (le_weight e)) (dn (le_testd e) (legL n))) (dn (le_triald e) (legL m)) = D n m) ->
  (forall k j, (k < space_dim sc (le_test e) N)%nat -> (j < space_dim sc (le_trial e) N)%nat ->
     mat_entry RFld (le_mat e) k j =
     stencil_sum (space_stencil sc (le_test e)) (INR k) (fun o => stencil_sum (space_stencil sc (le_trial e)) (INR j)
       (fun o' => D (o + k)%nat (o' + j)%nat))) ->
  entry_ok sc N e.
Proof.
  intros Hr Hc HD HE. split; [exact Hr|]. split; [exact Hc|]. intros k j Hk Hj. rewrite HE by assumption.
  replace (stencil_sum _ _ _) with (ip (pmul (wpoly (le_weight e)) (dn (le_testd e) (space_basis sc (le_test e) N k)))
    (dn (le_triald e) (space_basis sc (le_trial e) N j))); [apply leg_inner_ip|].
  rewrite (ip_stencils _ _ _ _ _ _ _ _ _ _ _ (space_expands sc (le_test e) N) (space_expands sc (le_trial e) N) Hk Hj).
  apply stencil_sum_ext. intros o. apply stencil_sum_ext. intros o'. apply HD.
Qed.

(** ** tactics *)
Lemma pow_m1 n : (-1) ^ n = 1 \/ (-1) ^ n = -1.
Proof. induction n as [|n [H|H]]; [left; reflexivity|right|left]; cbn [pow]; rewrite H; lra. Qed.
(** j = k + i with i < d, or j >= k + d, and the same below *)
Ltac above j k e := match goal with |- _ =>
  let He := fresh "He" in
  (assert (He : exists e, j = (e + k)%nat) by (exists (j - k)%nat; lia)); destruct He as [e He]; subst j end.
Ltac decide_nat := repeat match goal with
  | |- context [Z.eq_dec ?a ?b] => destruct (Z.eq_dec a b); [try (exfalso; lia)|try (exfalso; lia)]
  | |- context [Nat.eqb ?a ?b] => destruct (Nat.eqb_spec a b); [try (exfalso; lia)|try (exfalso; lia)]
  | |- context [Nat.leb ?a ?b] => destruct (Nat.leb_spec a b); [try (exfalso; lia)|try (exfalso; lia)]
  | |- context [Nat.ltb ?a ?b] => destruct (Nat.ltb_spec a b); [try (exfalso; lia)|try (exfalso; lia)]
  | |- context [Nat.min ?a ?b] => first [rewrite (Nat.min_l a b) by lia | rewrite (Nat.min_r a b) by lia]
  end.
Ltac inrs := rewrite ?plus_INR, ?S_INR; cbn [INR].
Ltac pows := repeat progress (rewrite ?pow_add; cbn [pow]);
  repeat match goal with |- context [(-1) ^ ?n] => let E := fresh "E" in destruct (pow_m1 n) as [E|E]; rewrite ?E; clear E end.
Ltac absx := repeat match goal with |- context [INR ?n] =>
  let x := fresh "x" in let H := fresh "Hx" in pose proof (pos_INR n) as H; set (x := INR n) in *; clearbody x end.
