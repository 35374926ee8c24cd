(** CoordProofs3.v -- what grad, div and curl return in curvilinear coordinates, in terms of contravariant components. *)
From Coq Require Import Reals ZArith List Bool Arith Lia Lra.
From Verif Require Import FormsModel FormsSpec FormsProofs FormsProofs2 FormsProofs3 FormsProofs4 CoordModel CoordSpec CoordProofs CoordProofs2.
Import ListNotations.
Local Open Scope R_scope.

Section P.
Context {S : SymS} (L : SymSLaws S) (n m : nat) (rv : nat -> S) (normal : bool).
Implicit Types (e f r : expr S) (x y z : pt) (U : nat -> list nat -> pt -> R).
Notation ev := (ev L). Notation good := (good L). Notation mean := (mean L). Notation defined := (defined L).
Notation B := (tangent L rv). Notation gram := (gram L m rv). Notation regular := (regular L n m rv).
Notation co := (coords_of n m rv normal).
Notation rgt := (rgt L n m rv). Notation rct := (rct L n m rv). Notation rsg := (rsg L n m rv). Notation rhi := (rhi L m rv).
Hypothesis Hn : (1 <= n <= 3)%nat.

(** the length of the basis vector that a component refers to *)
Definition scl z i := if normal then rhi z i else 1.
(** contravariant components *)
Definition vc e i U z := mean e i U z / scl z i.
Definition vc2 e i j U z := mean e (i * n + j) U z / (scl z i * scl z j).
Lemma scl_pos z i : regular z -> (i < n)%nat -> 0 < scl z i.
Proof. intros H Hi. unfold scl. destruct normal; [|lra]. apply (hi_ok L n m rv Hn z i H Hi). Qed.

(** a coefficient with its value *)
Definition scS (i : nat) : S := if normal then scaling m rv i else s_int 1.
Lemma scS_ok z i : regular z -> (i < n)%nat -> good (scS i) z /\ ev (scS i) z = scl z i.
Proof.
  intros H Hi. unfold scS, scl. destruct normal.
  - destruct (hi_ok L n m rv Hn z i H Hi) as (A & E & _). auto.
  - split; [apply (good_int _ L), H|apply (ev_int _ L)].
Qed.
Lemma inv_hi_ok z i : regular z -> (i < n)%nat -> good (s_inv (scaling m rv i)) z /\ ev (s_inv (scaling m rv i)) z = / rhi z i.
Proof.
  intros H Hi. destruct (hi_ok L n m rv Hn z i H Hi) as (A & E & P). split.
  - apply (good_inv _ L); [exact A|]. rewrite E. lra.
  - rewrite (ev_inv _ L), E. reflexivity.
Qed.
Lemma inv_sg_ok z : regular z -> good (s_inv (sqrt_det_g n m rv)) z /\ ev (s_inv (sqrt_det_g n m rv)) z = / rsg z.
Proof.
  intros H. destruct (sg_ok L n m rv Hn z H) as (A & E & P). split.
  - apply (good_inv _ L); [exact A|]. rewrite E. lra.
  - rewrite (ev_inv _ L), E. reflexivity.
Qed.

(** the factors of _expr_from_vector_components *)
Lemma fac1_ok z i : regular z -> (i < n)%nat -> good (fac co n n i) z /\ ev (fac co n n i) z = scl z i.
Proof.
  intros H Hi. unfold fac. cbn [co_normal co_hi coords_of]. rewrite Nat.eqb_refl. exact (scS_ok z i H Hi).
Qed.
Lemma fac2_ok z i j : regular z -> (1 < n)%nat -> (i < n)%nat -> (j < n)%nat ->
  good (fac co n (n * n) (i * n + j)) z /\ ev (fac co n (n * n) (i * n + j)) z = scl z i * scl z j.
Proof.
  intros H H1 Hi Hj. unfold fac. cbn [co_normal co_hi coords_of]. unfold scl.
  destruct (Nat.eqb_spec (n * n) n); [nia|]. destruct (Nat.eqb_spec (n * n) (n ^ 2)); [|exfalso; cbn in *; lia].
  rewrite Nat.div_add_l, Nat.div_small, Nat.add_0_r by lia. rewrite Nat.add_comm, Nat.mod_add, Nat.mod_small by lia.
  destruct normal.
  - destruct (hi_ok L n m rv Hn z i H Hi) as (A & E & _). destruct (hi_ok L n m rv Hn z j H Hj) as (A' & E' & _).
    split; [apply (good_mul _ L); assumption|]. rewrite (ev_mul _ L), E, E'. reflexivity.
  - split; [apply (good_int _ L), H|rewrite (ev_int _ L); ring].
Qed.

(** *** contravariant components *)
Lemma rank_vec e : wf e -> (1 < n)%nat -> e_dim e = n -> num_components e = n -> forall c i, getitem e i = Some c -> expr_rank e = Some 1%nat.
Proof.
  intros W H1 D N c i G. unfold getitem in G. destruct (_ <=? _)%nat; [discriminate|]. destruct (expr_rank e) as [q|] eqn:E; [|discriminate].
  f_equal. eapply rank_unique; eauto; lia.
Qed.
Lemma contra_spec e i c : wf e -> (1 < n)%nat -> e_dim e = n -> num_components e = n -> contra co e i = Some c ->
  (i < n)%nat /\ e_dim c = n /\ num_components c = 1%nat /\ wf c /\
  forall z, regular z -> defined e z -> defined c z /\ forall U, mean c 0 U z = vc e i U z.
Proof.
  intros W H1 D N H. unfold contra in H. cbn [co_normal co_hi coords_of] in H.
  destruct (Nat.leb_spec (e_dim e) i) as [|Hi]; [discriminate|]. rewrite D in Hi.
  destruct (Nat.eqb_spec (e_dim e) 1); [lia|].
  assert (G : exists c0, getitem e i = Some c0 /\ c = if normal then mul c0 (s_inv (scaling m rv i)) else c0).
  { destruct normal.
    - destruct (getitem e i) as [c0|]; [|discriminate]. cbn [obind] in H. apply some_inj in H. eauto.
    - exists c. auto. }
  destruct G as (c0 & G & ->). pose proof (rank_vec e W H1 D N c0 i G) as Rk.
  destruct (getitem_rank1 _ _ _ Rk G) as (A1 & _ & _ & A2).
  assert (Nc : num_components c0 = 1%nat) by (unfold num_components; rewrite A2; reflexivity).
  assert (Mc : forall U z, mean c0 0 U z = mean e i U z) by (intros; unfold FormsSpec.mean; rewrite A2; reflexivity).
  split; [exact Hi|]. unfold vc, scl. destruct normal.
  - destruct (mul_like c0 (s_inv (scaling m rv i))) as [M1 M2]. split; [congruence|]. split; [congruence|].
    split; [apply mul_wf; eapply getitem_wf; eauto|]. intros z Rz Dz. destruct (inv_hi_ok z i Rz Hi) as [G1 E1].
    pose proof (getitem_defined L _ _ _ z G Dz) as Dc. split; [apply mul_defined; assumption|]. intros U.
    rewrite mul_mean by assumption. rewrite E1, Mc. reflexivity.
  - split; [congruence|]. split; [congruence|]. split; [eapply getitem_wf; eauto|]. intros z Rz Dz.
    split; [eapply getitem_defined; eauto|]. intros U. rewrite Mc. field.
Qed.
Lemma contra2_spec e i j c : wf e -> (1 < n)%nat -> e_dim e = n -> expr_rank e = Some 2%nat -> contra2 co e i j = Some c ->
  (i < n)%nat /\ (j < n)%nat /\ e_dim c = n /\ num_components c = 1%nat /\ wf c /\
  forall z, regular z -> defined e z -> defined c z /\ forall U, mean c 0 U z = vc2 e i j U z.
Proof.
  intros W H1 D Rk H. unfold contra2 in H. cbn [co_normal co_hi coords_of] in H.
  destruct (Nat.leb_spec (e_dim e) i) as [|Hi]; [discriminate|]. destruct (Nat.leb_spec (e_dim e) j) as [|Hj]; [discriminate|].
  cbn [orb] in H. rewrite D in Hi, Hj.
  destruct (getitem e i) as [r|] eqn:G1; [|discriminate]. cbn [obind] in H.
  destruct (getitem r j) as [c0|] eqn:G2; [|discriminate]. cbn [obind] in H.
  assert (Wr : wf r) by (eapply getitem_wf; eauto).
  destruct (getitem_rank2 _ _ _ Rk G1) as (Dr & _ & Cr).
  assert (Rr : expr_rank r = Some 1%nat).
  { unfold getitem in G2. destruct (_ <=? _)%nat; [discriminate|]. destruct (expr_rank r) as [q|] eqn:E; [|discriminate].
    f_equal. exact (row_rank e i r q W Rk G1 E). }
  destruct (getitem_rank1 _ _ _ Rr G2) as (A1 & _ & _ & A2).
  assert (Nc : num_components c0 = 1%nat) by (unfold num_components; rewrite A2; reflexivity).
  assert (Mc : forall U z, mean c0 0 U z = mean e (i * n + j) U z).
  { intros U z. rewrite (mean_mc L c0). unfold comp at 1. rewrite A2. cbn [nth]. rewrite (row_comp e i r j Rk G1) by lia. rewrite D. reflexivity. }
  assert (Dc : forall z, defined e z -> defined c0 z) by (intros z Dz; eapply getitem_defined; [exact G2|]; eapply getitem_defined; eauto).
  assert (Wc : wf c0) by (eapply getitem_wf; eauto).
  split; [exact Hi|]. split; [exact Hj|]. unfold vc2, scl. destruct normal; apply some_inj in H; subst c.
  - set (a := s_inv (s_mul (scaling m rv i) (scaling m rv j))).
    destruct (mul_like c0 a) as [M1 M2]. split; [congruence|]. split; [congruence|]. split; [apply mul_wf, Wc|].
    intros z Rz Dz. destruct (hi_ok L n m rv Hn z i Rz Hi) as (P1 & E1 & Q1). destruct (hi_ok L n m rv Hn z j Rz Hj) as (P2 & E2 & Q2).
    assert (Ga : good a z).
    { apply (good_inv _ L); [apply (good_mul _ L); assumption|]. rewrite (ev_mul _ L), E1, E2.
      apply Rgt_not_eq, Rmult_lt_0_compat; assumption. }
    split; [apply mul_defined; auto|]. intros U. rewrite mul_mean by auto. unfold a. rewrite (ev_inv _ L), (ev_mul _ L), E1, E2, Mc. reflexivity.
  - split; [congruence|]. split; [congruence|]. split; [exact Wc|]. intros z Rz Dz. split; [auto|]. intros U. rewrite Mc. field.
Qed.

(** *** sums of lists of expressions *)
Definition lmean (l : list (expr S)) U z : R := fold_right (fun e s => mean e 0 U z + s) 0 l.
Lemma lmean_app a b U z : lmean (a ++ b) U z = lmean a U z + lmean b U z.
Proof. induction a as [|e a IH]; [change (lmean [] U z) with 0; cbn [app]; ring|].
  change (lmean ((e :: a) ++ b) U z) with (mean e 0 U z + lmean (a ++ b) U z). change (lmean (e :: a) U z) with (mean e 0 U z + lmean a U z).
  rewrite IH. ring. Qed.
Lemma lmean_concat ll U z : lmean (concat ll) U z = rsum (length ll) (fun i => lmean (nth i ll []) U z).
Proof.
  rewrite <- (fold_right_nth (fun l => lmean l U z) []). induction ll as [|l ll IH]; [reflexivity|].
  cbn [concat fold_right]. rewrite lmean_app, IH. reflexivity.
Qed.
(** all expressions of the list are scalar expressions in n variables *)
Definition scalars (l : list (expr S)) := forall e, In e l -> wf e /\ e_dim e = n /\ num_components e = 1%nat.
Definition all_defined (l : list (expr S)) z := forall e, In e l -> defined e z.
Lemma scalars_app a b : scalars a -> scalars b -> scalars (a ++ b).
Proof. intros A C e He. apply in_app_or in He. destruct He; auto. Qed.
Lemma scalars_concat ll : (forall i, (i < length ll)%nat -> scalars (nth i ll [])) -> scalars (concat ll).
Proof.
  intros H e He. apply in_concat in He. destruct He as (l & Hl & He). destruct (In_nth _ _ [] Hl) as (i & Hi & <-). exact (H i Hi e He).
Qed.
Lemma defined_concat ll z : (forall i, (i < length ll)%nat -> all_defined (nth i ll []) z) -> all_defined (concat ll) z.
Proof.
  intros H e He. apply in_concat in He. destruct He as (l & Hl & He). destruct (In_nth _ _ [] Hl) as (i & Hi & <-). exact (H i Hi e He).
Qed.
Lemma sum_ok l s : sum_list l = Some s -> scalars l ->
  wf s /\ e_dim s = n /\ num_components s = 1%nat /\ (forall z, all_defined l z -> defined s z) /\ forall U z, mean s 0 U z = lmean l U z.
Proof.
  intros H Hl. destruct (sum_list_spec L l s n H) as (A & B' & C & D & E); [intros e He; destruct (Hl e He) as (P & Q & _); auto|].
  split; [exact B'|]. split; [exact A|]. split.
  - destruct l as [|d l]; [discriminate|]. rewrite (C d (or_introl eq_refl)). cbn [hd]. apply (Hl d (or_introl eq_refl)).
  - split; [exact D|]. intros U z. apply E.
Qed.

(** Dx of a scalar expression *)
Lemma dx_ok e i r : dx1 co e i = Some r -> wf e -> e_dim e = n -> num_components e = 1%nat ->
  (i < n)%nat /\ wf r /\ e_dim r = n /\ num_components r = 1%nat /\ forall z, defined e z -> defined r z /\
  forall U, smooth n U z -> partial i (mean e 0 U) z (mean r 0 U z).
Proof.
  intros H W D N. pose proof (dx1_spec _ _ _ _ H) as ((A & B') & Hi & _). split; [lia|]. split; [eapply dx1_wf; eauto|].
  split; [congruence|]. split; [congruence|]. intros z Dz. split; [eapply dx1_defined; eauto|]. intros U HU.
  eapply dx1_partial; eauto. rewrite D. exact HU.
Qed.
(** the derivative of what the expression means near z *)
Lemma dx_val e i r z U F d : dx1 co e i = Some r -> wf e -> e_dim e = n -> num_components e = 1%nat ->
  defined e z -> smooth n U z -> near i z (fun w => F w = mean e 0 U w) -> partial i F z d -> mean r 0 U z = d.
Proof. intros H W D N Dz HU E P. eapply dx1_of_partial; eauto. rewrite D. exact HU. Qed.

(** *** existence of the derivatives of the contravariant components *)
Lemma mean_partial e i k U z : wf e -> e_dim e = n -> defined e z -> smooth n U z -> (i < n)%nat -> exists d, partial i (mean e k U) z d.
Proof.
  intros W D Dz HU Hi. exists (mean_comp L (dx_comp i (comp e k)) U z). eapply partial_mc; eauto.
  - apply defined_comp, Dz.
  - rewrite <- D. apply wf_comp, W.
Qed.
Lemma scl_inv_partial z i k : regular z -> (i < n)%nat -> exists d, partial k (fun w => / scl w i) z d.
Proof.
  intros H Hi. unfold scl. destruct normal.
  - exists (ev (s_diff k (s_inv (scaling m rv i))) z).
    eapply partial_near; [|apply (ev_diff _ L), inv_hi_ok; assumption].
    eapply near_imp; [|exact (regular_near L n m rv Hn z k H)]. intros w Hw. apply inv_hi_ok; assumption.
  - exists 0. apply partial_const.
Qed.
Lemma vc_partial e i k U z : wf e -> e_dim e = n -> regular z -> defined e z -> smooth n U z -> (i < n)%nat -> (k < n)%nat ->
  exists d, partial k (vc e i U) z d.
Proof.
  intros W D H Dz HU Hi Hk. destruct (mean_partial e k i U z W D Dz HU Hk) as (d1 & P1). destruct (scl_inv_partial z i k H Hi) as (d2 & P2).
  eexists. exact (partial_mult k (mean e i U) (fun w => / scl w i) z _ _ P1 P2).
Qed.
Lemma vc2_partial e i j k U z : wf e -> e_dim e = n -> regular z -> defined e z -> smooth n U z -> (i < n)%nat -> (j < n)%nat -> (k < n)%nat ->
  exists d, partial k (vc2 e i j U) z d.
Proof.
  intros W D H Dz HU Hi Hj Hk. destruct (mean_partial e k (i * n + j) U z W D Dz HU Hk) as (d1 & P1).
  destruct (scl_inv_partial z i k H Hi) as (d2 & P2). destruct (scl_inv_partial z j k H Hj) as (d3 & P3).
  pose proof (partial_mult k (mean e (i * n + j) U) _ z _ _ P1 (partial_mult k (fun w => / scl w i) (fun w => / scl w j) z _ _ P2 P3)) as P.
  eexists. eapply partial_near; [|exact P].
  eapply near_imp; [|exact (regular_near L n m rv Hn z k H)]. intros w Hw. unfold vc2.
  pose proof (scl_pos w i Hw Hi). pose proof (scl_pos w j Hw Hj). field. split; lra.
Qed.
Lemma vec_vc e U z a : regular z -> vec L n m rv normal e U z a = rsum n (fun i => vc e i U z * B z i a).
Proof.
  intros H. apply rsum_ext. intros i Hi. unfold bvec, vc, scl. destruct normal; [|field].
  pose proof (proj2 (proj2 (hi_ok L n m rv Hn z i H Hi))) as P. unfold CoordProofs2.rhi in *. field. lra.
Qed.
Lemma ten_vc e U z a c : regular z -> ten L n m rv normal e U z a c = rsum n (fun i => rsum n (fun j => vc2 e i j U z * B z i a * B z j c)).
Proof.
  intros H. apply rsum_ext. intros i Hi. apply rsum_ext. intros j Hj. unfold bvec, vc2, scl. destruct normal; [|field].
  pose proof (proj2 (proj2 (hi_ok L n m rv Hn z i H Hi))) as P. pose proof (proj2 (proj2 (hi_ok L n m rv Hn z j H Hj))) as P'.
  unfold CoordProofs2.rhi in *. field. split; lra.
Qed.
End P.
