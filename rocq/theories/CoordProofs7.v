(** CoordProofs7.v -- the Cartesian branch, and statements that cover both branches. *)
From Coq Require Import Reals ZArith List Bool Arith Lia Lra.
From Verif Require Import FormsModel FormsSpec FormsProofs FormsProofs2 FormsProofs3 FormsProofs4 CoordModel CoordSpec CoordProofs CoordProofs2 CoordProofs3 CoordProofs4 CoordProofs5 CoordProofs6.
Import ListNotations.
Local Open Scope R_scope.

Section P.
Context {S : SymS} (L : SymSLaws S) (n m : nat) (rv : nat -> S) (normal : bool).
Implicit Types (e f r : expr S) (x y z : pt) (U : nat -> list nat -> pt -> R).
Notation ev := (ev L). Notation good := (good L). Notation mean := (mean L). Notation defined := (defined L).
Notation B := (tangent L rv). Notation gram := (gram L m rv). Notation regular := (regular L n m rv).
Notation co := (coords_of n m rv normal).
Notation rgt := (rgt L n m rv). Notation rct := (rct L n m rv). Notation rsg := (rsg L n m rv). Notation rhi := (rhi L m rv).
Notation scl := (scl L m rv normal). Notation vc := (vc L m rv normal). Notation vc2 := (vc2 L n m rv normal).
Notation cv := (cv L n m rv normal). Notation cov_deriv := (cov_deriv L n m rv normal).
Hypothesis Hn : (1 <= n <= 3)%nat.

(** the laws, restricted to regular points *)
Definition rgood (a : S) (x : pt) : Prop := good a x /\ regular x.
Definition restrict : SymLaws S.
Proof.
  refine (mkLaws S ev rgood regular (ev_int _ L) (ev_add _ L) (ev_mul _ L) (ev_opp _ L) (ev_inv _ L) _ _ _ _ _ _ _ _ _ _ _ _ _ _ (ev_is0 _ L)); unfold rgood.
  - tauto.
  - intros k x Hx. split; [apply (good_int _ L), Hx|exact Hx].
  - intros a b x [A X] [C _]. split; [apply (good_add _ L); assumption|exact X].
  - intros a b x [A X] [C _]. split; [apply (good_mul _ L); assumption|exact X].
  - intros a x [A X]. split; [apply (good_opp _ L); assumption|exact X].
  - intros a x [A X] Z. split; [apply (good_inv _ L); assumption|exact X].
  - intros i a x [A X]. split; [apply (good_diff _ L); assumption|exact X].
  - intros a x [A X]. split; [apply (good_simplify _ L); assumption|exact X].
  - intros a x [A X]. split; [apply (good_refine _ L); assumption|exact X].
  - intros a x i [A X]. exact (near_and _ _ _ _ (good_near L a x i A) (regular_near L n m rv Hn x i X)).
  - intros i a x [A X]. apply (ev_diff _ L), A.
  - intros i j a x [A X]. apply (ev_diff_swap _ L), A.
  - intros a x [A X]. apply (ev_simplify _ L), A.
  - intros a x [A X]. apply (ev_refine _ L), A.
Defined.
Lemma mean_restrict e i U z : FormsSpec.mean restrict e i U z = mean e i U z. Proof. reflexivity. Qed.
Lemma defined_restrict e z : FormsSpec.defined restrict e z <-> regular z /\ defined e z.
Proof.
  split.
  - intros [A C]. split; [exact A|]. split; [apply A|]. intros c Hc t Ht. apply (C c Hc t Ht).
  - intros (A & D & C). split; [exact A|]. intros c Hc t Ht. split; [apply (C c Hc t Ht)|exact A].
Qed.

Section Cart.
Hypothesis HC : is_cartesian n m rv = true.
Lemma cart_off : n = m /\ offdiag n m rv = true /\ forall i, (i < n)%nat -> s_is1 (cov_metric m rv i i) = true.
Proof.
  unfold is_cartesian in HC. destruct (Nat.eqb_spec n m) as [E|]; [|discriminate]. cbn [negb] in HC.
  apply andb_prop in HC. destruct HC as [A C]. rewrite forallb_forall in C. split; [exact E|]. split; [exact A|].
  intros i Hi. apply C, in_seq. lia.
Qed.
Lemma cart_gram z i j : regular z -> (i < n)%nat -> (j < n)%nat -> gram z i j = delta i j.
Proof.
  intros Rz Hi Hj. destruct cart_off as (_ & A & C). unfold delta. destruct (Nat.eqb_spec i j) as [<-|E].
  - rewrite <- (proj2 (metric_ok L n m rv Hn z i i (regular_rv L n m rv z Rz))). apply (ev_is1 _ L), C, Hi.
  - apply (offdiag_gram L n m rv Hn z i j A Rz Hi Hj E).
Qed.
Lemma cart_gt z i j : regular z -> (i < n)%nat -> (j < n)%nat -> rgt z i j = delta i j.
Proof.
  intros Rz Hi Hj. rewrite <- (gt_g L n m rv Hn z Rz i j Hi Hj).
  rewrite (rsum_ext n _ (fun k => rgt z i k * delta k j)) by (intros k Hk; rewrite cart_gram by assumption; reflexivity).
  symmetry. apply (rsum_delta_r n j (fun k => rgt z i k) Hj).
Qed.
Lemma cart_hi1 z i : regular z -> (i < n)%nat -> rhi z i = 1.
Proof.
  intros Rz Hi. unfold CoordProofs2.rhi. change (dot m (B z i) (B z i)) with (gram z i i). rewrite cart_gram by assumption.
  unfold delta. rewrite Nat.eqb_refl. apply sqrt_1.
Qed.
Lemma cart_scl z i : regular z -> (i < n)%nat -> scl z i = 1.
Proof. intros Rz Hi. unfold CoordProofs3.scl. destruct normal; [apply cart_hi1; assumption|reflexivity]. Qed.
Lemma cart_sg z : regular z -> rsg z = 1.
Proof.
  intros Rz. unfold CoordProofs2.rsg. rewrite (rdet_ext n _ delta) by (intros; apply cart_gram; assumption).
  replace (rdet n delta) with 1; [apply sqrt_1|]. destruct n as [|[|[|[|]]]]; try lia; cbn; unfold delta, rsign; cbn; ring.
Qed.
Lemma cart_bt z i a : regular z -> (i < n)%nat -> rbt L n m rv z i a = B z i a.
Proof.
  intros Rz Hi. unfold rbt. rewrite (rsum_ext n _ (fun j => delta i j * B z j a)) by (intros j Hj; rewrite cart_gt by assumption; reflexivity).
  apply (rsum_delta n i (fun j => B z j a) Hi).
Qed.
Lemma cart_ct z k i j : regular z -> (k < n)%nat -> (i < n)%nat -> (j < n)%nat -> rct z k i j = 0.
Proof.
  intros Rz Hk Hi Hj. pose proof (regular_rv L n m rv z Rz) as HR.
  set (T := fun j i k => dot m (B2 L rv z j i) (B z k)).
  assert (E : rct z k i j = T j i k).
  { unfold CoordProofs2.rct, T, dot. apply rsum_ext. intros a Ha. rewrite cart_bt by assumption. reflexivity. }
  assert (Sy : forall p q s, T p q s = T q p s).
  { intros p q s. unfold T. apply dot_ext; [|reflexivity]. intros a Ha. apply (B2_sym L m rv); assumption. }
  assert (An : forall p q s, (q < n)%nat -> (s < n)%nat -> T p q s + T p s q = 0).
  { intros p q s Hq Hs. pose proof (gram_partial L n m rv z p q s Rz) as P. rewrite (dot_sym m (B z q)) in P. fold (T p q s) (T p s q) in P.
    eapply partial_unique; [exact P|]. eapply partial_near; [|apply (partial_const p (delta q s))].
    eapply near_imp; [|exact (regular_near L n m rv Hn z p Rz)]. intros w Rw. symmetry. apply cart_gram; assumption. }
  rewrite E. pose proof (An j i k Hi Hk). pose proof (An k i j Hi Hj). pose proof (An i j k Hj Hk).
  pose proof (Sy j i k). pose proof (Sy j k i). pose proof (Sy k i j). lra.
Qed.
Lemma cart_unit : unit_hi restrict co n.
Proof.
  intros i y Hi Ry. cbn [co_hi coords_of]. destruct (hi_ok L n m rv Hn y i Ry Hi) as (A & E & _).
  split; [split; assumption|]. change (ev (scaling m rv i) y = 1). rewrite E. apply cart_hi1; assumption.
Qed.
Lemma cart_true' : co_cart co = true. Proof. exact HC. Qed.

Lemma cart_vc_partial e i k U z d : regular z -> (i < n)%nat -> partial k (vc e i U) z d -> partial k (mean e i U) z d.
Proof.
  intros Rz Hi P. eapply partial_near; [|exact P]. eapply near_imp; [|exact (regular_near L n m rv Hn z k Rz)]. intros w Rw.
  unfold CoordProofs3.vc. rewrite cart_scl by assumption. field.
Qed.
Lemma cart_vc2_partial e i j k U z d : regular z -> (i < n)%nat -> (j < n)%nat -> partial k (vc2 e i j U) z d -> partial k (mean e (i * n + j) U) z d.
Proof.
  intros Rz Hi Hj P. eapply partial_near; [|exact P]. eapply near_imp; [|exact (regular_near L n m rv Hn z k Rz)]. intros w Rw.
  unfold CoordProofs3.vc2. rewrite !cart_scl by assumption. field.
Qed.
Lemma cart_cv_partial e i k U z d : regular z -> (i < n)%nat -> partial k (cv e i U) z d -> partial k (mean e i U) z d.
Proof.
  intros Rz Hi P. eapply partial_near; [|exact P]. eapply near_imp; [|exact (regular_near L n m rv Hn z k Rz)]. intros w Rw.
  unfold CoordProofs6.cv. rewrite (rsum_ext n _ (fun k => delta i k * vc e k U w)).
  - rewrite rsum_delta by exact Hi. unfold CoordProofs3.vc. rewrite cart_scl by assumption. field.
  - intros k' Hk. rewrite cart_gram by assumption. ring.
Qed.
Lemma mc_val e i k U z d : wf e -> e_dim e = n -> defined e z -> smooth n U z -> (k < n)%nat -> partial k (mean e i U) z d ->
  mean_comp L (dx_comp k (comp e i)) U z = d.
Proof.
  intros W D Dz HU Hk P. eapply partial_unique; [|exact P]. eapply partial_mc; eauto; [apply defined_comp, Dz|rewrite <- D; apply wf_comp, W].
Qed.
End Cart.

(** *** both branches *)
Lemma grad_scalar_ok e g : wf e -> e_dim e = n -> num_components e = 1%nat -> grad co e = Some g ->
  e_dim g = n /\ num_components g = n /\ wf g /\ forall z, regular z -> defined e z -> defined g z /\
    forall U d, smooth n U z -> (forall j, (j < n)%nat -> partial j (mean e 0 U) z (d j)) ->
      forall i, (i < n)%nat -> mean g i U z = rsum n (fun j => rgt z j i * d j) * scl z i.
Proof.
  destruct (is_cartesian n m rv) eqn:HC; [|apply grad_scalar_curv; assumption]. intros W D N H.
  assert (HU : unit_hi restrict co (e_dim e)) by (rewrite D; exact (cart_unit HC)).
  destruct (grad_scalar_at restrict co HC e g HU W N H) as (A & B' & C & M). rewrite D in A, B'.
  split; [exact A|]. split; [exact B'|]. split; [exact C|]. intros z Rz Dz.
  destruct (M z) as [D1 M1]; [apply defined_restrict; auto|]. apply defined_restrict in D1. split; [apply D1|]. intros U d Sm Hd i Hi.
  change (FormsSpec.mean restrict g i U z = rsum n (fun j => rgt z j i * d j) * scl z i).
  rewrite M1 by lia. change (mean_comp restrict) with (mean_comp L). rewrite (mc_val e 0 i U z (d i) W D Dz Sm Hi (Hd i Hi)).
  rewrite (cart_scl HC z i Rz Hi), (rsum_ext n _ (fun j => d j * delta j i)).
  - rewrite (rsum_delta_r n i d Hi). ring.
  - intros j Hj. rewrite (cart_gt HC) by assumption. ring.
Qed.
Lemma grad_vec_ok e g : (1 < n)%nat -> wf e -> e_dim e = n -> expr_rank e = Some 1%nat -> grad co e = Some g ->
  e_dim g = n /\ num_components g = (n * n)%nat /\ wf g /\ forall z, regular z -> defined e z -> defined g z /\
    forall U dv, smooth n U z -> (forall i l, (i < n)%nat -> (l < n)%nat -> partial l (vc e i U) z (dv i l)) ->
      forall i j, (i < n)%nat -> (j < n)%nat ->
        mean g (i * n + j) U z = rsum n (fun l => rgt z l j * cov_deriv e U z dv i l) * (scl z i * scl z j).
Proof.
  intros H1 W D Rk H. assert (N : num_components e = n) by (rewrite <- D; apply rank1_num; [exact W|exact Rk|lia]).
  destruct (is_cartesian n m rv) eqn:HC; [|exact (grad_vec_curv_ok L n m rv normal Hn HC H1 e g W D N H)].
  assert (HU : unit_hi restrict co (e_dim e)) by (rewrite D; exact (cart_unit HC)).
  destruct (grad_vector_at restrict co HC e g HU W Rk ltac:(lia) H) as (A & B' & C & M). rewrite D in A, B'.
  split; [exact A|]. split; [exact B'|]. split; [exact C|]. intros z Rz Dz.
  destruct (M z) as [D1 M1]; [apply defined_restrict; auto|]. apply defined_restrict in D1. split; [apply D1|]. intros U dv Sm Hd i j Hi Hj.
  rewrite D in M1.
  change (FormsSpec.mean restrict g (i * n + j) U z = rsum n (fun l => rgt z l j * cov_deriv e U z dv i l) * (scl z i * scl z j)).
  rewrite M1 by lia. change (mean_comp restrict) with (mean_comp L).
  rewrite (mc_val e i j U z (dv i j) W D Dz Sm Hj (cart_vc_partial HC _ _ _ _ _ _ Rz Hi (Hd i j Hi Hj))).
  rewrite !(cart_scl HC) by assumption. rewrite (rsum_ext n _ (fun l => dv i l * delta l j)).
  - rewrite (rsum_delta_r n j (dv i) Hj). ring.
  - intros l Hl. rewrite (cart_gt HC) by assumption. unfold CoordProofs5.cov_deriv. rewrite (rsum_ext n _ (fun k => 0)).
    + rewrite (rsum_ext n (fun _ => 0) (fun k => 0 * 0)), rsum_scal by (intros; ring). ring.
    + intros k Hk. rewrite (cart_ct HC) by assumption. ring.
Qed.
Lemma div_vec_ok e d : wf e -> (1 < n)%nat -> e_dim e = n -> num_components e = n -> div co e = Some d ->
  e_dim d = n /\ num_components d = 1%nat /\ wf d /\ forall z, regular z -> defined e z -> defined d z /\
    forall U dv, smooth n U z -> (forall i, (i < n)%nat -> partial i (vc e i U) z (dv i)) ->
      mean d 0 U z = rsum n (fun i => dv i + vc e i U z * rsum n (fun k => rct z k k i)).
Proof.
  destruct (is_cartesian n m rv) eqn:HC; [|intros; eapply div_vec_curv_ok; eassumption]. intros W H1 D N H.
  unfold div in H. cbn [co_cart coords_of] in H. rewrite HC, D, N in H. destruct (Nat.eqb_spec n 1); [lia|].
  destruct (Nat.eqb_spec n (n ^ 2)) as [E|_]; [exfalso; cbn in E; nia|].
  destruct (div_vec_some_rank co e d H) as [q Hq]; [lia|]. assert (q = 1%nat) by (eapply rank_unique; eauto; lia). subst q.
  destruct (div_vec restrict co e d W Hq H) as (A & B' & C & M). rewrite D in A.
  split; [exact A|]. split; [exact B'|]. split; [exact C|]. intros z Rz Dz.
  destruct (M z) as [D1 M1]; [apply defined_restrict; auto|]. apply defined_restrict in D1. split; [apply D1|]. intros U dv Sm Hd.
  change (FormsSpec.mean restrict d 0 U z = rsum n (fun i => dv i + vc e i U z * rsum n (fun k => rct z k k i))).
  rewrite M1, D. apply rsum_ext. intros i Hi. change (mean_comp restrict) with (mean_comp L).
  rewrite (mc_val e i i U z (dv i) W D Dz Sm Hi (cart_vc_partial HC _ _ _ _ _ _ Rz Hi (Hd i Hi))).
  rewrite (rsum_ext n _ (fun k => 0 * 0)), rsum_scal by (intros k Hk; rewrite (cart_ct HC) by assumption; ring). ring.
Qed.
Lemma div_1d_ok e d : wf e -> n = 1%nat -> e_dim e = n -> num_components e = 1%nat -> div co e = Some d ->
  e_dim d = n /\ num_components d = 1%nat /\ wf d /\ forall z, regular z -> defined e z -> defined d z /\
    forall U dv, smooth n U z -> (forall i, (i < n)%nat -> partial i (vc e i U) z (dv i)) ->
      mean d 0 U z = rsum n (fun i => dv i + vc e i U z * rsum n (fun k => rct z k k i)).
Proof.
  destruct (is_cartesian n m rv) eqn:HC; [|intros; eapply div_1d_curv_ok; eassumption]. intros W H1 D N H.
  unfold div in H. cbn [co_cart coords_of] in H. rewrite HC, D in H. replace (n =? 1)%nat with true in H by (rewrite H1; reflexivity).
  destruct (dx_ok L n m rv normal Hn e 0 d H W D N) as (Hi & Wd & Dd & Nd & Md).
  split; [exact Dd|]. split; [exact Nd|]. split; [exact Wd|]. intros z Rz Dz. destruct (Md z Dz) as [Ddz Pd]. split; [exact Ddz|].
  intros U dv Sm Hd. rewrite (partial_unique _ _ _ _ _ (Pd U Sm) (cart_vc_partial HC _ _ _ _ _ _ Rz Hi (Hd 0%nat Hi))).
  assert (X : forall h : nat -> R, rsum n h = h 0%nat) by (intros h; rewrite H1; cbn; ring). rewrite !X.
  rewrite (cart_ct HC) by assumption. ring.
Qed.
Lemma div_ten_ok e d : wf e -> (1 < n)%nat -> e_dim e = n -> expr_rank e = Some 2%nat -> div co e = Some d ->
  e_dim d = n /\ num_components d = n /\ wf d /\ forall z, regular z -> defined e z -> defined d z /\
    forall U dS, smooth n U z -> (forall i j, (i < n)%nat -> (j < n)%nat -> partial j (vc2 e i j U) z (dS i j)) ->
      forall i, (i < n)%nat -> mean d i U z =
        rsum n (fun j => dS i j + rsum n (fun k => vc2 e k j U z * rct z i k j + vc2 e i k U z * rct z j k j)) * scl z i.
Proof.
  intros W H1 D Rk H. destruct (is_cartesian n m rv) eqn:HC; [|exact (div_ten_curv_ok L n m rv normal Hn HC H1 e d W D Rk H)].
  assert (HU : unit_hi restrict co (e_dim e)) by (rewrite D; exact (cart_unit HC)).
  destruct (div_tensor_at restrict co HC e d HU W Rk H) as (A & B' & C & M). rewrite D in A, B'.
  split; [exact A|]. split; [exact B'|]. split; [exact C|]. intros z Rz Dz.
  destruct (M z) as [D1 M1]; [apply defined_restrict; auto|]. apply defined_restrict in D1. split; [apply D1|]. intros U dS Sm Hd i Hi.
  rewrite (cart_scl HC z i Rz Hi), Rmult_1_r.
  change (FormsSpec.mean restrict d i U z = rsum n (fun j => dS i j + rsum n (fun k => vc2 e k j U z * rct z i k j + vc2 e i k U z * rct z j k j))).
  rewrite M1 by lia. rewrite D. apply rsum_ext. intros j Hj. change (mean_comp restrict) with (mean_comp L).
  rewrite (mc_val e (i * n + j) j U z (dS i j) W D Dz Sm Hj (cart_vc2_partial HC _ _ _ _ _ _ _ Rz Hi Hj (Hd i j Hi Hj))).
  rewrite (rsum_ext n _ (fun k => 0 * 0)), rsum_scal; [ring|]. intros k Hk. rewrite !(cart_ct HC) by assumption. ring.
Qed.
Lemma curl_3d_ok e w : wf e -> n = 3%nat -> e_dim e = n -> expr_rank e = Some 1%nat -> curl co e = Some w ->
  e_dim w = n /\ num_components w = n /\ wf w /\ forall z, regular z -> defined e z -> defined w z /\
    forall U dc, smooth n U z -> (forall p q, (p < n)%nat -> (q < n)%nat -> partial p (cv e q U) z (dc p q)) ->
      mean w 0 U z = (dc 1%nat 2%nat - dc 2%nat 1%nat) / rsg z * scl z 0 /\
      mean w 1 U z = (dc 2%nat 0%nat - dc 0%nat 2%nat) / rsg z * scl z 1 /\
      mean w 2 U z = (dc 0%nat 1%nat - dc 1%nat 0%nat) / rsg z * scl z 2.
Proof.
  intros W E3 D Rk H. assert (N : num_components e = n) by (rewrite <- D; apply rank1_num; [exact W|exact Rk|lia]).
  destruct (is_cartesian n m rv) eqn:HC; [|exact (curl_3d_curv_ok L n m rv normal Hn ltac:(lia) HC e w W E3 D N H)].
  destruct (curl_3d_at restrict co HC e w W Rk ltac:(lia) H) as (A & B' & C & M). rewrite <- E3 in A, B'.
  split; [exact A|]. split; [exact B'|]. split; [exact C|]. intros z Rz Dz.
  destruct (M z) as [D1 M1]; [apply defined_restrict; auto|]. apply defined_restrict in D1. split; [apply D1|]. intros U dc Sm Hd.
  destruct (M1 U) as (V0 & V1 & V2). rewrite !mean_restrict in V0, V1, V2. change (mean_comp restrict) with (mean_comp L) in V0, V1, V2.
  rewrite V0, V1, V2.
  assert (X : forall i k, (i < n)%nat -> (k < n)%nat -> mean_comp L (dx_comp k (comp e i)) U z = dc k i).
  { intros i k Hi Hk. apply (mc_val e i k U z (dc k i) W D Dz Sm Hk). apply (cart_cv_partial HC); auto. }
  rewrite !X by lia. rewrite !(cart_scl HC), (cart_sg HC) by (assumption || lia). repeat split; field.
Qed.
Lemma curl_2d_ok e w : wf e -> n = 2%nat -> e_dim e = n -> expr_rank e = Some 1%nat -> curl co e = Some w ->
  e_dim w = n /\ num_components w = 1%nat /\ wf w /\ forall z, regular z -> defined e z -> defined w z /\
    forall U dc, smooth n U z -> (forall p q, (p < n)%nat -> (q < n)%nat -> partial p (cv e q U) z (dc p q)) ->
      mean w 0 U z = (dc 0%nat 1%nat - dc 1%nat 0%nat) / rsg z.
Proof.
  intros W E3 D Rk H. assert (N : num_components e = n) by (rewrite <- D; apply rank1_num; [exact W|exact Rk|lia]).
  destruct (is_cartesian n m rv) eqn:HC; [|exact (curl_2d_curv_ok L n m rv normal Hn ltac:(lia) HC e w W E3 D N H)].
  destruct (curl_2d_vector_at restrict co HC e w W Rk ltac:(lia) H) as (A & B' & C & M). rewrite <- E3 in A.
  split; [exact A|]. split; [exact B'|]. split; [exact C|]. intros z Rz Dz.
  destruct (M z) as [D1 M1]; [apply defined_restrict; auto|]. apply defined_restrict in D1. split; [apply D1|]. intros U dc Sm Hd.
  pose proof (M1 U) as V0. rewrite mean_restrict in V0. change (mean_comp restrict) with (mean_comp L) in V0. rewrite V0.
  assert (X : forall i k, (i < n)%nat -> (k < n)%nat -> mean_comp L (dx_comp k (comp e i)) U z = dc k i).
  { intros i k Hi Hk. apply (mc_val e i k U z (dc k i) W D Dz Sm Hk). apply (cart_cv_partial HC); auto. }
  rewrite !X by lia. rewrite (cart_sg HC) by assumption. field.
Qed.
End P.
