(** CoordProofs4.v -- what grad, div and curl return in curvilinear coordinates, in terms of contravariant components. *)
From Coq Require Import Reals ZArith List Bool Arith Lia Lra.
From Verif Require Import FormsModel FormsSpec FormsProofs FormsProofs2 FormsProofs3 FormsProofs4 CoordModel CoordSpec CoordProofs CoordProofs2 CoordProofs3.
Import ListNotations.
Local Open Scope R_scope.

Section P.
Context {S : SymS} (L : SymSLaws S) (n m : nat) (rv : nat -> S) (normal : bool).
Implicit Types (e f r : expr S) (x y z : pt) (U : nat -> list nat -> pt -> R).
Notation ev := (ev L). Notation good := (good L). Notation mean := (mean L). Notation defined := (defined L).
Notation B := (tangent L rv). Notation gram := (gram L m rv). Notation regular := (regular L n m rv).
Notation co := (coords_of n m rv normal).
Notation rgt := (rgt L n m rv). Notation rct := (rct L n m rv). Notation rsg := (rsg L n m rv). Notation rhi := (rhi L m rv).
Notation scl := (scl L m rv normal). Notation vc := (vc L m rv normal). Notation vc2 := (vc2 L n m rv normal).
Notation lmean := (lmean L). Notation scalars := (scalars n). Notation all_defined := (all_defined L).
Hypothesis Hn : (1 <= n <= 3)%nat.
Definition enl : expr S := enull.

(** *** _expr_from_vector_components *)
Lemma tail1 l g : from_components co n l = Some g -> scalars l -> length l = n ->
  e_dim g = n /\ num_components g = n /\ wf g /\ forall z, regular z -> all_defined l z ->
    defined g z /\ forall U i, (i < n)%nat -> mean g i U z = mean (nth i l enl) 0 U z * scl z i.
Proof.
  intros H Hl Hlen. destruct (from_components_spec L co n l g H Hl) as (A & B' & C & M). rewrite Hlen in *.
  split; [exact A|]. split; [exact B'|]. split; [exact C|]. intros z Rz Dz.
  destruct (M z Dz) as [D1 M1]; [intros i Hi; apply (fac1_ok L n m rv normal Hn z i Rz Hi)|]. split; [exact D1|].
  intros U i Hi. rewrite (M1 i U enl Hi). f_equal. apply (fac1_ok L n m rv normal Hn z i Rz Hi).
Qed.
Lemma tail2 l g : from_components co n l = Some g -> scalars l -> length l = (n * n)%nat -> (1 < n)%nat ->
  e_dim g = n /\ num_components g = (n * n)%nat /\ wf g /\ forall z, regular z -> all_defined l z ->
    defined g z /\ forall U i j, (i < n)%nat -> (j < n)%nat -> mean g (i * n + j) U z = mean (nth (i * n + j) l enl) 0 U z * (scl z i * scl z j).
Proof.
  intros H Hl Hlen H1. destruct (from_components_spec L co n l g H Hl) as (A & B' & C & M). rewrite Hlen in *.
  split; [exact A|]. split; [exact B'|]. split; [exact C|]. intros z Rz Dz.
  destruct (M z Dz) as [D1 M1].
  { intros i Hi. replace i with (i / n * n + i mod n)%nat by (rewrite (Nat.mul_comm (i / n)); symmetry; apply Nat.div_mod; lia).
    apply (fac2_ok L n m rv normal Hn z); auto; [apply Nat.div_lt_upper_bound; lia|apply Nat.mod_upper_bound; lia]. }
  split; [exact D1|]. intros U i j Hi Hj. rewrite (M1 _ U enl) by nia. f_equal. apply (fac2_ok L n m rv normal Hn z i j Rz); assumption.
Qed.
Lemma simp1 g (l : list (expr S)) (h : nat -> pt -> R) k :
  (e_dim g = n /\ num_components g = k /\ wf g /\ forall z, regular z -> all_defined l z ->
    defined g z /\ forall U i, (i < k)%nat -> mean g i U z = mean (nth i l enl) 0 U z * h i z) ->
  e_dim (simplify g) = n /\ num_components (simplify g) = k /\ wf (simplify g) /\ forall z, regular z -> all_defined l z ->
    defined (simplify g) z /\ forall U i, (i < k)%nat -> mean (simplify g) i U z = mean (nth i l enl) 0 U z * h i z.
Proof.
  intros (A & B' & C & M). rewrite simplify_dim, simplify_num. split; [exact A|]. split; [exact B'|]. split; [apply simplify_wf, C|].
  intros z Rz Dz. destruct (M z Rz Dz) as [D1 M1]. split; [apply simplify_ok, D1|]. intros U i Hi. rewrite simplify_mean by exact D1. auto.
Qed.

Hypothesis HC : is_cartesian n m rv = false.

Lemma single_ok c a : wf c -> e_dim c = n -> num_components c = 1%nat ->
  scalars [mul c a] /\ forall z, defined c z -> good a z -> all_defined [mul c a] z /\ forall U, lmean [mul c a] U z = mean c 0 U z * ev a z.
Proof.
  intros W D N. split.
  - intros f [<-|[]]. destruct (mul_like c a) as [P Q]. split; [apply mul_wf, W|]. split; congruence.
  - intros z Dz Ga. split; [intros f [<-|[]]; apply mul_defined; assumption|]. intros U. unfold CoordProofs3.lmean. cbn [fold_right].
    rewrite mul_mean by assumption. ring.
Qed.
(** *** grad of a scalar *)
Lemma grad_scalar_terms_ok e i t : wf e -> e_dim e = n -> num_components e = 1%nat -> (i < n)%nat -> grad_scalar_terms co e i = Some t ->
  scalars t /\ forall z, regular z -> defined e z -> all_defined t z /\
    forall U d, smooth n U z -> (forall j, (j < n)%nat -> partial j (mean e 0 U) z (d j)) ->
      lmean t U z = rsum n (fun j => rgt z j i * d j).
Proof.
  intros W D N Hi H. unfold grad_scalar_terms in H. rewrite D in H. cbn [co_gt coords_of] in H.
  destruct (opt_all _) as [r|] eqn:Er; [|discriminate]. cbn [obind] in H. apply some_inj in H. subst t.
  destruct (opt_all_seq _ _ _ [] Er) as [Hl Hr].
  assert (T : forall j, (j < n)%nat -> scalars (nth j r []) /\ forall z, regular z -> defined e z -> all_defined (nth j r []) z /\
     forall U d, smooth n U z -> partial j (mean e 0 U) z d -> lmean (nth j r []) U z = rgt z j i * d).
  { intros j Hj. specialize (Hr j Hj). cbv zeta in Hr. destruct (s_is0 (contra_metric n m rv j i)) eqn:E0.
    - apply some_inj in Hr. rewrite Hr. split; [intros f []|]. intros z Rz _. split; [intros f []|]. intros U d _ _.
      rewrite <- (proj2 (gt_ok L n m rv Hn z j i Rz Hj Hi)), (ev_is0 _ L _ z E0). unfold CoordProofs3.lmean. cbn. ring.
    - destruct (dx1 co e j) as [dj|] eqn:Ed; [|discriminate]. cbn [obind] in Hr. apply some_inj in Hr. rewrite Hr.
      destruct (dx_ok L n m rv normal Hn e j dj Ed W D N) as (_ & Wd & Dd & Nd & Md).
      destruct (single_ok dj (contra_metric n m rv j i) Wd Dd Nd) as [A M]. split; [exact A|]. intros z Rz Dz.
      destruct (gt_ok L n m rv Hn z j i Rz Hj Hi) as [Gg Eg]. destruct (Md z Dz) as [Ddz Pd]. destruct (M z Ddz Gg) as [A1 M1].
      split; [exact A1|]. intros U d HU Pj. rewrite M1, Eg, (partial_unique _ _ _ _ _ (Pd U HU) Pj). ring. }
  split; [apply scalars_concat; rewrite Hl; intros j Hj; apply T, Hj|]. intros z Rz Dz.
  split; [apply defined_concat; rewrite Hl; intros j Hj; apply T; assumption|]. intros U d HU Hd.
  rewrite lmean_concat, Hl. apply rsum_ext. intros j Hj. apply T; auto.
Qed.
Lemma grad_scalar_curv e g : wf e -> e_dim e = n -> num_components e = 1%nat -> grad co e = Some g ->
  e_dim g = n /\ num_components g = n /\ wf g /\ forall z, regular z -> defined e z -> defined g z /\
    forall U d, smooth n U z -> (forall j, (j < n)%nat -> partial j (mean e 0 U) z (d j)) ->
      forall i, (i < n)%nat -> mean g i U z = rsum n (fun j => rgt z j i * d j) * scl z i.
Proof.
  intros W D N H. unfold grad in H. cbn [co_cart coords_of] in H. rewrite HC, N in H. cbn [Nat.ltb Nat.leb] in H. rewrite D in H.
  destruct (opt_all _) as [l|] eqn:El; [|discriminate]. cbn [obind] in H.
  destruct (opt_all_seq _ _ _ enl El) as [Hl Hr].
  destruct (from_components co n l) as [dv|] eqn:Ed; [|discriminate]. cbn [obind] in H. apply some_inj in H. subst g.
  assert (T : forall i, (i < n)%nat -> scalars [nth i l enl] /\ forall z, regular z -> defined e z -> defined (nth i l enl) z /\
     forall U d, smooth n U z -> (forall j, (j < n)%nat -> partial j (mean e 0 U) z (d j)) -> mean (nth i l enl) 0 U z = rsum n (fun j => rgt z j i * d j)).
  { intros i Hi. specialize (Hr i Hi). destruct (grad_scalar_terms co e i) as [t|] eqn:Et; [|discriminate]. cbn [obind] in Hr.
    destruct (grad_scalar_terms_ok e i t W D N Hi Et) as [A M]. destruct (sum_ok L n t _ Hr A) as (P1 & P2 & P3 & P4 & P5).
    split; [intros f [<-|[]]; auto|]. intros z Rz Dz. destruct (M z Rz Dz) as [A1 M1]. split; [apply P4, A1|]. intros U d HU Hd. rewrite P5. auto. }
  assert (Hs : scalars l).
  { intros f Hf. destruct (In_nth _ _ enl Hf) as (i & Hi & <-). rewrite Hl in Hi. apply (proj1 (T i Hi)). left. reflexivity. }
  destruct (simp1 dv l (fun i z => scl z i) n (tail1 l dv Ed Hs Hl)) as (A & B' & C & M).
  split; [exact A|]. split; [exact B'|]. split; [exact C|]. intros z Rz Dz. destruct (M z Rz) as [D1 M1].
  { intros f Hf. destruct (In_nth _ _ enl Hf) as (i & Hi & <-). rewrite Hl in Hi. apply (T i Hi); assumption. }
  split; [exact D1|]. intros U d HU Hd i Hi. rewrite (M1 U i Hi). f_equal. apply (T i Hi); assumption.
Qed.

(** *** div of a vector *)
Lemma div_vec_curv_ok e d : wf e -> (1 < n)%nat -> e_dim e = n -> num_components e = n -> div co e = Some d ->
  e_dim d = n /\ num_components d = 1%nat /\ wf d /\ forall z, regular z -> defined e z -> defined d z /\
    forall U dv, smooth n U z -> (forall i, (i < n)%nat -> partial i (vc e i U) z (dv i)) ->
      mean d 0 U z = rsum n (fun i => dv i + vc e i U z * rsum n (fun k => rct z k k i)).
Proof.
  intros W H1 D N H. unfold div in H. cbn [co_cart coords_of] in H. rewrite HC, D in H.
  destruct (Nat.eqb_spec n 1); [lia|]. rewrite N in H. destruct (Nat.eqb_spec n (n ^ 2)) as [E|_]; [exfalso; cbn in E; nia|].
  unfold div_vec_curv in H. rewrite D in H. cbn [co_sg coords_of] in H.
  destruct (opt_all _) as [l|] eqn:El; [|discriminate]. cbn [obind] in H. destruct (opt_all_seq _ _ _ enl El) as [Hl Hr].
  destruct (sum_list l) as [s|] eqn:Es; [|discriminate]. cbn [obind] in H. apply some_inj in H. subst d.
  assert (T : forall i, (i < n)%nat -> scalars [nth i l enl] /\ forall z, regular z -> defined e z -> defined (nth i l enl) z /\
     forall U dv, smooth n U z -> partial i (vc e i U) z dv -> mean (nth i l enl) 0 U z = dv + vc e i U z * rsum n (fun k => rct z k k i)).
  { intros i Hi. specialize (Hr i Hi). destruct (contra co e i) as [c|] eqn:Ec; [|discriminate]. cbn [obind] in Hr.
    destruct (dx1 co (mul c (sqrt_det_g n m rv)) i) as [dd|] eqn:Ed; [|discriminate]. cbn [obind] in Hr. apply some_inj in Hr.
    destruct (contra_spec L n m rv normal Hn e i c W H1 D N Ec) as (_ & C1 & C2 & C3 & C4).
    destruct (mul_like c (sqrt_det_g n m rv)) as [M1 M2].
    assert (Wm : wf (mul c (sqrt_det_g n m rv))) by (apply mul_wf, C3).
    assert (Dm : e_dim (mul c (sqrt_det_g n m rv)) = n) by congruence.
    assert (Nm : num_components (mul c (sqrt_det_g n m rv)) = 1%nat) by congruence.
    destruct (dx_ok L n m rv normal Hn _ i dd Ed Wm Dm Nm) as (_ & Wd & Dd & Nd & Md).
    destruct (mul_like dd (s_inv (sqrt_det_g n m rv))) as [M3 M4].
    rewrite Hr. split; [intros f [<-|[]]; split; [apply mul_wf, Wd|split; congruence]|].
    intros z Rz Dz. destruct (C4 z Rz Dz) as [Dc _]. destruct (sg_ok L n m rv Hn z Rz) as (Gs & Esg & Psg).
    assert (Dmz : defined (mul c (sqrt_det_g n m rv)) z) by (apply mul_defined; assumption).
    destruct (Md z Dmz) as [Dddz _]. destruct (inv_sg_ok L n m rv Hn z Rz) as [Gi Ei].
    split; [apply mul_defined; assumption|]. intros U dv HU Pv. rewrite mul_mean by assumption. rewrite Ei.
    rewrite (dx_val L n m rv normal _ i dd z U (fun w => vc e i U w * rsg w) (dv * rsg z + vc e i U z * (rsg z * rsum n (fun k => rct z k k i))) Ed Wm Dm Nm Dmz HU).
    - field. lra.
    - eapply near_imp; [|exact (near_and _ _ _ _ (regular_near L n m rv Hn z i Rz) (defined_near L e z i Dz))]. intros w [Rw Dw].
      destruct (C4 w Rw Dw) as [Dcw Mcw]. destruct (sg_ok L n m rv Hn w Rw) as (Gw & Ew & _).
      rewrite mul_mean by assumption. rewrite Ew, Mcw. reflexivity.
    - apply (partial_mult i (vc e i U) rsg z); [exact Pv|]. apply (sg_partial L n m rv Hn z Rz i Hi). }
  assert (Hs : scalars l).
  { intros f Hf. destruct (In_nth _ _ enl Hf) as (i & Hi & <-). rewrite Hl in Hi. apply (proj1 (T i Hi)). left. reflexivity. }
  destruct (sum_ok L n l s Es Hs) as (P1 & P2 & P3 & P4 & P5).
  rewrite simplify_dim, simplify_num. split; [exact P2|]. split; [exact P3|]. split; [apply simplify_wf, P1|]. intros z Rz Dz.
  assert (Da : defined s z).
  { apply P4. intros f Hf. destruct (In_nth _ _ enl Hf) as (i & Hi & <-). rewrite Hl in Hi. apply (T i Hi); assumption. }
  split; [apply simplify_ok, Da|]. intros U dv HU Hd. rewrite simplify_mean by exact Da. rewrite P5. unfold CoordProofs3.lmean.
  rewrite (fold_right_nth (fun e => mean e 0 U z) enl), Hl. apply rsum_ext. intros i Hi. apply (T i Hi); auto.
Qed.
(** one dimension *)
Lemma div_1d_curv_ok e d : wf e -> n = 1%nat -> e_dim e = n -> num_components e = 1%nat -> div co e = Some d ->
  e_dim d = n /\ num_components d = 1%nat /\ wf d /\ forall z, regular z -> defined e z -> defined d z /\
    forall U dv, smooth n U z -> (forall i, (i < n)%nat -> partial i (vc e i U) z (dv i)) ->
      mean d 0 U z = rsum n (fun i => dv i + vc e i U z * rsum n (fun k => rct z k k i)).
Proof.
  intros W H1 D N H. unfold div in H. cbn [co_cart coords_of] in H. rewrite HC, D in H. rewrite H1 in H at 1. cbn [Nat.eqb] in H.
  assert (G : exists c, contra0 co e = Some c /\ c = if normal then mul e (s_inv (scaling m rv 0)) else e).
  { unfold contra0 in *. cbn [co_normal co_hi coords_of] in *. rewrite D, H1 in *. cbn [Nat.eqb] in *. destruct normal; eauto. }
  destruct G as (c & G & Ec). rewrite G in H. cbn [obind co_sg coords_of] in H.
  destruct (dx1 co (mul c (sqrt_det_g n m rv)) 0) as [dd|] eqn:Ed; [|discriminate]. cbn [obind] in H. apply some_inj in H.
  assert (C : e_dim c = n /\ num_components c = 1%nat /\ wf c /\ forall z, regular z -> defined e z -> defined c z /\ forall U, mean c 0 U z = vc e 0 U z).
  { unfold CoordProofs3.vc, CoordProofs3.scl. destruct normal; subst c.
    - destruct (mul_like e (s_inv (scaling m rv 0))) as [M1 M2]. split; [congruence|]. split; [congruence|]. split; [apply mul_wf, W|].
      intros z Rz Dz. destruct (inv_hi_ok L n m rv Hn z 0 Rz) as [G1 E1]; [lia|]. split; [apply mul_defined; assumption|]. intros U.
      rewrite mul_mean by assumption. rewrite E1. reflexivity.
    - split; [exact D|]. split; [exact N|]. split; [exact W|]. intros z Rz Dz. split; [exact Dz|]. intros U. field. }
  destruct C as (C1 & C2 & C3 & C4).
  destruct (mul_like c (sqrt_det_g n m rv)) as [M1 M2].
  assert (Wm : wf (mul c (sqrt_det_g n m rv))) by (apply mul_wf, C3).
  assert (Dm : e_dim (mul c (sqrt_det_g n m rv)) = n) by congruence.
  assert (Nm : num_components (mul c (sqrt_det_g n m rv)) = 1%nat) by congruence.
  destruct (dx_ok L n m rv normal Hn _ 0 dd Ed Wm Dm Nm) as (Hi & Wd & Dd & Nd & Md).
  destruct (mul_like dd (s_inv (sqrt_det_g n m rv))) as [M3 M4].
  rewrite H. split; [congruence|]. split; [congruence|]. split; [apply mul_wf, Wd|].
  intros z Rz Dz. destruct (C4 z Rz Dz) as [Dc _]. destruct (sg_ok L n m rv Hn z Rz) as (Gs & Esg & Psg).
  assert (Dmz : defined (mul c (sqrt_det_g n m rv)) z) by (apply mul_defined; assumption).
  destruct (Md z Dmz) as [Dddz _]. destruct (inv_sg_ok L n m rv Hn z Rz) as [Gi Ei].
  split; [apply mul_defined; assumption|]. intros U dv HU Pv. rewrite mul_mean by assumption. rewrite Ei.
  rewrite (dx_val L n m rv normal _ 0 dd z U (fun w => vc e 0 U w * rsg w) (dv 0%nat * rsg z + vc e 0 U z * (rsg z * rsum n (fun k => rct z k k 0))) Ed Wm Dm Nm Dmz HU).
  - replace (rsum n (fun i => dv i + vc e i U z * rsum n (fun k => rct z k k i))) with (dv 0%nat + vc e 0 U z * rsum n (fun k => rct z k k 0)).
    + field. lra.
    + assert (X : forall h : nat -> R, rsum n h = h 0%nat) by (intros h; rewrite H1; cbn; ring). symmetry. apply X.
  - eapply near_imp; [|exact (near_and _ _ _ _ (regular_near L n m rv Hn z 0 Rz) (defined_near L e z 0 Dz))]. intros w [Rw Dw].
    destruct (C4 w Rw Dw) as [Dcw Mcw]. destruct (sg_ok L n m rv Hn w Rw) as (Gw & Ew & _).
    rewrite mul_mean by assumption. rewrite Ew, Mcw. reflexivity.
  - apply (partial_mult 0 (vc e 0 U) rsg z); [apply Pv; lia|]. apply (sg_partial L n m rv Hn z Rz 0 Hi).
Qed.
End P.
