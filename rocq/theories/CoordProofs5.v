(** CoordProofs5.v -- grad of a vector, div of a tensor and curl in curvilinear coordinates. *)
From Coq Require Import Reals ZArith List Bool Arith Lia Lra.
From Verif Require Import FormsModel FormsSpec FormsProofs FormsProofs2 FormsProofs3 FormsProofs4 CoordModel CoordSpec CoordProofs CoordProofs2 CoordProofs3 CoordProofs4.
Import ListNotations.
Local Open Scope R_scope.

Section P.
Context {S : SymS} (L : SymSLaws S) (n m : nat) (rv : nat -> S) (normal : bool).
Implicit Types (e f r : expr S) (x y z : pt) (U : nat -> list nat -> pt -> R).
Notation ev := (ev L). Notation good := (good L). Notation mean := (mean L). Notation defined := (defined L).
Notation B := (tangent L rv). Notation gram := (gram L m rv). Notation regular := (regular L n m rv).
Notation co := (coords_of n m rv normal).
Notation rgt := (rgt L n m rv). Notation rct := (rct L n m rv). Notation rsg := (rsg L n m rv). Notation rhi := (rhi L m rv).
Notation scl := (scl L m rv normal). Notation vc := (vc L m rv normal). Notation vc2 := (vc2 L n m rv normal).
Notation lmean := (lmean L). Notation scalars := (scalars n). Notation all_defined := (all_defined L).
Hypothesis Hn : (1 <= n <= 3)%nat.
Hypothesis HC : is_cartesian n m rv = false.
Hypothesis H1 : (1 < n)%nat.

Lemma nil_scalars : scalars (@nil (expr S)). Proof. intros f []. Qed.
Lemma nil_defined z : all_defined [] z. Proof. intros f []. Qed.
Lemma lmean_nil U z : lmean [] U z = 0. Proof. reflexivity. Qed.
Lemma lmean_cons e l U z : lmean (e :: l) U z = mean e 0 U z + lmean l U z. Proof. reflexivity. Qed.
Lemma defined_app a b z : all_defined a z -> all_defined b z -> all_defined (a ++ b) z.
Proof. intros A C e He. apply in_app_or in He. destruct He; auto. Qed.

(** *** grad of a vector *)
Definition cov_deriv e U z (dv : nat -> nat -> R) i l := dv i l + rsum n (fun k => rct z i k l * vc e k U z).
Lemma grad_vec_terms_ok e i j t : wf e -> e_dim e = n -> num_components e = n -> (i < n)%nat -> (j < n)%nat -> grad_vec_terms co e i j = Some t ->
  scalars t /\ forall z, regular z -> defined e z -> all_defined t z /\
    forall U dv, smooth n U z -> (forall l, (l < n)%nat -> partial l (vc e i U) z (dv i l)) ->
      lmean t U z = rsum n (fun l => rgt z l j * cov_deriv e U z dv i l).
Proof.
  intros W D N Hi Hj H. unfold grad_vec_terms in H. rewrite D in H. cbn [co_gt co_ct coords_of] in H.
  destruct (contra co e i) as [vi|] eqn:Ei; [|discriminate]. cbn [obind] in H.
  destruct (contra_spec L n m rv normal Hn e i vi W H1 D N Ei) as (_ & V1 & V2 & V3 & V4).
  destruct (opt_all _) as [r|] eqn:Er; [|discriminate]. cbn [obind] in H. apply some_inj in H. subst t.
  destruct (opt_all_seq _ _ _ [] Er) as [Hl Hr].
  assert (T : forall l, (l < n)%nat -> scalars (nth l r []) /\ forall z, regular z -> defined e z -> all_defined (nth l r []) z /\
     forall U dv, smooth n U z -> partial l (vc e i U) z (dv i l) -> lmean (nth l r []) U z = rgt z l j * cov_deriv e U z dv i l).
  { intros l Hll. specialize (Hr l Hll). cbv zeta in Hr.
    match goal with Hr : obind ?o _ = _ |- _ => destruct o as [ta|] eqn:Ea; [|discriminate] end. cbn [obind] in Hr.
    match goal with Hr : obind ?o _ = Some _ |- _ => destruct o as [rb|] eqn:Eb; [|discriminate] end. cbn [obind] in Hr. apply some_inj in Hr. rewrite Hr.
    destruct (opt_all_seq _ _ _ [] Eb) as [Hlb Hrb].
    assert (TA : scalars ta /\ forall z, regular z -> defined e z -> all_defined ta z /\
       forall U d, smooth n U z -> partial l (vc e i U) z d -> lmean ta U z = rgt z l j * d).
    { destruct (s_is0 (contra_metric n m rv l j)) eqn:E0.
      - apply some_inj in Ea. rewrite Ea. split; [apply nil_scalars|]. intros z Rz _. split; [apply nil_defined|]. intros U d _ _.
        rewrite <- (proj2 (gt_ok L n m rv Hn z l j Rz Hll Hj)), (ev_is0 _ L _ z E0), lmean_nil. ring.
      - destruct (dx1 co vi l) as [dl|] eqn:Ed; [|discriminate]. cbn [obind] in Ea. apply some_inj in Ea. rewrite Ea.
        destruct (dx_ok L n m rv normal Hn vi l dl Ed V3 V1 V2) as (_ & Wd & Dd & Nd & Md).
        destruct (single_ok L n dl (contra_metric n m rv l j) Wd Dd Nd) as [A M]. split; [exact A|]. intros z Rz Dz.
        destruct (V4 z Rz Dz) as [Dvi _].
        destruct (gt_ok L n m rv Hn z l j Rz Hll Hj) as [Gg Eg]. destruct (Md z Dvi) as [Ddz _]. destruct (M z Ddz Gg) as [A1 M1].
        split; [exact A1|]. intros U d HU Pl. rewrite M1, Eg.
        rewrite (dx_val L n m rv normal vi l dl z U (vc e i U) d Ed V3 V1 V2 Dvi HU); [ring| |exact Pl].
        eapply near_imp; [|exact (near_and _ _ _ _ (regular_near L n m rv Hn z l Rz) (defined_near L e z l Dz))]. intros w [Rw Dw].
        symmetry. apply (V4 w Rw Dw). }
    assert (TB : forall k, (k < n)%nat -> scalars (nth k rb []) /\ forall z, regular z -> defined e z -> all_defined (nth k rb []) z /\
       forall U, lmean (nth k rb []) U z = rgt z l j * (rct z i k l * vc e k U z)).
    { intros k Hk. specialize (Hrb k Hk). cbv beta in Hrb.
      assert (Gc : forall z, regular z -> good (s_mul (contra_metric n m rv l j) (christoffel n m rv i k l)) z /\
                   ev (s_mul (contra_metric n m rv l j) (christoffel n m rv i k l)) z = rgt z l j * rct z i k l).
      { intros z Rz. destruct (gt_ok L n m rv Hn z l j Rz Hll Hj) as [Gg Eg]. destruct (ct_ok L n m rv Hn z i k l Rz Hi) as [Gt Et].
        split; [apply (good_mul _ L); assumption|]. rewrite (ev_mul _ L), Eg, Et. reflexivity. }
      destruct (s_is0 (s_mul (contra_metric n m rv l j) (christoffel n m rv i k l))) eqn:E0.
      - apply some_inj in Hrb. rewrite Hrb. split; [apply nil_scalars|]. intros z Rz _. split; [apply nil_defined|]. intros U.
        rewrite <- Rmult_assoc, <- (proj2 (Gc z Rz)), (ev_is0 _ L _ z E0), lmean_nil. ring.
      - destruct (contra co e k) as [vk|] eqn:Ek; [|discriminate]. cbn [obind] in Hrb. apply some_inj in Hrb. rewrite Hrb.
        destruct (contra_spec L n m rv normal Hn e k vk W H1 D N Ek) as (_ & K1 & K2 & K3 & K4).
        destruct (single_ok L n vk (s_mul (contra_metric n m rv l j) (christoffel n m rv i k l)) K3 K1 K2) as [A M]. split; [exact A|].
        intros z Rz Dz. destruct (K4 z Rz Dz) as [Dk Mk]. destruct (Gc z Rz) as [G1 E1]. destruct (M z Dk G1) as [A1 M1]. split; [exact A1|].
        intros U. rewrite M1, Mk, E1. ring. }
    split; [apply scalars_app; [apply TA|apply scalars_concat; rewrite Hlb; intros k Hk; apply TB, Hk]|]. intros z Rz Dz.
    split; [apply defined_app; [apply TA; assumption|apply defined_concat; rewrite Hlb; intros k Hk; apply TB; assumption]|].
    intros U dv HU Pl. rewrite lmean_app, lmean_concat, Hlb. rewrite (rsum_ext n _ (fun k => rgt z l j * (rct z i k l * vc e k U z))).
    - rewrite rsum_scal. rewrite (proj2 (proj2 TA z Rz Dz) U (dv i l) HU Pl). unfold cov_deriv. ring.
    - intros k Hk. apply TB; assumption. }
  split; [apply scalars_concat; rewrite Hl; intros l Hll; apply T, Hll|]. intros z Rz Dz.
  split; [apply defined_concat; rewrite Hl; intros l Hll; apply T; assumption|]. intros U d HU Hd.
  rewrite lmean_concat, Hl. apply rsum_ext. intros l Hll. apply T; auto.
Qed.
Lemma grad_vec_curv_ok e g : wf e -> e_dim e = n -> num_components e = n -> grad co e = Some g ->
  e_dim g = n /\ num_components g = (n * n)%nat /\ wf g /\ forall z, regular z -> defined e z -> defined g z /\
    forall U dv, smooth n U z -> (forall i l, (i < n)%nat -> (l < n)%nat -> partial l (vc e i U) z (dv i l)) ->
      forall i j, (i < n)%nat -> (j < n)%nat ->
        mean g (i * n + j) U z = rsum n (fun l => rgt z l j * cov_deriv e U z dv i l) * (scl z i * scl z j).
Proof.
  intros W D N H. unfold grad in H. cbn [co_cart coords_of] in H. rewrite HC, N, D in H.
  destruct (Nat.ltb_spec 1 n); [|lia]. destruct (opt_all _) as [ll|] eqn:El; [|discriminate]. cbn [obind] in H.
  destruct (opt_all_seq _ _ _ [] El) as [Hl Hr].
  destruct (from_components co n (concat ll)) as [dv|] eqn:Ed; [|discriminate]. cbn [obind] in H. apply some_inj in H. subst g.
  assert (Hrow : forall i, (i < n)%nat -> length (nth i ll []) = n /\ forall j, (j < n)%nat ->
     scalars [nth j (nth i ll []) enl] /\ forall z, regular z -> defined e z -> defined (nth j (nth i ll []) enl) z /\
     forall U dv, smooth n U z -> (forall l, (l < n)%nat -> partial l (vc e i U) z (dv i l)) ->
       mean (nth j (nth i ll []) enl) 0 U z = rsum n (fun l => rgt z l j * cov_deriv e U z dv i l)).
  { intros i Hi. specialize (Hr i Hi). cbv beta in Hr. destruct (opt_all_seq _ _ _ enl Hr) as [Hli Hri]. split; [exact Hli|].
    intros j Hj. specialize (Hri j Hj). cbv beta in Hri. destruct (grad_vec_terms co e i j) as [t|] eqn:Et; [|discriminate]. cbn [obind] in Hri.
    destruct (grad_vec_terms_ok e i j t W D N Hi Hj Et) as [A M]. destruct (sum_ok L n t _ Hri A) as (P1 & P2 & P3 & P4 & P5).
    split; [intros f [<-|[]]; auto|]. intros z Rz Dz. destruct (M z Rz Dz) as [A1 M1]. split; [apply P4, A1|]. intros U dv0 HU Hd. rewrite P5. auto. }
  assert (Hq : forall q, In q ll -> length q = n).
  { intros q Hq. destruct (In_nth _ _ [] Hq) as (i & Hi & <-). apply Hrow. lia. }
  destruct (concat_nth enl n ll 0 0 Hq ltac:(lia) ltac:(lia)) as [_ Hcl]. rewrite Hl in Hcl.
  assert (Hin : forall f, In f (concat ll) -> exists i j, (i < n)%nat /\ (j < n)%nat /\ f = nth j (nth i ll []) enl).
  { intros f Hf. apply in_concat in Hf. destruct Hf as (q & Hq1 & Hf). destruct (In_nth _ _ [] Hq1) as (i & Hi & <-). rewrite Hl in Hi.
    destruct (In_nth _ _ enl Hf) as (j & Hj & <-). rewrite (proj1 (Hrow i Hi)) in Hj. exists i, j. auto. }
  assert (Hs : scalars (concat ll)).
  { intros f Hf. destruct (Hin f Hf) as (i & j & Hi & Hj & ->). apply (proj1 (proj2 (Hrow i Hi) j Hj)). left. reflexivity. }
  destruct (tail2 L n m rv normal Hn (concat ll) dv Ed Hs Hcl H1) as (A & B' & C & M).
  rewrite simplify_dim, simplify_num. split; [exact A|]. split; [exact B'|]. split; [apply simplify_wf, C|]. intros z Rz Dz.
  destruct (M z Rz) as [D1 M1].
  { intros f Hf. destruct (Hin f Hf) as (i & j & Hi & Hj & ->). apply (proj2 (Hrow i Hi) j Hj); assumption. }
  split; [apply simplify_ok, D1|]. intros U dv0 HU Hd i j Hi Hj. rewrite simplify_mean by exact D1. rewrite M1 by assumption. f_equal.
  rewrite (proj1 (concat_nth enl n ll i j Hq Hj ltac:(lia))). apply (proj2 (Hrow i Hi) j Hj); auto.
Qed.

(** *** div of a tensor *)
Lemma div_ten_terms_ok e i t : wf e -> e_dim e = n -> expr_rank e = Some 2%nat -> (i < n)%nat -> div_ten_terms co e i = Some t ->
  scalars t /\ forall z, regular z -> defined e z -> all_defined t z /\
    forall U dS, smooth n U z -> (forall j, (j < n)%nat -> partial j (vc2 e i j U) z (dS j)) ->
      lmean t U z = rsum n (fun j => dS j + rsum n (fun k => vc2 e k j U z * rct z i k j + vc2 e i k U z * rct z j k j)).
Proof.
  intros W D Rk Hi H. unfold div_ten_terms in H. rewrite D in H. cbn [co_ct coords_of] in H.
  destruct (opt_all _) as [r|] eqn:Er; [|discriminate]. cbn [obind] in H. apply some_inj in H. subst t.
  destruct (opt_all_seq _ _ _ [] Er) as [Hl Hr].
  assert (T : forall j, (j < n)%nat -> scalars (nth j r []) /\ forall z, regular z -> defined e z -> all_defined (nth j r []) z /\
     forall U d, smooth n U z -> partial j (vc2 e i j U) z d ->
       lmean (nth j r []) U z = d + rsum n (fun k => vc2 e k j U z * rct z i k j + vc2 e i k U z * rct z j k j)).
  { intros j Hj. specialize (Hr j Hj). cbv beta in Hr.
    destruct (contra2 co e i j) as [Sij|] eqn:Ec; [|discriminate]. cbn [obind] in Hr.
    destruct (contra2_spec L n m rv normal Hn e i j Sij W H1 D Rk Ec) as (_ & _ & V1 & V2 & V3 & V4).
    destruct (dx1 co Sij j) as [dj|] eqn:Ed; [|discriminate]. cbn [obind] in Hr.
    destruct (dx_ok L n m rv normal Hn Sij j dj Ed V3 V1 V2) as (_ & Wd & Dd & Nd & Md).
    match goal with Hr : obind ?o _ = Some _ |- _ => destruct o as [rb|] eqn:Eb; [|discriminate] end. cbn [obind] in Hr. apply some_inj in Hr. rewrite Hr.
    destruct (opt_all_seq _ _ _ [] Eb) as [Hlb Hrb].
    assert (TB : forall k, (k < n)%nat -> scalars (nth k rb []) /\ forall z, regular z -> defined e z -> all_defined (nth k rb []) z /\
       forall U, lmean (nth k rb []) U z = vc2 e k j U z * rct z i k j + vc2 e i k U z * rct z j k j).
    { intros k Hk. specialize (Hrb k Hk). cbv beta in Hrb.
      destruct (contra2 co e k j) as [Skj|] eqn:E1; [|discriminate]. cbn [obind] in Hrb.
      destruct (contra2 co e i k) as [Sik|] eqn:E2; [|discriminate]. cbn [obind] in Hrb. apply some_inj in Hrb. rewrite Hrb.
      assert (X : forall a b c p q, contra2 co e a b = Some c -> (p < n)%nat ->
        let t := if s_is0 (christoffel n m rv p k q) then [] else [mul c (christoffel n m rv p k q)] in
        scalars t /\ forall z, regular z -> defined e z -> all_defined t z /\ forall U, lmean t U z = vc2 e a b U z * rct z p k q).
      { intros a b c p q Eab Hp t. subst t.
        destruct (contra2_spec L n m rv normal Hn e a b c W H1 D Rk Eab) as (_ & _ & K1 & K2 & K3 & K4).
        destruct (s_is0 (christoffel n m rv p k q)) eqn:E0.
        - split; [apply nil_scalars|]. intros z Rz _. split; [apply nil_defined|]. intros U.
          rewrite <- (proj2 (ct_ok L n m rv Hn z p k q Rz Hp)), (ev_is0 _ L _ z E0), lmean_nil. ring.
        - destruct (single_ok L n c (christoffel n m rv p k q) K3 K1 K2) as [A M]. split; [exact A|]. intros z Rz Dz.
          destruct (K4 z Rz Dz) as [Dk Mk]. destruct (ct_ok L n m rv Hn z p k q Rz Hp) as [G1 E3]. destruct (M z Dk G1) as [A1 M1].
          split; [exact A1|]. intros U. rewrite M1, Mk, E3. reflexivity. }
      destruct (X k j Skj i j E1 Hi) as [A1 M1]. destruct (X i k Sik j j E2 Hj) as [A2 M2].
      split; [apply scalars_app; assumption|]. intros z Rz Dz. destruct (M1 z Rz Dz) as [Q1 R1]. destruct (M2 z Rz Dz) as [Q2 R2].
      split; [apply defined_app; assumption|]. intros U. rewrite lmean_app, R1, R2. reflexivity. }
    split.
    { intros f [<-|Hf]; [auto|]. revert f Hf. change (scalars (concat rb)). apply scalars_concat. rewrite Hlb. intros k Hk. apply TB, Hk. }
    intros z Rz Dz. destruct (V4 z Rz Dz) as [DS _]. destruct (Md z DS) as [Ddz _]. split.
    { intros f [<-|Hf]; [exact Ddz|]. revert f Hf. change (all_defined (concat rb) z). apply defined_concat. rewrite Hlb. intros k Hk. apply TB; assumption. }
    intros U d HU Pj. rewrite lmean_cons, lmean_concat, Hlb. f_equal.
    - apply (dx_val L n m rv normal Sij j dj z U (vc2 e i j U) d Ed V3 V1 V2 DS HU); [|exact Pj].
      eapply near_imp; [|exact (near_and _ _ _ _ (regular_near L n m rv Hn z j Rz) (defined_near L e z j Dz))]. intros w [Rw Dw].
      symmetry. apply (V4 w Rw Dw).
    - apply rsum_ext. intros k Hk. apply TB; assumption. }
  split; [apply scalars_concat; rewrite Hl; intros l Hll; apply T, Hll|]. intros z Rz Dz.
  split; [apply defined_concat; rewrite Hl; intros l Hll; apply T; assumption|]. intros U d HU Hd.
  rewrite lmean_concat, Hl. apply rsum_ext. intros l Hll. apply T; auto.
Qed.
Lemma div_ten_curv_ok e d : wf e -> e_dim e = n -> expr_rank e = Some 2%nat -> div co e = Some d ->
  e_dim d = n /\ num_components d = n /\ wf d /\ forall z, regular z -> defined e z -> defined d z /\
    forall U dS, smooth n U z -> (forall i j, (i < n)%nat -> (j < n)%nat -> partial j (vc2 e i j U) z (dS i j)) ->
      forall i, (i < n)%nat -> mean d i U z =
        rsum n (fun j => dS i j + rsum n (fun k => vc2 e k j U z * rct z i k j + vc2 e i k U z * rct z j k j)) * scl z i.
Proof.
  intros W D Rk H. unfold div in H. cbn [co_cart coords_of] in H. rewrite HC, D in H.
  destruct (Nat.eqb_spec n 1); [lia|]. destruct (rank2_num e W Rk) as [N _]. rewrite N, D in H.
  destruct (Nat.eqb_spec (n * n) (n ^ 2)) as [_|E]; [|exfalso; cbn in E; lia].
  destruct (opt_all _) as [l|] eqn:El; [|discriminate]. cbn [obind] in H. destruct (opt_all_seq _ _ _ enl El) as [Hl Hr].
  assert (T : forall i, (i < n)%nat -> scalars [nth i l enl] /\ forall z, regular z -> defined e z -> defined (nth i l enl) z /\
     forall U dS, smooth n U z -> (forall j, (j < n)%nat -> partial j (vc2 e i j U) z (dS j)) -> mean (nth i l enl) 0 U z =
       rsum n (fun j => dS j + rsum n (fun k => vc2 e k j U z * rct z i k j + vc2 e i k U z * rct z j k j))).
  { intros i Hi. specialize (Hr i Hi). cbv beta in Hr. destruct (div_ten_terms co e i) as [t|] eqn:Et; [|discriminate]. cbn [obind] in Hr.
    destruct (sum_list t) as [s|] eqn:Es; [|discriminate]. cbn [obind] in Hr. apply some_inj in Hr. rewrite Hr.
    destruct (div_ten_terms_ok e i t W D Rk Hi Et) as [A M]. destruct (sum_ok L n t s Es A) as (P1 & P2 & P3 & P4 & P5).
    split; [intros f [<-|[]]; split; [apply simplify_wf, P1|rewrite simplify_dim, simplify_num; auto]|].
    intros z Rz Dz. destruct (M z Rz Dz) as [A1 M1]. split; [apply simplify_ok, P4, A1|]. intros U dS HU Hd.
    rewrite simplify_mean by apply P4, A1. rewrite P5. auto. }
  assert (Hs : scalars l).
  { intros f Hf. destruct (In_nth _ _ enl Hf) as (i & Hi & <-). rewrite Hl in Hi. apply (proj1 (T i Hi)). left. reflexivity. }
  destruct (tail1 L n m rv normal Hn l d H Hs Hl) as (A & B' & C & M).
  split; [exact A|]. split; [exact B'|]. split; [exact C|]. intros z Rz Dz. destruct (M z Rz) as [D1 M1].
  { intros f Hf. destruct (In_nth _ _ enl Hf) as (i & Hi & <-). rewrite Hl in Hi. apply (T i Hi); assumption. }
  split; [exact D1|]. intros U dS HU Hd i Hi. rewrite (M1 U i Hi). f_equal. apply (T i Hi); auto.
Qed.
End P.
