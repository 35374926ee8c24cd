(** CoordProofs9.v -- projections on the tangent space, the Laplace operator, the surface curl. *)
From Coq Require Import Reals ZArith List Bool Arith Lia Lra.
From Verif Require Import FormsModel FormsSpec FormsProofs FormsProofs2 FormsProofs3 FormsProofs4 CoordModel CoordSpec CoordProofs CoordProofs2 CoordProofs3 CoordProofs4 CoordProofs5 CoordProofs6 CoordProofs7 CoordProofs8.
Import ListNotations.
Local Open Scope R_scope.

Section P.
Context {S : SymS} (L : SymSLaws S) (n m : nat) (rv : nat -> S) (normal : bool).
Implicit Types (e f r : expr S) (x y z : pt) (U : nat -> list nat -> pt -> R).
Notation ev := (ev L). Notation good := (good L). Notation mean := (mean L). Notation defined := (defined L).
Notation B := (tangent L rv). Notation gram := (gram L m rv). Notation regular := (regular L n m rv). Notation B2 := (B2 L rv).
Notation co := (coords_of n m rv normal). Notation pos := (pos L rv). Notation rbt := (rbt L n m rv).
Notation rgt := (rgt L n m rv). Notation rct := (rct L n m rv). Notation rsg := (rsg L n m rv). Notation rhi := (rhi L m rv).
Notation vec := (vec L n m rv normal). Notation ten := (ten L n m rv normal). Notation pulls := (pulls L n rv).
Hypothesis Hn : (1 <= n <= 3)%nat.

Lemma proj_rbt P y a c : projection L n m rv P y -> regular y -> (a < m)%nat -> (c < m)%nat ->
  P a c = rsum n (fun l => rbt y l c * B y l a).
Proof.
  intros [P1 P2] Ry Ha Hc. set (u := fun d => delta c d - rsum n (fun l => rbt y l c * B y l d)).
  assert (Z : rsum m (fun d => P a d * u d) = 0).
  { apply P2; [|exact Ha]. intros k Hk. unfold dot, u.
    rewrite (rsum_ext m _ (fun d => delta c d * B y k d - rsum n (fun l => rbt y l c * (B y l d * B y k d)))).
    - rewrite rsum_minus, (rsum_delta m c (fun d => B y k d) Hc), rsum_swap.
      rewrite (rsum_ext n _ (fun l => rbt y l c * gram y l k)) by (intros l Hl; rewrite rsum_scal; reflexivity).
      rewrite (bt_g L n m rv Hn y Ry c k Hk). ring.
    - intros d Hd. rewrite Rmult_minus_distr_r, <- rsum_scal_r. f_equal. apply rsum_ext. intros; ring. }
  unfold u in Z. rewrite (rsum_ext m _ (fun d => delta c d * P a d - rsum n (fun l => rbt y l c * (P a d * B y l d)))) in Z.
  - rewrite rsum_minus, (rsum_delta m c (P a) Hc), rsum_swap in Z.
    rewrite (rsum_ext n _ (fun l => rbt y l c * B y l a)) in Z; [lra|]. intros l Hl. rewrite rsum_scal, P1 by assumption. reflexivity.
  - intros d Hd. rewrite Rmult_minus_distr_l, <- rsum_scal. f_equal; [ring|]. apply rsum_ext. intros; ring.
Qed.
Lemma proj_exists y : regular y -> exists P, projection L n m rv P y.
Proof.
  intros Ry. exists (fun a c => rsum n (fun l => rbt y l c * B y l a)). split.
  - intros k a Hk Ha. rewrite (rsum_ext m _ (fun c => rsum n (fun l => B y l a * (rbt y l c * B y k c)))) by (intros c Hc; rewrite <- rsum_scal_r; apply rsum_ext; intros; ring).
    rewrite rsum_swap. rewrite (rsum_ext n _ (fun l => B y l a * delta l k)).
    + apply (rsum_delta_r n k (fun l => B y l a) Hk).
    + intros l Hl. rewrite rsum_scal, <- (bt_B L n m rv Hn y Ry l k Hl Hk). reflexivity.
  - intros u Hu a Ha. rewrite (rsum_ext m _ (fun c => rsum n (fun l => B y l a * (rbt y l c * u c)))) by (intros c Hc; rewrite <- rsum_scal_r; apply rsum_ext; intros; ring).
    rewrite rsum_swap. apply rsum_0. intros l Hl. rewrite rsum_scal. replace (rsum m (fun c => rbt y l c * u c)) with 0; [ring|].
    symmetry. unfold CoordProofs2.rbt. rewrite (rsum_ext m _ (fun c => rsum n (fun j => rgt y l j * (u c * B y j c)))) by (intros c Hc; rewrite <- rsum_scal_r; apply rsum_ext; intros; ring).
    rewrite rsum_swap. apply rsum_0. intros j Hj. rewrite rsum_scal. specialize (Hu j Hj). unfold dot in Hu. rewrite Hu. ring.
Qed.
Lemma grad_surf e g y U F G P : wf e -> e_dim e = n -> num_components e = 1%nat -> grad co e = Some g ->
  regular y -> defined e y -> smooth n U y -> frechet m F (pos y) G -> pulls F (mean e 0 U) y -> projection L n m rv P y ->
  forall a, (a < m)%nat -> vec g U y a = rsum m (fun c => P a c * G c).
Proof.
  intros W D N H Ry Dy HU HF HP HPr a Ha.
  pose proof (grad_true L n m rv normal Hn e g y U F G W D N H Ry Dy HU HF HP) as T.
  assert (Z : rsum m (fun c => P a c * (vec g U y c - G c)) = 0).
  { apply (proj2 HPr (fun c => vec g U y c - G c)); [|exact Ha]. intros k Hk. unfold dot.
    rewrite (rsum_ext m _ (fun c => vec g U y c * B y k c - G c * B y k c)) by (intros; ring). rewrite rsum_minus.
    specialize (T k Hk). unfold dot in T. rewrite T. ring. }
  rewrite (rsum_ext m _ (fun c => P a c * vec g U y c - P a c * G c)) in Z by (intros; ring). rewrite rsum_minus in Z.
  assert (V : rsum m (fun c => P a c * vec g U y c) = vec g U y a); [|lra].
  rewrite (vec_vc L n m rv normal Hn g U y a Ry).
  rewrite (rsum_ext m _ (fun c => rsum n (fun i => vc L m rv normal g i U y * (P a c * B y i c)))).
  - rewrite rsum_swap. apply rsum_ext. intros i Hi. rewrite rsum_scal, (proj1 HPr i a Hi Ha). reflexivity.
  - intros c Hc. rewrite (vec_vc L n m rv normal Hn g U y c Ry), <- rsum_scal. apply rsum_ext. intros; ring.
Qed.
Lemma div_surf_true e d y U F DF P : wf e -> e_dim e = n -> num_components e = n -> div co e = Some d ->
  regular y -> defined e y -> smooth n U y ->
  (forall a, (a < m)%nat -> frechet m (F a) (pos y) (DF a)) -> (forall a, (a < m)%nat -> pulls (F a) (fun z => vec e U z a) y) ->
  projection L n m rv P y ->
  mean d 0 U y = rsum m (fun c => rsum m (fun a => P c a * DF a c)).
Proof.
  intros W D N H Ry Dy HU HF HP HPr. rewrite (div_surf L n m rv normal Hn e d y U F DF W D N H Ry Dy HU HF HP).
  rewrite rsum_swap. rewrite (rsum_swap m m (fun c a => P c a * DF a c)). apply rsum_ext. intros a Ha.
  rewrite (rsum_ext n _ (fun l => rsum m (fun c => DF a c * (rbt y l a * B y l c)))).
  - rewrite rsum_swap. apply rsum_ext. intros c Hc. rewrite rsum_scal, <- (proj_rbt P y c a HPr Ry Hc Ha). ring.
  - intros l Hl. unfold dot. rewrite <- rsum_scal. apply rsum_ext. intros; ring.
Qed.
Lemma curl_surf_true e w y U F DF : n = 2%nat -> m = 3%nat -> wf e -> e_dim e = n -> expr_rank e = Some 1%nat -> curl co e = Some w ->
  regular y -> defined e y -> smooth n U y ->
  (forall a, (a < m)%nat -> frechet m (F a) (pos y) (DF a)) -> (forall a, (a < m)%nat -> pulls (F a) (fun z => vec e U z a) y) ->
  let N := cross (B y 0%nat) (B y 1%nat) in 0 < dot 3 N N /\ mean w 0 U y = dot 3 (curl_of DF) N / sqrt (dot 3 N N).
Proof.
  intros E2 M3 W D Rk H Ry Dy HU HF HP N.
  destruct (curl_2d_ok L n m rv normal Hn e w W E2 D Rk H) as (_ & _ & _ & M). destruct (M y Ry Dy) as [_ M1].
  rewrite (M1 U (fun p q => rsum m (fun a => dot m (DF a) (B y p) * B y q a + vec e U y a * B2 y p q a)) HU).
  2: { intros p q Hp Hq. apply (cv_partial L n m rv normal Hn e y U F DF p q W D Ry Dy HU HF HP Hp). }
  rewrite !(cv_diff L n m rv normal e y U DF _ _ Ry).
  pose proof (proj2 (proj2 (sg_ok L n m rv Hn y Ry))) as P. pose proof (proj2 (proj2 Ry)) as PD.
  assert (E : rdet n (gram y) = dot 3 N N).
  { rewrite E2. cbn [rdet rsum Nat.add]. unfold rsign, skipi. cbn [Nat.even Nat.ltb Nat.leb Nat.add]. unfold CoordSpec.gram, dot, N. rewrite M3.
    cbn [rsum cross]. ring. }
  split; [rewrite <- E; exact PD|]. unfold CoordProofs2.rsg in *. rewrite E in *. unfold Rdiv. f_equal.
  assert (Y : forall h : nat -> R, rsum m h = h 0%nat + h 1%nat + h 2%nat) by (intros h; rewrite M3; cbn; ring). unfold dot. rewrite !Y.
  cbn [rsum]. unfold N, cross, curl_of. ring.
Qed.

(** *** div(grad f) *)
Definition box (y : pt) (d : R) (z : pt) : Prop := forall i, (i < n)%nat -> Rabs (z i - y i) < d.
Lemma box_line y d i h : Rabs h < d -> box y d (shift y i h).
Proof.
  intros H j Hj. unfold shift. destruct (Nat.eqb j i).
  - replace (y j + h - y j) with h by ring. exact H.
  - replace (y j - y j) with 0 by ring. rewrite Rabs_R0. pose proof (Rabs_pos h). lra.
Qed.
Lemma laplace_true e g d y U F G HG : n = m -> wf e -> e_dim e = n -> num_components e = 1%nat -> grad co e = Some g -> div co g = Some d ->
  regular y -> defined e y -> smooth n U y ->
  (exists eps, 0 < eps /\ forall z, (forall i, (i < n)%nat -> Rabs (z i - y i) < eps) ->
     mean e 0 U z = F (pos z) /\ smooth n U z /\ frechet m F (pos z) (fun a => G a (pos z))) ->
  (forall a, (a < m)%nat -> frechet m (G a) (pos y) (HG a)) ->
  mean d 0 U y = rsum m (fun a => HG a a).
Proof.
  intros E W D N Hg Hd Ry Dy HU (eps & Heps & HE) HH.
  destruct (grad_scalar_ok L n m rv normal Hn e g W D N Hg) as (Dg & Ng & Wg & M). destruct (M y Ry Dy) as [Dgy _].
  apply (div_true L n m rv normal Hn g d y U G HG E Wg Dg Ng Hd Ry Dgy HU HH).
  intros a Ha i Hi.
  destruct (near_and _ _ _ _ (regular_near L n m rv Hn y i Ry) (defined_near L e y i Dy)) as (d1 & Hd1 & K).
  exists (Rmin d1 eps). split; [apply Rmin_pos; assumption|]. intros h Hh.
  assert (Hh1 : Rabs h < d1) by (eapply Rlt_le_trans; [exact Hh|apply Rmin_l]).
  assert (Hh2 : Rabs h < eps) by (eapply Rlt_le_trans; [exact Hh|apply Rmin_r]).
  destruct (K h Hh1) as [Rz Dz]. set (z := shift y i h) in *. pose proof (box_line y eps i h Hh2) as Bz. fold z in Bz.
  destruct (HE z Bz) as (Ez & Sz & Fz).
  apply (tests_eq L n m rv Hn z Rz (vec g U z) (fun a => G a (pos z)) E); [|exact Ha].
  intros k Hk. apply (grad_true L n m rv normal Hn e g z U F (fun a => G a (pos z)) W D N Hg Rz Dz Sz Fz); [|exact Hk].
  intros j Hj. exists (eps - Rabs h). split; [lra|]. intros h' Hh'. apply HE. intros q Hq.
  unfold z, shift. destruct (Nat.eqb q j); destruct (Nat.eqb q i).
  - replace (y q + h + h' - y q) with (h + h') by ring. eapply Rle_lt_trans; [apply Rabs_triang|]. lra.
  - replace (y q + h' - y q) with h' by ring. pose proof (Rabs_pos h). lra.
  - replace (y q + h - y q) with h by ring. exact Hh2.
  - replace (y q - y q) with 0 by ring. rewrite Rabs_R0. exact Heps.
Qed.
End P.
