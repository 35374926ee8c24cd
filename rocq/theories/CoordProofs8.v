(** CoordProofs8.v -- grad, div and curl are the derivatives of the functions of the position. *)
From Coq Require Import Reals ZArith List Bool Arith Lia Lra.
From Verif Require Import FormsModel FormsSpec FormsProofs FormsProofs2 FormsProofs3 FormsProofs4 CoordModel CoordSpec CoordProofs CoordProofs2 CoordProofs3 CoordProofs4 CoordProofs5 CoordProofs6 CoordProofs7.
Import ListNotations.
Local Open Scope R_scope.

Lemma rsum_0 n (u : nat -> R) : (forall i, (i < n)%nat -> u i = 0) -> rsum n u = 0.
Proof. intros H. rewrite (rsum_ext n _ (fun _ => 0 * 0)) by (intros i Hi; rewrite H by exact Hi; ring). rewrite rsum_scal. ring. Qed.
Lemma choose1 n (P : nat -> R -> Prop) : (forall i, (i < n)%nat -> exists d, P i d) -> exists f, forall i, (i < n)%nat -> P i (f i).
Proof.
  induction n as [|n IH]; intros H; [exists (fun _ => 0); intros; lia|].
  destruct IH as [f Hf]; [intros i Hi; apply H; lia|]. destruct (H n ltac:(lia)) as [d Hd].
  exists (fun i => if Nat.eqb i n then d else f i). intros i Hi. destruct (Nat.eqb_spec i n) as [->|]; [exact Hd|apply Hf; lia].
Qed.
Lemma choose2 n k (P : nat -> nat -> R -> Prop) : (forall i j, (i < n)%nat -> (j < k)%nat -> exists d, P i j d) ->
  exists f, forall i j, (i < n)%nat -> (j < k)%nat -> P i j (f i j).
Proof.
  induction n as [|n IH]; intros H; [exists (fun _ _ => 0); intros; lia|].
  destruct IH as [f Hf]; [intros i j Hi Hj; apply H; lia|].
  destruct (choose1 k (P n)) as [g Hg]; [intros j Hj; apply H; lia|].
  exists (fun i j => if Nat.eqb i n then g j else f i j). intros i j Hi Hj. destruct (Nat.eqb_spec i n) as [->|]; [apply Hg, Hj|apply Hf; lia].
Qed.

Section P.
Context {S : SymS} (L : SymSLaws S) (n m : nat) (rv : nat -> S) (normal : bool).
Implicit Types (e f r : expr S) (x y z : pt) (U : nat -> list nat -> pt -> R).
Notation ev := (ev L). Notation good := (good L). Notation mean := (mean L). Notation defined := (defined L).
Notation B := (tangent L rv). Notation gram := (gram L m rv). Notation regular := (regular L n m rv). Notation B2 := (B2 L rv).
Notation co := (coords_of n m rv normal). Notation pos := (pos L rv). Notation rbt := (rbt L n m rv).
Notation rgt := (rgt L n m rv). Notation rct := (rct L n m rv). Notation rsg := (rsg L n m rv). Notation rhi := (rhi L m rv).
Notation scl := (scl L m rv normal). Notation vc := (vc L m rv normal). Notation vc2 := (vc2 L n m rv normal).
Notation cv := (cv L n m rv normal). Notation cov_deriv := (cov_deriv L n m rv normal).
Notation vec := (vec L n m rv normal). Notation ten := (ten L n m rv normal). Notation pulls := (pulls L n rv).
Hypothesis Hn : (1 <= n <= 3)%nat.

Lemma pulls_partial F (q : pt -> R) y G i : regular y -> frechet m F (pos y) G -> pulls F q y -> (i < n)%nat -> partial i q y (dot m G (B y i)).
Proof.
  intros Ry HF HP Hi. eapply partial_near; [|apply (frechet_partial m F pos G y i (B y i) HF)].
  - destruct (HP i Hi) as (d & Hd & E). exists d. split; [exact Hd|]. intros h Hh. symmetry. apply E, Hh.
  - intros a Ha. apply (pos_partial L m rv y i a (regular_rv L n m rv y Ry) Ha).
Qed.

(** *** grad *)
Lemma grad_true e g y U F G : wf e -> e_dim e = n -> num_components e = 1%nat -> grad co e = Some g ->
  regular y -> defined e y -> smooth n U y -> frechet m F (pos y) G -> pulls F (mean e 0 U) y ->
  forall k, (k < n)%nat -> dot m (vec g U y) (B y k) = dot m G (B y k).
Proof.
  intros W D N H Ry Dy HU HF HP k Hk. destruct (grad_scalar_ok L n m rv normal Hn e g W D N H) as (_ & _ & _ & M).
  destruct (M y Ry Dy) as [_ M1].
  specialize (M1 U (fun j => dot m G (B y j)) HU ltac:(intros j Hj; exact (pulls_partial F _ y G j Ry HF HP Hj))).
  rewrite (dot_ext m _ (B y k) (fun a => rsum n (fun i => vc g i U y * B y i a)) (B y k)) by (intros; try apply vec_vc; auto).
  rewrite (dot_sum_l m n (fun i a => vc g i U y * B y i a)).
  rewrite (rsum_ext n _ (fun i => rsum n (fun j => dot m G (B y j) * (rgt y j i * gram y i k)))).
  - rewrite rsum_swap. rewrite (rsum_ext n _ (fun j => dot m G (B y j) * delta j k)).
    + apply (rsum_delta_r n k (fun j => dot m G (B y j)) Hk).
    + intros j Hj. rewrite rsum_scal, (gt_g L n m rv Hn y Ry j k Hj Hk). reflexivity.
  - intros i Hi. rewrite dot_scal_l. unfold CoordProofs3.vc. rewrite M1 by exact Hi.
    pose proof (scl_pos L n m rv normal Hn y i Ry Hi) as P.
    replace (rsum n (fun j => rgt y j i * dot m G (B y j)) * scl y i / scl y i) with (rsum n (fun j => rgt y j i * dot m G (B y j))) by (field; lra).
    rewrite <- rsum_scal_r. apply rsum_ext. intros j Hj. unfold CoordSpec.gram. ring.
Qed.

(** *** derivatives of the field *)
Section Field.
Variables (e : expr S) (y : pt) (U : nat -> list nat -> pt -> R).
Hypothesis W : wf e.
Hypothesis D : e_dim e = n.
Hypothesis Ry : regular y.
Hypothesis Dy : defined e y.
Hypothesis HU : smooth n U y.
Lemma vc_derivs : exists dv, forall i l, (i < n)%nat -> (l < n)%nat -> partial l (vc e i U) y (dv i l).
Proof.
  apply (choose2 n n (fun i l d => partial l (vc e i U) y d)). intros i l Hi Hl.
  apply (vc_partial L n m rv normal Hn e i l U y W D Ry Dy HU Hi Hl).
Qed.
Lemma vc2_derivs : exists dS, forall i j l, (i < n)%nat -> (j < n)%nat -> (l < n)%nat -> partial l (vc2 e i j U) y (dS i j l).
Proof.
  destruct (choose2 (n * n) n (fun p l d => partial l (vc2 e (p / n) (p mod n) U) y d)) as [f Hf].
  - intros p l Hp Hl. apply (vc2_partial L n m rv normal Hn e _ _ l U y W D Ry Dy HU); [|apply Nat.mod_upper_bound; lia|exact Hl].
    apply Nat.div_lt_upper_bound; lia.
  - exists (fun i j l => f (i * n + j)%nat l). intros i j l Hi Hj Hl. specialize (Hf (i * n + j)%nat l ltac:(nia) Hl).
    replace ((i * n + j) / n)%nat with i in Hf by (rewrite Nat.div_add_l, Nat.div_small by lia; lia).
    replace ((i * n + j) mod n)%nat with j in Hf by (rewrite Nat.add_comm, Nat.mod_add, Nat.mod_small by lia; lia). exact Hf.
Qed.
Lemma vec_partial dv l a : (forall i l, (i < n)%nat -> (l < n)%nat -> partial l (vc e i U) y (dv i l)) -> (l < n)%nat -> (a < m)%nat ->
  partial l (fun z => vec e U z a) y (rsum n (fun i => dv i l * B y i a + vc e i U y * B2 y l i a)).
Proof.
  intros Hd Hl Ha. eapply partial_near.
  - eapply near_imp; [|exact (regular_near L n m rv Hn y l Ry)]. intros w Rw. symmetry. exact (vec_vc L n m rv normal Hn e U w a Rw).
  - apply (rsum_partial l n (fun i z => vc e i U z * B z i a)). intros i Hi.
    apply (partial_mult l (vc e i U) (fun z => B z i a)); [apply Hd; assumption|].
    apply (B_partial L m rv); [exact (regular_rv L n m rv y Ry)|exact Ha].
Qed.
Lemma ten_partial dS l a c : (forall i j l, (i < n)%nat -> (j < n)%nat -> (l < n)%nat -> partial l (vc2 e i j U) y (dS i j l)) -> (l < n)%nat -> (a < m)%nat -> (c < m)%nat ->
  partial l (fun z => ten e U z a c) y (rsum n (fun i => rsum n (fun j =>
    (dS i j l * B y i a + vc2 e i j U y * B2 y l i a) * B y j c + vc2 e i j U y * B y i a * B2 y l j c))).
Proof.
  intros Hd Hl Ha Hc. pose proof (regular_rv L n m rv y Ry) as HR. eapply partial_near.
  - eapply near_imp; [|exact (regular_near L n m rv Hn y l Ry)]. intros w Rw. symmetry. exact (ten_vc L n m rv normal Hn e U w a c Rw).
  - apply (rsum_partial l n (fun i z => rsum n (fun j => vc2 e i j U z * B z i a * B z j c))). intros i Hi.
    apply (rsum_partial l n (fun j z => vc2 e i j U z * B z i a * B z j c)). intros j Hj.
    apply (partial_mult l (fun z => vc2 e i j U z * B z i a) (fun z => B z j c)); [|apply (B_partial L m rv); assumption].
    apply (partial_mult l (vc2 e i j U) (fun z => B z i a)); [apply Hd; assumption|]. apply (B_partial L m rv); assumption.
Qed.

Variables (F : nat -> (nat -> R) -> R) (DF : nat -> nat -> R).
Hypothesis HF : forall a, (a < m)%nat -> frechet m (F a) (pos y) (DF a).
Hypothesis HP : forall a, (a < m)%nat -> pulls (F a) (fun z => vec e U z a) y.
Lemma vec_field dv l a : (forall i l, (i < n)%nat -> (l < n)%nat -> partial l (vc e i U) y (dv i l)) -> (l < n)%nat -> (a < m)%nat ->
  rsum n (fun i => dv i l * B y i a + vc e i U y * B2 y l i a) = dot m (DF a) (B y l).
Proof.
  intros Hd Hl Ha. eapply partial_unique; [apply (vec_partial dv l a Hd Hl Ha)|].
  apply (pulls_partial (F a) _ y (DF a) l Ry (HF a Ha) (HP a Ha) Hl).
Qed.

(** *** div of a vector *)
Lemma trace_sum dv : (forall i l, (i < n)%nat -> (l < n)%nat -> partial l (vc e i U) y (dv i l)) ->
  rsum n (fun i => dv i i + vc e i U y * rsum n (fun k => rct y k k i)) =
  rsum n (fun l => rsum m (fun a => rbt y l a * dot m (DF a) (B y l))).
Proof.
  intros Hd. pose proof (regular_rv L n m rv y Ry) as HR. symmetry.
  rewrite (rsum_ext n _ (fun l => rsum n (fun i => dv i l * dot m (rbt y l) (B y i) + vc e i U y * rct y l i l))).
  - rewrite rsum_swap. apply rsum_ext. intros i Hi. rewrite rsum_plus. f_equal.
    + rewrite (rsum_ext n _ (fun l => dv i l * delta l i)); [apply (rsum_delta_r n i (dv i) Hi)|].
      intros l Hl. rewrite (bt_B L n m rv Hn y Ry l i Hl Hi). reflexivity.
    + rewrite rsum_scal. f_equal. apply rsum_ext. intros l Hl. unfold CoordProofs2.rct. apply rsum_ext. intros a Ha.
      rewrite (B2_sym L m rv y l i a HR Ha). reflexivity.
  - intros l Hl. rewrite (rsum_ext m _ (fun a => rsum n (fun i => dv i l * (rbt y l a * B y i a) + vc e i U y * (B2 y l i a * rbt y l a)))).
    + rewrite rsum_swap. apply rsum_ext. intros i Hi. rewrite rsum_plus, !rsum_scal. reflexivity.
    + intros a Ha. rewrite <- (vec_field dv l a Hd Hl Ha), <- rsum_scal. apply rsum_ext. intros i Hi. ring.
Qed.
Lemma trace_full : n = m -> rsum n (fun l => rsum m (fun a => rbt y l a * dot m (DF a) (B y l))) = rsum m (fun a => DF a a).
Proof.
  intros E. rewrite rsum_swap. apply rsum_ext. intros a Ha. unfold dot.
  rewrite (rsum_ext n _ (fun l => rsum m (fun c => DF a c * (rbt y l a * B y l c)))).
  - rewrite rsum_swap. rewrite (rsum_ext m _ (fun c => delta a c * DF a c)).
    + apply (rsum_delta m a (DF a) Ha).
    + intros c Hc. rewrite rsum_scal, (bt_complete L n m rv Hn y Ry a c E Ha Hc). ring.
  - intros l Hl. rewrite <- rsum_scal. apply rsum_ext. intros c Hc. ring.
Qed.
(** Gauss' formula *)
Lemma B2_expand l i a : n = m -> (l < n)%nat -> (i < n)%nat -> (a < m)%nat -> B2 y l i a = rsum n (fun k => rct y k i l * B y k a).
Proof.
  intros E Hl Hi Ha. unfold CoordProofs2.rct.
  rewrite (rsum_ext n _ (fun k => rsum m (fun c => B2 y l i c * (rbt y k c * B y k a)))) by (intros k Hk; rewrite <- rsum_scal_r; apply rsum_ext; intros; ring).
  rewrite rsum_swap. rewrite (rsum_ext m _ (fun c => B2 y l i c * delta c a)).
  - symmetry. apply (rsum_delta_r m a (fun c => B2 y l i c) Ha).
  - intros c Hc. rewrite rsum_scal, (bt_complete L n m rv Hn y Ry c a E Hc Ha). reflexivity.
Qed.
Lemma field_cov dv l a : n = m -> (forall i l, (i < n)%nat -> (l < n)%nat -> partial l (vc e i U) y (dv i l)) -> (l < n)%nat -> (a < m)%nat ->
  rsum n (fun i => cov_deriv e U y dv i l * B y i a) = dot m (DF a) (B y l).
Proof.
  intros E Hd Hl Ha. rewrite <- (vec_field dv l a Hd Hl Ha). unfold CoordProofs5.cov_deriv.
  rewrite (rsum_ext n _ (fun i => dv i l * B y i a + rsum n (fun k => vc e k U y * (rct y i k l * B y i a)))).
  2: { intros i Hi. rewrite Rmult_plus_distr_r, <- rsum_scal_r. f_equal. apply rsum_ext. intros; ring. }
  rewrite rsum_plus, (rsum_plus n (fun i => dv i l * B y i a)). f_equal. rewrite rsum_swap. apply rsum_ext. intros k Hk.
  rewrite rsum_scal, <- (B2_expand l k a E Hl Hk Ha). reflexivity.
Qed.
End Field.

Lemma div_true e d y U F DF : n = m -> wf e -> e_dim e = n -> num_components e = n -> div co e = Some d ->
  regular y -> defined e y -> smooth n U y ->
  (forall a, (a < m)%nat -> frechet m (F a) (pos y) (DF a)) -> (forall a, (a < m)%nat -> pulls (F a) (fun z => vec e U z a) y) ->
  mean d 0 U y = rsum m (fun a => DF a a).
Proof.
  intros E W D N H Ry Dy HU HF HP. destruct (vc_derivs e y U W D Ry Dy HU) as [dv Hd].
  rewrite <- (trace_full y Ry DF E), <- (trace_sum e y U Ry F DF HF HP dv Hd).
  destruct (Nat.eq_dec n 1) as [E1|E1].
  - rewrite E1 in N at 1. destruct (div_1d_ok L n m rv normal Hn e d W E1 D N H) as (_ & _ & _ & M).
    destruct (M y Ry Dy) as [_ M1]. apply (M1 U (fun i => dv i i) HU). intros i Hi. apply Hd; exact Hi.
  - destruct (div_vec_ok L n m rv normal Hn e d W ltac:(lia) D N H) as (_ & _ & _ & M).
    destruct (M y Ry Dy) as [_ M1]. apply (M1 U (fun i => dv i i) HU). intros i Hi. apply Hd; exact Hi.
Qed.
(** on curves and surfaces: the divergence along the tangent space *)
Lemma div_surf e d y U F DF : wf e -> e_dim e = n -> num_components e = n -> div co e = Some d ->
  regular y -> defined e y -> smooth n U y ->
  (forall a, (a < m)%nat -> frechet m (F a) (pos y) (DF a)) -> (forall a, (a < m)%nat -> pulls (F a) (fun z => vec e U z a) y) ->
  mean d 0 U y = rsum n (fun l => rsum m (fun a => rbt y l a * dot m (DF a) (B y l))).
Proof.
  intros W D N H Ry Dy HU HF HP. destruct (vc_derivs e y U W D Ry Dy HU) as [dv Hd].
  rewrite <- (trace_sum e y U Ry F DF HF HP dv Hd).
  destruct (Nat.eq_dec n 1) as [E1|E1].
  - rewrite E1 in N at 1. destruct (div_1d_ok L n m rv normal Hn e d W E1 D N H) as (_ & _ & _ & M).
    destruct (M y Ry Dy) as [_ M1]. apply (M1 U (fun i => dv i i) HU). intros i Hi. apply Hd; exact Hi.
  - destruct (div_vec_ok L n m rv normal Hn e d W ltac:(lia) D N H) as (_ & _ & _ & M).
    destruct (M y Ry Dy) as [_ M1]. apply (M1 U (fun i => dv i i) HU). intros i Hi. apply Hd; exact Hi.
Qed.

(** *** grad of a vector *)
Lemma grad_vec_true e g y U F DF : n = m -> (1 < n)%nat -> wf e -> e_dim e = n -> expr_rank e = Some 1%nat -> grad co e = Some g ->
  regular y -> defined e y -> smooth n U y ->
  (forall a, (a < m)%nat -> frechet m (F a) (pos y) (DF a)) -> (forall a, (a < m)%nat -> pulls (F a) (fun z => vec e U z a) y) ->
  forall a c, (a < m)%nat -> (c < m)%nat -> ten g U y a c = DF a c.
Proof.
  intros E H1 W D Rk H Ry Dy HU HF HP a c Ha Hc. destruct (vc_derivs e y U W D Ry Dy HU) as [dv Hd].
  destruct (grad_vec_ok L n m rv normal Hn e g H1 W D Rk H) as (_ & _ & _ & M). destruct (M y Ry Dy) as [_ M1]. specialize (M1 U dv HU Hd).
  rewrite (ten_vc L n m rv normal Hn g U y a c Ry).
  rewrite (rsum_ext n _ (fun i => rsum n (fun l => cov_deriv e U y dv i l * B y i a * rbt y l c))).
  - rewrite rsum_swap. rewrite (rsum_ext n _ (fun l => rsum m (fun k => DF a k * (rbt y l c * B y l k)))).
    + rewrite rsum_swap. rewrite (rsum_ext m _ (fun k => delta c k * DF a k)); [apply (rsum_delta m c (DF a) Hc)|].
      intros k Hk. rewrite rsum_scal, (bt_complete L n m rv Hn y Ry c k E Hc Hk). ring.
    + intros l Hl. rewrite rsum_scal_r, (field_cov e y U Ry F DF HF HP dv l a E Hd Hl Ha). unfold dot. rewrite <- rsum_scal_r.
      apply rsum_ext. intros; ring.
  - intros i Hi. rewrite (rsum_ext n _ (fun j => rsum n (fun l => cov_deriv e U y dv i l * B y i a * (rgt y l j * B y j c)))).
    + rewrite rsum_swap. apply rsum_ext. intros l Hl. rewrite rsum_scal. reflexivity.
    + intros j Hj. unfold CoordProofs3.vc2. rewrite (M1 i j Hi Hj).
      pose proof (scl_pos L n m rv normal Hn y i Ry Hi) as P1. pose proof (scl_pos L n m rv normal Hn y j Ry Hj) as P2.
      replace (rsum n (fun l => rgt y l j * cov_deriv e U y dv i l) * (scl y i * scl y j) / (scl y i * scl y j) * B y i a * B y j c)
        with (rsum n (fun l => rgt y l j * cov_deriv e U y dv i l) * (B y i a * B y j c)) by (field; split; lra).
      rewrite <- rsum_scal_r. apply rsum_ext. intros; ring.
Qed.

(** *** div of a tensor *)
Lemma div_ten_true e d y U F DF : n = m -> (1 < n)%nat -> wf e -> e_dim e = n -> expr_rank e = Some 2%nat -> div co e = Some d ->
  regular y -> defined e y -> smooth n U y ->
  (forall a c, (a < m)%nat -> (c < m)%nat -> frechet m (F a c) (pos y) (DF a c)) ->
  (forall a c, (a < m)%nat -> (c < m)%nat -> pulls (F a c) (fun z => ten e U z a c) y) ->
  forall a, (a < m)%nat -> vec d U y a = rsum m (fun c => DF a c c).
Proof.
  intros E H1 W D Rk H Ry Dy HU HF HP a Ha. destruct (vc2_derivs e y U W D Ry Dy HU) as [dS Hd].
  destruct (div_ten_ok L n m rv normal Hn e d W H1 D Rk H) as (_ & _ & _ & M). destruct (M y Ry Dy) as [_ M1].
  specialize (M1 U (fun i j => dS i j j) HU ltac:(intros; apply Hd; assumption)).
  assert (T : forall l c, (l < n)%nat -> (c < m)%nat -> rsum n (fun i => rsum n (fun j =>
    (dS i j l * B y i a + vc2 e i j U y * B2 y l i a) * B y j c + vc2 e i j U y * B y i a * B2 y l j c)) = dot m (DF a c) (B y l)).
  { intros l c Hl Hc. eapply partial_unique; [apply (ten_partial e y U Ry dS l a c Hd Hl Ha Hc)|].
    apply (pulls_partial (F a c) _ y (DF a c) l Ry (HF a c Ha Hc) (HP a c Ha Hc) Hl). }
  rewrite (vec_vc L n m rv normal Hn d U y a Ry).
  transitivity (rsum m (fun c => rsum n (fun l => rbt y l c * dot m (DF a c) (B y l)))).
  2: { apply rsum_ext. intros c Hc. unfold dot. rewrite (rsum_ext n _ (fun l => rsum m (fun k => DF a c k * (rbt y l c * B y l k)))).
       - rewrite rsum_swap. rewrite (rsum_ext m _ (fun k => delta c k * DF a c k)); [apply (rsum_delta m c (DF a c) Hc)|].
         intros k Hk. rewrite rsum_scal, (bt_complete L n m rv Hn y Ry c k E Hc Hk). ring.
       - intros l Hl. rewrite <- rsum_scal. apply rsum_ext. intros; ring. }
  rewrite (rsum_ext m _ (fun c => rsum n (fun l => rsum n (fun i => rsum n (fun j =>
     (dS i j l * B y i a + vc2 e i j U y * B2 y l i a) * (rbt y l c * B y j c) + vc2 e i j U y * B y i a * (B2 y l j c * rbt y l c)))))).
  2: { intros c Hc. apply rsum_ext. intros l Hl. rewrite <- (T l c Hl Hc), <- rsum_scal. apply rsum_ext. intros i Hi.
       rewrite <- rsum_scal. apply rsum_ext. intros j Hj. ring. }
  rewrite rsum_swap.
  rewrite (rsum_ext n (fun l => rsum m _) (fun l => rsum n (fun i => rsum n (fun j =>
     (dS i j l * B y i a + vc2 e i j U y * B2 y l i a) * delta l j + vc2 e i j U y * B y i a * rct y l j l)))).
  2: { intros l Hl. rewrite rsum_swap. apply rsum_ext. intros i Hi. rewrite rsum_swap. apply rsum_ext. intros j Hj.
       rewrite rsum_plus, !rsum_scal. rewrite <- (bt_B L n m rv Hn y Ry l j Hl Hj). reflexivity. }
  rewrite rsum_swap.
  rewrite (rsum_ext n (fun i => rsum n (fun l => _)) (fun i => rsum n (fun j => (dS i j j * B y i a + vc2 e i j U y * B2 y j i a)
      + vc2 e i j U y * B y i a * rsum n (fun l => rct y l j l)))).
  2: { intros i Hi. rewrite rsum_swap. apply rsum_ext. intros j Hj. rewrite rsum_plus, rsum_scal. f_equal.
       apply (rsum_delta_r n j (fun l => dS i j l * B y i a + vc2 e i j U y * B2 y l i a) Hj). }
  (* the term with B2 *)
  rewrite (rsum_ext n (fun i => rsum n (fun j => _)) (fun i =>
     rsum n (fun j => dS i j j * B y i a + vc2 e i j U y * B y i a * rsum n (fun l => rct y l j l)) +
     rsum n (fun j => rsum n (fun k => vc2 e i j U y * rct y k i j * B y k a)))).
  2: { intros i Hi. rewrite <- rsum_plus. apply rsum_ext. intros j Hj. rewrite (B2_expand y Ry j i a E Hj Hi Ha), <- rsum_scal.
       rewrite (rsum_ext n (fun k => vc2 e i j U y * rct y k i j * B y k a) (fun k => vc2 e i j U y * (rct y k i j * B y k a))) by (intros; ring). ring. }
  rewrite rsum_plus.
  assert (X : rsum n (fun i => rsum n (fun j => rsum n (fun k => vc2 e i j U y * rct y k i j * B y k a))) =
              rsum n (fun i => rsum n (fun j => rsum n (fun k => vc2 e k j U y * rct y i k j)) * B y i a)).
  { rewrite (rsum_ext n _ (fun i => rsum n (fun k => rsum n (fun j => vc2 e i j U y * rct y k i j * B y k a)))) by (intros; apply rsum_swap).
    rewrite rsum_swap. apply rsum_ext. intros i Hi. rewrite rsum_swap, <- rsum_scal_r. apply rsum_ext. intros j Hj. rewrite <- rsum_scal_r. reflexivity. }
  rewrite X, <- rsum_plus. apply rsum_ext. intros i Hi. unfold CoordProofs3.vc. rewrite (M1 i Hi).
  pose proof (scl_pos L n m rv normal Hn y i Ry Hi) as P.
  transitivity (rsum n (fun j => dS i j j + rsum n (fun k => vc2 e k j U y * rct y i k j + vc2 e i k U y * rct y j k j)) * B y i a); [field; lra|].
  rewrite (rsum_ext n (fun j => dS i j j * B y i a + _) (fun j => (dS i j j + vc2 e i j U y * rsum n (fun l => rct y l j l)) * B y i a)) by (intros; ring).
  rewrite rsum_scal_r, <- Rmult_plus_distr_r. f_equal. rewrite !rsum_plus.
  rewrite (rsum_ext n (fun i0 => rsum n (fun k => vc2 e k i0 U y * rct y i k i0 + vc2 e i k U y * rct y i0 k i0))
     (fun j => rsum n (fun k => vc2 e k j U y * rct y i k j) + rsum n (fun k => vc2 e i k U y * rct y j k j))) by (intros; apply rsum_plus).
  rewrite rsum_plus. rewrite (rsum_swap n n (fun j k => vc2 e i k U y * rct y j k j)).
  rewrite (rsum_ext n (fun j => rsum n (fun i0 => vc2 e i j U y * rct y i0 j i0)) (fun j => vc2 e i j U y * rsum n (fun l => rct y l j l))) by (intros; apply rsum_scal).
  ring.
Qed.

(** *** curl *)
Lemma cv_dot e b U z : regular z -> cv e b U z = rsum m (fun a => vec e U z a * B z b a).
Proof.
  intros Rz. unfold CoordProofs6.cv.
  rewrite (rsum_ext m _ (fun a => rsum n (fun k => vc e k U z * (B z b a * B z k a)))).
  - rewrite rsum_swap. apply rsum_ext. intros k Hk. rewrite rsum_scal. reflexivity.
  - intros a Ha. rewrite (vec_vc L n m rv normal Hn e U z a Rz), <- rsum_scal_r. apply rsum_ext. intros; ring.
Qed.
Lemma cv_partial e y U F DF p q : wf e -> e_dim e = n -> regular y -> defined e y -> smooth n U y ->
  (forall a, (a < m)%nat -> frechet m (F a) (pos y) (DF a)) -> (forall a, (a < m)%nat -> pulls (F a) (fun z => vec e U z a) y) ->
  (p < n)%nat -> partial p (cv e q U) y (rsum m (fun a => dot m (DF a) (B y p) * B y q a + vec e U y a * B2 y p q a)).
Proof.
  intros W D Ry Dy HU HF HP Hp. eapply partial_near.
  - eapply near_imp; [|exact (regular_near L n m rv Hn y p Ry)]. intros w Rw. symmetry. exact (cv_dot e q U w Rw).
  - apply (rsum_partial p m (fun a z => vec e U z a * B z q a)). intros a Ha.
    apply (partial_mult p (fun z => vec e U z a) (fun z => B z q a)).
    + apply (pulls_partial (F a) _ y (DF a) p Ry (HF a Ha) (HP a Ha) Hp).
    + apply (B_partial L m rv); [exact (regular_rv L n m rv y Ry)|exact Ha].
Qed.
Lemma cv_diff e y U DF p q : regular y ->
  rsum m (fun a => dot m (DF a) (B y p) * B y q a + vec e U y a * B2 y p q a) -
  rsum m (fun a => dot m (DF a) (B y q) * B y p a + vec e U y a * B2 y q p a) =
  rsum m (fun a => dot m (DF a) (B y p) * B y q a - dot m (DF a) (B y q) * B y p a).
Proof.
  intros Ry. rewrite <- rsum_minus. apply rsum_ext. intros a Ha. rewrite (B2_sym L m rv y p q a (regular_rv L n m rv y Ry) Ha). ring.
Qed.
Lemma rsg_abs y : n = m -> rsg y = Rabs (rdet n (B y)).
Proof.
  intros E. unfold CoordProofs2.rsg. rewrite <- sqrt_Rsqr_abs. f_equal. unfold Rsqr. rewrite <- (det_gram n (B y) Hn).
  apply rdet_ext. intros i j _ _. unfold CoordSpec.gram. rewrite E. reflexivity.
Qed.
Lemma rdet_nz y : n = m -> regular y -> rdet n (B y) <> 0.
Proof.
  intros E Ry Z. pose proof (proj2 (proj2 (sg_ok L n m rv Hn y Ry))) as P. rewrite (rsg_abs y E), Z, Rabs_R0 in P. lra.
Qed.
Lemma curl3_true e w y U F DF : n = 3%nat -> m = 3%nat -> wf e -> e_dim e = n -> expr_rank e = Some 1%nat -> curl co e = Some w ->
  regular y -> defined e y -> smooth n U y ->
  (forall a, (a < m)%nat -> frechet m (F a) (pos y) (DF a)) -> (forall a, (a < m)%nat -> pulls (F a) (fun z => vec e U z a) y) ->
  forall a, (a < 3)%nat -> vec w U y a = rdet n (B y) / Rabs (rdet n (B y)) * curl_of DF a.
Proof.
  intros E3 M3 W D Rk H Ry Dy HU HF HP a Ha.
  destruct (curl_3d_ok L n m rv normal Hn e w W E3 D Rk H) as (_ & _ & _ & M). destruct (M y Ry Dy) as [_ M1].
  destruct (M1 U (fun p q => rsum m (fun a => dot m (DF a) (B y p) * B y q a + vec e U y a * B2 y p q a)) HU) as (V0 & V1 & V2).
  { intros p q Hp Hq. apply (cv_partial e y U F DF p q W D Ry Dy HU HF HP Hp). }
  rewrite (cv_diff e y U DF _ _ Ry) in V0. rewrite (cv_diff e y U DF _ _ Ry) in V1. rewrite (cv_diff e y U DF _ _ Ry) in V2.
  assert (EM : n = m) by congruence. pose proof (rdet_nz y EM Ry) as Z. rewrite (rsg_abs y EM) in V0, V1, V2.
  assert (PA : 0 < Rabs (rdet n (B y))) by (apply Rabs_pos_lt, Z).
  rewrite (vec_vc L n m rv normal Hn w U y a Ry). unfold CoordProofs3.vc.
  pose proof (scl_pos L n m rv normal Hn y 0 Ry ltac:(lia)) as P0. pose proof (scl_pos L n m rv normal Hn y 1 Ry ltac:(lia)) as P1.
  pose proof (scl_pos L n m rv normal Hn y 2 Ry ltac:(lia)) as P2.
  assert (X : forall h : nat -> R, rsum n h = h 0%nat + h 1%nat + h 2%nat) by (intros h; rewrite E3; cbn; ring). rewrite X, V0, V1, V2.
  set (A := Rabs (rdet n (B y))) in *.
  replace (rdet n (B y)) with (B y 0%nat 0%nat * (B y 1%nat 1%nat * B y 2%nat 2%nat - B y 1%nat 2%nat * B y 2%nat 1%nat)
     - B y 0%nat 1%nat * (B y 1%nat 0%nat * B y 2%nat 2%nat - B y 1%nat 2%nat * B y 2%nat 0%nat)
     + B y 0%nat 2%nat * (B y 1%nat 0%nat * B y 2%nat 1%nat - B y 1%nat 1%nat * B y 2%nat 0%nat)).
  2: { rewrite E3. cbn [rdet rsum Nat.add]. unfold rsign, skipi. cbn [Nat.even Nat.ltb Nat.leb Nat.add]. ring. }
  assert (Y : forall h : nat -> R, rsum m h = h 0%nat + h 1%nat + h 2%nat) by (intros h; rewrite M3; cbn; ring). unfold dot. rewrite !Y.
  destruct a as [|[|[|]]]; [| | |lia]; cbn [curl_of]; field; repeat split; lra.
Qed.
Lemma curl2_true e w y U F DF : n = 2%nat -> m = 2%nat -> wf e -> e_dim e = n -> expr_rank e = Some 1%nat -> curl co e = Some w ->
  regular y -> defined e y -> smooth n U y ->
  (forall a, (a < m)%nat -> frechet m (F a) (pos y) (DF a)) -> (forall a, (a < m)%nat -> pulls (F a) (fun z => vec e U z a) y) ->
  mean w 0 U y = rdet n (B y) / Rabs (rdet n (B y)) * (DF 1%nat 0%nat - DF 0%nat 1%nat).
Proof.
  intros E3 M3 W D Rk H Ry Dy HU HF HP.
  destruct (curl_2d_ok L n m rv normal Hn e w W E3 D Rk H) as (_ & _ & _ & M). destruct (M y Ry Dy) as [_ M1].
  rewrite (M1 U (fun p q => rsum m (fun a => dot m (DF a) (B y p) * B y q a + vec e U y a * B2 y p q a)) HU).
  2: { intros p q Hp Hq. apply (cv_partial e y U F DF p q W D Ry Dy HU HF HP Hp). }
  rewrite !(cv_diff e y U DF _ _ Ry).
  assert (EM : n = m) by congruence. pose proof (rdet_nz y EM Ry) as Z. rewrite (rsg_abs y EM).
  assert (PA : 0 < Rabs (rdet n (B y))) by (apply Rabs_pos_lt, Z).
  set (A := Rabs (rdet n (B y))) in *.
  replace (rdet n (B y)) with (B y 0%nat 0%nat * B y 1%nat 1%nat - B y 0%nat 1%nat * B y 1%nat 0%nat).
  2: { rewrite E3. cbn [rdet rsum Nat.add]. unfold rsign, skipi. cbn [Nat.even Nat.ltb Nat.leb Nat.add]. ring. }
  assert (Y : forall h : nat -> R, rsum m h = h 0%nat + h 1%nat) by (intros h; rewrite M3; cbn; ring). unfold dot. rewrite !Y. field. lra.
Qed.
End P.
