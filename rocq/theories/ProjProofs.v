(** ProjProofs.v -- linearity of the weighted integral, the branches of project. *)
From Coq Require Import Reals ZArith List Bool Arith String Lia Lra.
From Verif Require Import Base Fld SparseModel SparseSpec RPoly StencilModel StencilModel2 StencilSpec StencilProofs MatrixSpec MatrixProofs
  BndModel BndSpec BndProofs ProjModel ProjSpec.
Import ListNotations.
Local Open Scope R_scope.

Lemma integral_ext f g a b v : a <= b -> (forall x, f x = g x) -> integral f a b v -> integral g a b v.
Proof.
  intros Hab E (pr & <-).
  assert (Riemann_integrable g a b) as pg.
  { intros eps. destruct (pr eps) as (p & q & H1 & H2). exists p, q. split; [|exact H2].
    intros t Ht. rewrite <- E. apply H1, Ht. }
  exists pg. apply RiemannInt_P18; [exact Hab|]. intros x _. symmetry. apply E.
Qed.
Lemma integral_zero a b : a <= b -> integral (fun _ => 0) a b 0.
Proof.
  intros Hab. exists (RiemannInt_P14 a b 0). change (fun _ : R => 0) with (fct_cte 0). rewrite RiemannInt_P15. ring.
Qed.
Lemma integral_lin f g a b u v l : integral f a b u -> integral g a b v -> integral (fun x => f x + l * g x) a b (u + l * v).
Proof.
  intros (p & <-) (q & <-). exists (RiemannInt_P10 l p q). apply RiemannInt_P13.
Qed.

Lemma weighted_ext fam f g v : (forall X, f X = g X) -> weighted fam f v -> weighted fam g v.
Proof.
  intros E. assert (0 <= PI) by (pose proof PI_RGT_0; lra).
  destruct fam; cbn [weighted]; apply integral_ext; try lra; intros t; rewrite ?E; reflexivity.
Qed.
Lemma weighted_zero fam : weighted fam (fun _ => 0) 0.
Proof.
  assert (0 <= PI) by (pose proof PI_RGT_0; lra).
  destruct fam; cbn [weighted]; try (apply integral_zero; lra).
  apply (integral_ext (fun _ => 0)); [lra|intros t; ring|apply integral_zero; lra].
Qed.
Lemma weighted_lin fam f g u v l : weighted fam f u -> weighted fam g v -> weighted fam (fun X => f X + l * g X) (u + l * v).
Proof.
  assert (0 <= PI) by (pose proof PI_RGT_0; lra).
  destruct fam; cbn [weighted]; intros H1 H2; try exact (integral_lin _ _ _ _ _ _ l H1 H2).
  apply (integral_ext (fun t => f (cos t) * sin t ^ 2 + l * (g (cos t) * sin t ^ 2))); [lra|intros t; ring|].
  exact (integral_lin _ _ _ _ _ _ l H1 H2).
Qed.
Lemma weighted_sum fam n (c v : nat -> R) (f : nat -> R -> R) : (forall k, (k < n)%nat -> weighted fam (f k) (v k)) ->
  weighted fam (fun X => rsum n (fun k => c k * f k X)) (rsum n (fun k => c k * v k)).
Proof.
  induction n as [|n IH]; intros H; [apply weighted_zero|].
  apply (weighted_ext fam (fun X => rsum n (fun k => c k * f k X) + c n * f n X)); [reflexivity|].
  apply weighted_lin; [apply IH; intros k Hk; apply H; lia|apply H; lia].
Qed.

Lemma weighted_val fam f v w : v = w -> weighted fam f v -> weighted fam f w.
Proof. intros ->. auto. Qed.

(** ** functions *)
Lemma to_ref_true d X : fst d < snd d -> to_ref d (to_true d X) = X.
Proof. intros H. unfold to_ref, to_true. field. lra. Qed.
Lemma same_projection W T u c : (forall x, function T c x = function W u x) -> is_projection W T u c.
Proof.
  intros E i Hi. unfold inner_w. apply (weighted_ext _ (fun _ => 0)); [|apply weighted_zero].
  intros X. rewrite E. ring.
Qed.
Lemma function_sum s u x : function s u x =
  rsum (sdim s) (fun k => u k * basis s k x) +
  rsum (cnb (s_base s)) (fun i => u (sdim s + i)%nat * peval (bfun (polys (s_family s)) (s_base s) i) (to_ref (s_domain s) x)).
Proof. unfold function, basis, sdim. apply expansion_eval. Qed.
Lemma function_hom s u x : (forall i, (i < cnb (s_base s))%nat -> u (sdim s + i)%nat = 0) -> function s u x = rsum (sdim s) (fun k => u k * basis s k x).
Proof. intros H. rewrite function_sum, (sum_0 (cnb (s_base s))); [ring|]. intros i Hi. rewrite H by exact Hi. ring. Qed.

(** ** the branches *)
Section Branches.
Variables W T : space.
Hypothesis GW : good_space W.
Hypothesis GT : good_space T.

Lemma assign_same u : same_kind W T -> (sN W <= sN T)%nat ->
  exists v, assign W (sN T) u = Some v /\ forall x, function T v x = function W u x.
Proof.
  intros (E1 & E2 & E3 & E4 & E5) HN. destruct GW as (HD & WB). pose proof WB as (_ & _ & _ & WN & _). destruct GT as (_ & (_ & _ & _ & TN & _)).
  unfold assign. destruct (Nat.ltb_spec (sN W) (sN T)) as [L|L].
  - eexists; split; [reflexivity|]. intros x. rewrite !function_sum. unfold basis, sdim, cdim, sN in *. rewrite <- E2.
    f_equal.
    + rewrite (sum_more (cN (s_base W) - cnb (s_base W)) (cN (s_base T) - cnb (s_base T))).
      * apply sum_ext. intros k Hk. rewrite (padding_low (s_base W) WB) by (unfold cdim; lia). rewrite <- E4 by lia. reflexivity.
      * lia.
      * intros k Hk. rewrite (padding_mid (s_base W) WB (cN (s_base T)) u k); [ring|lia|]. unfold cdim. lia.
    + rewrite <- E3. apply sum_ext. intros i Hi.
      pose proof (padding_high (s_base W) WB (cN (s_base T)) u i L Hi) as PH. rewrite PH. unfold cdim. rewrite <- E5 by lia. reflexivity.
  - assert (sN W = sN T) as EN by lia. rewrite (proj2 (Nat.eqb_eq _ _) EN). eexists; split; [reflexivity|]. intros x.
    rewrite !function_sum. unfold basis, sdim, cdim, sN in *. rewrite <- E2, <- E3, <- EN.
    f_equal; apply sum_ext.
    + intros k Hk. rewrite <- E4 by lia. reflexivity.
    + intros i Hi. rewrite <- E5 by lia. reflexivity.
Qed.

(** the basis functions of an orthogonal space *)
Definition identity_base (b : cbase) : Prop := cnb b = 0%nat /\ cS b = mkSmat RFld (cN b) (cN b) 1 [(0%Z, Scal RFld 1)].
Lemma orth_phi (b : cbase) P k X : wf_base b -> identity_base b -> (k < cN b)%nat -> peval (phi P b k) X = peval (P k) X.
Proof.
  intros WB (_ & ES) Hk. rewrite (phi_eval P b WB).
  rewrite (sum_ext _ _ (fun j => if Nat.eqb j k then peval (P j) X else 0)).
  - clear WB ES. induction (cN b) as [|n IH]; [lia|]. cbn [gsum]. destruct (Nat.eqb_spec n k) as [->|Ne].
    + rewrite sum_0; [ring|]. intros i Hi. destruct (Nat.eqb_spec i k); [lia|reflexivity].
    + rewrite IH by lia. ring.
  - intros j _. unfold mat_entry. rewrite ES. cbn [sm_items sm_scale lookup].
    destruct (Z.eq_dec 0 (Z.of_nat j - Z.of_nat k)) as [e|e]; destruct (Z.eq_dec (Z.of_nat j - Z.of_nat k) 0) as [e2|e2];
    destruct (Nat.eqb_spec j k) as [e'|e']; try lia; subst; cbn; ring.
Qed.
Lemma try_ok N dim n u items out : (N <= n)%nat -> (dim <= n)%nat -> to_ortho_try N dim n u items out = (true, fold_left (to_ortho_step N dim u) items out).
Proof.
  intros HN Hd. revert out. induction items as [|kv r IH]; intros out; [reflexivity|]. cbn [to_ortho_try fold_left].
  assert (step_fits N dim n kv = true) as ->; [|apply IH].
  unfold step_fits. apply orb_true_intro. left. apply Z.leb_le. destruct (Z.leb_spec 0 (fst kv)); lia.
Qed.
Lemma ortho_value u n : (sN W <= n)%nat -> s_orth W = false -> fun_to_ortho W n u = (true, to_ortho_bc (s_base W) (s_nh W) (sN W) u).
Proof.
  intros Hn HO. unfold fun_to_ortho. rewrite HO, try_ok by (unfold sdim, cdim, sN in *; lia).
  destruct GW as (_ & (_ & HC & _)). unfold to_ortho_bc, to_ortho. rewrite HC. reflexivity.
Qed.
Lemma ortho_same u : s_orth W = false -> member W u -> s_family W = s_family T -> s_domain W = s_domain T -> (sN W <= sN T)%nat -> identity_base (s_base T) ->
  exists v, fun_to_ortho W (sN T) u = (true, v) /\ forall x, function T v x = function W u x.
Proof.
  intros HO HM EF ED EN HI. rewrite ortho_value by auto. eexists; split; [reflexivity|]. intros x.
  destruct GW as (_ & WB). destruct GT as (_ & TB). pose proof HI as (Hn & _).
  rewrite (function_sum T), Hn. cbn [gsum]. unfold sdim, cdim. rewrite Hn, Nat.sub_0_r, Rplus_0_r.
  rewrite (sum_ext _ _ (fun k => to_ortho_bc (s_base W) (s_nh W) (sN W) u k * peval (polys (s_family W) k) (to_ref (s_domain W) x))).
  2:{ intros k Hk. unfold basis. rewrite orth_phi by auto. rewrite EF, ED. reflexivity. }
  rewrite (sum_more (sN W)).
  2:exact EN.
  2:{ intros k Hk. unfold to_ortho_bc. pose proof WB as (_ & _ & _ & _ & HO' & _). unfold sN in *.
      destruct (s_nh W).
      - unfold add_to_orthogonal. destruct (Nat.ltb_spec k (cO (s_base W))); [lia|]. rewrite (to_ortho_beyond _ WB) by lia. ring.
      - rewrite (to_ortho_beyond _ WB) by lia. ring. }
  change (evaluate (polys (s_family W)) (sN W) (to_ortho_bc (s_base W) (s_nh W) (sN W) u) (to_ref (s_domain W) x) = function W u x).
  unfold sN in *. unfold function. rewrite expansion_eval.
  destruct (s_nh W) eqn:Eh.
  - rewrite evaluate_ortho_bc by (auto; lia). reflexivity.
  - unfold to_ortho_bc. rewrite evaluate_ortho by (auto; lia). rewrite (sum_0 (cnb (s_base W))); [ring|].
    intros i Hi. specialize (HM Eh i Hi). unfold sdim in HM. rewrite HM. ring.
Qed.
Lemma galerkin_residual G out u i : right_system G W T -> member W u -> s_nh W = false -> (i < sdim T)%nat ->
  inner_w T (fun x => function T (galerkin G W T out u) x - function W u x) (basis T i) (out i).
Proof.
  intros (HR & A & HA & HS) HM Hh Hi. specialize (HM Hh). unfold inner_w.
  set (c := g_solve G (fun i => out i + rsum (sdim W) (fun j => g_rhs G i j * u j))).
  apply (weighted_ext _ (fun X => rsum (sdim T) (fun k => c k * (basis T k (to_true (s_domain T) X) * basis T i (to_true (s_domain T) X))) +
     (-1) * rsum (sdim W) (fun j => u j * (basis W j (to_true (s_domain T) X) * basis T i (to_true (s_domain T) X))))).
  { intros X. rewrite (function_hom W) by exact HM. rewrite (function_hom T).
    2:{ intros k Hk. unfold galerkin. destruct (Nat.ltb_spec (sdim T + k) (sdim T)); [lia|reflexivity]. }
    rewrite (sum_ext (sdim T) (fun k => galerkin G W T out u k * _) (fun k => c k * basis T k (to_true (s_domain T) X))).
    2:{ intros k Hk. unfold galerkin. rewrite (proj2 (Nat.ltb_lt _ _) Hk). reflexivity. }
    set (y := to_true (s_domain T) X). set (b := basis T i y).
    assert (forall n (f g : nat -> R), rsum n (fun k => f k * (g k * b)) = rsum n (fun k => f k * g k) * b) as ES.
    { intros n f g. rewrite Rmult_comm, <- sum_scal. apply sum_ext. intros; ring. }
    rewrite (ES (sdim T) c (fun k => basis T k y)), (ES (sdim W) u (fun k => basis W k y)). ring. }
  apply (weighted_val _ _ (rsum (sdim T) (fun k => c k * A i k) + (-1) * rsum (sdim W) (fun j => u j * g_rhs G i j))).
  - transitivity (rsum (sdim T) (fun k => A i k * c k) + (-1) * rsum (sdim W) (fun j => g_rhs G i j * u j)).
    + f_equal; [apply sum_ext; intros; ring|]. f_equal. apply sum_ext; intros; ring.
    + unfold c. rewrite HS by exact Hi. ring.
  - apply weighted_lin.
    + apply (weighted_sum _ (sdim T) c (A i) (fun k X => basis T k (to_true (s_domain T) X) * basis T i (to_true (s_domain T) X))).
      intros k Hk. apply HA; auto.
    + apply (weighted_sum _ (sdim W) u (g_rhs G i) (fun j X => basis W j (to_true (s_domain T) X) * basis T i (to_true (s_domain T) X))).
      intros k Hk. apply HR; auto.
Qed.
Lemma galerkin_right G u : right_system G W T -> member W u -> s_nh W = false -> is_projection W T u (galerkin G W T (fun _ => 0) u).
Proof. intros HR HM Hh i Hi. apply (galerkin_residual G (fun _ => 0) u i HR HM Hh Hi). Qed.
End Branches.
