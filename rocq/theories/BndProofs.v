(** BndProofs.v -- backward and forward along one axis with boundary values. *)
From Coq Require Import Reals ZArith List Bool Arith Lia Lra.
From Verif Require Import Base Fld SparseModel SparseSpec RPoly StencilModel StencilModel2 StencilSpec StencilProofs StencilProofs8 BndModel BndSpec.
Import ListNotations.
Local Open Scope R_scope.

Lemma sum_ext n (f g : nat -> R) : (forall i, (i < n)%nat -> f i = g i) -> rsum n f = rsum n g. Proof. apply gsum_ext_R. Qed.
Lemma sum_0 n (f : nat -> R) : (forall i, (i < n)%nat -> f i = 0) -> rsum n f = 0. Proof. apply gsum_zero. Qed.
Lemma sum_add n (f g : nat -> R) : rsum n (fun i => f i + g i) = rsum n f + rsum n g. Proof. apply gsum_add. Qed.
Lemma sum_scal n c (f : nat -> R) : rsum n (fun i => c * f i) = c * rsum n f. Proof. apply gsum_scal. Qed.
Lemma sum_swap n m (f : nat -> nat -> R) : rsum n (fun i => rsum m (fun j => f i j)) = rsum m (fun j => rsum n (fun i => f i j)). Proof. apply gsum_swap. Qed.
Lemma sum_sub n (f g : nat -> R) : rsum n (fun i => f i - g i) = rsum n f - rsum n g.
Proof. induction n; cbn; [ring|]. rewrite IHn. ring. Qed.
Lemma sum_split a c (f : nat -> R) : rsum (a + c) f = rsum a f + rsum c (fun i => f (a + i)%nat).
Proof. induction c; [rewrite Nat.add_0_r; cbn; ring|]. rewrite Nat.add_succ_r. cbn. rewrite IHc. ring. Qed.
Lemma sum_more n m (f : nat -> R) : (n <= m)%nat -> (forall i, (n <= i < m)%nat -> f i = 0) -> rsum m f = rsum n f.
Proof. intros H Z. replace m with (n + (m - n))%nat by lia. rewrite sum_split, (sum_0 (m - n)); [ring|]. intros i Hi. apply Z. lia. Qed.
Lemma peval_pcomb n c P x : peval (pcomb n c P) x = rsum n (fun i => c i * peval (P i) x).
Proof. exact (deriv_at_pcomb 0 n c P x). Qed.

Section Line.
Variables (P : nat -> poly) (b : cbase).
Hypothesis W : wf_base b.
Let dim := cdim b.

Lemma to_ortho_beyond u j : (cN b <= j)%nat -> to_ortho (cS b) dim u j = 0.
Proof.
  intros Hj. destruct W as (_ & HC & _ & Hnb & _ & HF). unfold to_ortho. rewrite HC.
  assert (G : forall l out, Forall (fun kv => (- Z.of_nat dim <= fst kv)%Z) l -> fold_left (to_ortho_step (cN b) dim u) l out j = out j).
  { induction l as [|[key val] l IH]; intros out Hl; [reflexivity|]. inversion Hl; subst. cbn [fold_left]. rewrite IH by assumption.
    cbn [fst] in *. unfold to_ortho_step.
    assert (Hd : (dim <= cN b)%nat) by (unfold dim, cdim; lia).
    destruct (Z.leb_spec 0 key); destruct (Z.leb_spec (Z.max 0 key) (Z.of_nat j)); cbn [andb]; try reflexivity;
      match goal with |- context [(?a <? ?c)%Z] => destruct (Z.ltb_spec a c); [lia|reflexivity] end. }
  rewrite G by exact HF. reflexivity.
Qed.
Lemma to_ortho_entry u j : (j < cN b)%nat -> to_ortho (cS b) dim u j = rsum dim (fun k => u k * mat_entry RFld (cS b) k j).
Proof.
  intros Hj. destruct W as (Hs & HC & Hn & Hnb & _ & HF). apply to_ortho_entries; auto; rewrite HC; [unfold dim, cdim; lia|exact Hj].
Qed.
Lemma phi_eval k x : peval (phi P b k) x = rsum (cN b) (fun j => mat_entry RFld (cS b) k j * peval (P j) x).
Proof. unfold phi, basis_function. destruct W as (_ & -> & _). apply peval_pcomb. Qed.
Lemma bfun_eval i x : peval (bfun P b i) x = rsum (cO b) (fun j => cB b i j * peval (P j) x).
Proof. apply peval_pcomb. Qed.
Lemma expansion_eval u x : peval (expansion P b u) x =
  rsum dim (fun k => u k * peval (phi P b k) x) + rsum (cnb b) (fun i => u (dim + i)%nat * peval (bfun P b i) x).
Proof. unfold expansion. rewrite peval_padd, !peval_pcomb. reflexivity. Qed.

Lemma evaluate_ortho n v x : (cN b <= n)%nat ->
  evaluate P n (to_ortho (cS b) dim v) x = rsum dim (fun k => v k * peval (phi P b k) x).
Proof.
  intros Hn. unfold evaluate. rewrite (sum_more (cN b) n) by (try assumption; intros i Hi; rewrite to_ortho_beyond by lia; ring).
  rewrite (sum_ext _ _ (fun j => rsum dim (fun k => v k * (mat_entry RFld (cS b) k j * peval (P j) x)))).
  - rewrite sum_swap. apply sum_ext. intros k _. rewrite phi_eval, <- sum_scal. reflexivity.
  - intros j Hj. rewrite to_ortho_entry by exact Hj. rewrite Rmult_comm, <- sum_scal. apply sum_ext. intros; ring.
Qed.
Lemma evaluate_ortho_bc n v x : (cN b <= n)%nat ->
  evaluate P n (to_ortho_bc b true n v) x =
  rsum dim (fun k => v k * peval (phi P b k) x) + rsum (cnb b) (fun i => v (n - cnb b + i)%nat * peval (bfun P b i) x).
Proof.
  intros Hn. destruct W as (_ & _ & _ & Hnb & HO & _). rewrite <- (evaluate_ortho n v x Hn). unfold evaluate, to_ortho_bc, add_to_orthogonal.
  replace (cN b - cnb b + (n - cN b))%nat with (n - cnb b)%nat by lia. fold dim.
  rewrite (sum_ext n _ (fun j => to_ortho (cS b) dim v j * peval (P j) x + (if (j <? cO b)%nat then rsum (cnb b) (fun i => cB b i j * v (n - cnb b + i)%nat) * peval (P j) x else 0)))
    by (intros j _; destruct (j <? cO b)%nat; ring).
  rewrite sum_add. f_equal. rewrite (sum_more (cO b) n); [|lia|intros j Hj; destruct (Nat.ltb_spec j (cO b)); [lia|reflexivity]].
  rewrite (sum_ext (cO b) _ (fun j => rsum (cnb b) (fun i => v (n - cnb b + i)%nat * (cB b i j * peval (P j) x)))).
  - rewrite sum_swap. apply sum_ext. intros i _. rewrite bfun_eval, <- sum_scal. reflexivity.
  - intros j Hj. destruct (Nat.ltb_spec j (cO b)); [|lia]. rewrite Rmult_comm, <- sum_scal. apply sum_ext. intros; ring.
Qed.
Lemma padding_low n u k : (cN b < n)%nat -> (k < dim)%nat -> padding b n u k = u k.
Proof.
  intros Hn Hk. destruct W as (_ & _ & _ & Hnb & _). unfold padding, dim, cdim in *. destruct (Nat.leb_spec (n - cnb b) k); cbn [andb]; [lia|].
  destruct (Nat.ltb_spec k (cN b - cnb b)); [reflexivity|lia].
Qed.
Lemma padding_high n u i : (cN b < n)%nat -> (i < cnb b)%nat -> padding b n u (n - cnb b + i)%nat = u (dim + i)%nat.
Proof.
  intros Hn Hk. destruct W as (_ & _ & _ & Hnb & _). unfold padding. destruct (Nat.leb_spec (n - cnb b) (n - cnb b + i)); [|lia].
  destruct (Nat.ltb_spec (n - cnb b + i) n); [|lia]. cbn [andb]. unfold dim, cdim. f_equal. lia.
Qed.
Lemma padding_mid n u k : (cN b < n)%nat -> (dim <= k < n - cnb b)%nat -> padding b n u k = 0.
Proof.
  intros Hn Hk. destruct W as (_ & _ & _ & Hnb & _). unfold padding, dim, cdim in *. destruct (Nat.leb_spec (n - cnb b) k); cbn [andb]; [lia|].
  destruct (Nat.ltb_spec k (cN b - cnb b)); [lia|reflexivity].
Qed.
Lemma backward_ok n u x : (cN b <= n)%nat -> backward b P true false n u x = peval (expansion P b u) x.
Proof.
  intros Hn. unfold backward. rewrite evaluate_ortho_bc by exact Hn. rewrite expansion_eval. fold dim. destruct (Nat.eqb_spec n (cN b)) as [->|H].
  - reflexivity.
  - f_equal; apply sum_ext; intros k Hk; [rewrite padding_low by (lia || assumption)|rewrite padding_high by (lia || assumption)]; reflexivity.
Qed.
Lemma backward_hom n u x : (cN b <= n)%nat -> (forall i, (i < cnb b)%nat -> u (dim + i)%nat = 0) ->
  backward b P false false n u x = peval (expansion P b u) x.
Proof.
  intros Hn H0. unfold backward, to_ortho_bc. fold dim. rewrite evaluate_ortho by exact Hn. rewrite expansion_eval, (sum_0 (cnb b)), Rplus_0_r by (intros i Hi; rewrite H0 by exact Hi; ring).
  apply sum_ext. intros k Hk. destruct (Nat.eqb_spec n (cN b)); [reflexivity|]. rewrite padding_low by (lia || assumption). reflexivity.
Qed.
(** kind = 'vandermonde' *)
Lemma vandermonde_ok n Sn u x : (cN b <= n)%nat -> (cnb b <= n)%nat ->
  (forall k j, (k < dim)%nat -> (j < n)%nat -> mat_entry RFld Sn k j = if (j <? cN b)%nat then mat_entry RFld (cS b) k j else 0) ->
  backward_vandermonde b Sn P false n u x = peval (expansion P b u) x.
Proof.
  intros Hn Hn' HS. destruct W as (_ & _ & _ & Hnb & HO & _). unfold backward_vandermonde. rewrite expansion_eval. fold dim.
  set (v := if (n =? cN b)%nat then _ else _).
  assert (Vl : forall k, (k < dim)%nat -> v k = u k).
  { intros k Hk. subst v. destruct (Nat.eqb_spec n (cN b)); [reflexivity|]. apply padding_low; [lia|exact Hk]. }
  assert (Vh : forall i, (i < cnb b)%nat -> v (n - cnb b + i)%nat = u (dim + i)%nat).
  { intros i Hi. subst v. destruct (Nat.eqb_spec n (cN b)) as [->|]; [reflexivity|]. apply padding_high; [lia|exact Hi]. }
  assert (Vm : forall k, (dim <= k < n - cnb b)%nat -> v k = 0).
  { intros k Hk. subst v. destruct (Nat.eqb_spec n (cN b)) as [->|]; [unfold dim, cdim in Hk; lia|]. apply padding_mid; [lia|exact Hk]. }
  match goal with |- rsum n ?f = _ => replace (rsum n f) with (rsum (n - cnb b + cnb b) f) by (f_equal; lia) end. rewrite sum_split. f_equal.
  - rewrite (sum_more dim (n - cnb b)) by (unfold dim, cdim in *; try lia; intros i Hi; rewrite Vm by lia; ring).
    apply sum_ext. intros k Hk. rewrite Vl by exact Hk. f_equal. destruct (Nat.leb_spec (n - cnb b) k); [unfold dim, cdim in Hk; lia|].
    rewrite phi_eval. rewrite (sum_more (cN b) n).
    + apply sum_ext. intros j Hj. rewrite HS by (lia || assumption). destruct (Nat.ltb_spec j (cN b)); [ring|lia].
    + exact Hn.
    + intros j Hj. rewrite HS by (lia || assumption). destruct (Nat.ltb_spec j (cN b)); [lia|ring].
  - apply sum_ext. intros i Hi. rewrite Vh by exact Hi. f_equal. destruct (Nat.leb_spec (n - cnb b) (n - cnb b + i)); [|lia].
    replace (n - cnb b + i - (n - cnb b))%nat with i by lia. rewrite bfun_eval. apply sum_ext. intros; ring.
Qed.

(** forward *)
Variables (Q : quadr) (A : assembled) (g : nat -> R).
Hypothesis C : correct P b Q g A.
Lemma set_low bcs u k : (k < dim)%nat -> set_boundary_dofs (cN b) (cnb b) bcs u k = u k.
Proof. intros Hk. unfold set_boundary_dofs, dim, cdim in *. destruct (Nat.leb_spec (cN b - cnb b) k); [lia|reflexivity]. Qed.
Lemma set_high bcs u i : (i < cnb b)%nat -> set_boundary_dofs (cN b) (cnb b) bcs u (dim + i)%nat = bcs i.
Proof.
  intros Hi. destruct W as (_ & _ & _ & Hnb & _). unfold set_boundary_dofs, dim, cdim. destruct (Nat.leb_spec (cN b - cnb b) (cN b - cnb b + i)); [|lia].
  destruct (Nat.ltb_spec (cN b - cnb b + i) (cN b)); [|lia]. cbn [andb]. f_equal. lia.
Qed.
Lemma product_sum_r n (f : nat -> R) (v : nat -> nat -> R) u : product Q g u (fun q => rsum n (fun k => f k * v k q)) = rsum n (fun k => product Q g u (v k) * f k).
Proof.
  unfold product. rewrite (sum_ext _ _ (fun q => rsum n (fun k => qw Q q * g q * u q * v k q * f k))).
  - rewrite sum_swap. apply sum_ext. intros k _. rewrite (sum_ext (qn Q) _ (fun q => f k * (qw Q q * g q * u q * v k q))) by (intros; ring). rewrite sum_scal. ring.
  - intros q _. rewrite <- sum_scal. apply sum_ext. intros; ring.
Qed.
Lemma product_add_r u v w : product Q g u (fun q => v q + w q) = product Q g u v + product Q g u w.
Proof. unfold product. rewrite <- sum_add. apply sum_ext. intros; ring. Qed.
Lemma product_ext u v w : (forall q, (q < qn Q)%nat -> v q = w q) -> product Q g u v = product Q g u w.
Proof. intros H. apply sum_ext. intros q Hq. rewrite H by exact Hq. reflexivity. Qed.
Lemma product_expansion v i : product Q g (at_points Q (phi P b i)) (at_points Q (expansion P b v)) =
  rsum dim (fun k => product Q g (at_points Q (phi P b i)) (at_points Q (phi P b k)) * v k) +
  rsum (cnb b) (fun j => product Q g (at_points Q (phi P b i)) (at_points Q (bfun P b j)) * v (dim + j)%nat).
Proof.
  rewrite <- (product_sum_r dim v (fun k => at_points Q (phi P b k))), <- (product_sum_r (cnb b) (fun j => v (dim + j)%nat) (fun k => at_points Q (bfun P b k))), <- product_add_r.
  apply product_ext. intros q _. unfold at_points. rewrite expansion_eval. reflexivity.
Qed.
Lemma spm_ok m i : (i < dim)%nat -> scalar_product b P Q m i = rsum (qn Q) (fun q => qw Q q * at_points Q (phi P b i) q * m q).
Proof.
  intros Hi. unfold scalar_product. fold dim. destruct (Nat.ltb_spec i dim); [|lia]. apply sum_ext. intros q _. unfold at_points.
  rewrite phi_eval. rewrite (sum_ext (cN b) (fun j => peval (P j) (qx Q q) * _) (fun j => mat_entry RFld (cS b) i j * peval (P j) (qx Q q))) by (intros; ring). ring.
Qed.
Lemma measured_bcs nh bcs m : has_bcs b bcs (forward_measured b P Q A nh bcs m).
Proof.
  intros j Hj. unfold forward_measured. fold dim. destruct (Nat.ltb_spec (dim + j) dim); [lia|]. unfold add_mass_rhs. fold dim.
  destruct nh; [destruct (Nat.ltb_spec (dim + j) dim); [lia|]|]; rewrite set_high by exact Hj; ring.
Qed.
Lemma measured_residual nh bcs m i : (nh = false -> forall j, (j < cnb b)%nat -> bcs j = 0) -> (i < dim)%nat ->
  product Q g (at_points Q (phi P b i)) (at_points Q (expansion P b (forward_measured b P Q A nh bcs m))) = rsum (qn Q) (fun q => qw Q q * at_points Q (phi P b i) q * m q).
Proof.
  intros Hh Hi. rewrite product_expansion. destruct C as (C1 & C2 & C3). fold dim in C1, C2, C3.
  set (r := add_mass_rhs b A nh bcs (scalar_product b P Q m)).
  rewrite (sum_ext dim _ (fun k => product Q g (at_points Q (phi P b i)) (at_points Q (phi P b k)) * a_solve A r k)).
  - rewrite C1 by exact Hi. rewrite (sum_ext (cnb b) _ (fun j => a_bcmass A i j * bcs j)) by (intros j Hj; pose proof (measured_bcs nh bcs m j Hj) as E; fold dim in E; rewrite E, C3 by assumption; reflexivity).
    subst r. unfold add_mass_rhs. fold dim. destruct nh.
    + destruct (Nat.ltb_spec i dim); [|lia]. rewrite set_low, spm_ok by exact Hi.
      rewrite (sum_ext (cnb b) (fun j => a_bcmass A i j * set_boundary_dofs _ _ _ _ _) (fun j => a_bcmass A i j * bcs j)) by (intros j Hj; rewrite set_high by exact Hj; reflexivity). ring.
    + rewrite set_low, spm_ok by exact Hi. rewrite (sum_0 (cnb b)); [ring|]. intros j Hj. rewrite Hh by auto. ring.
  - intros k Hk. unfold forward_measured. fold dim. destruct (Nat.ltb_spec k dim); [|lia]. reflexivity.
Qed.
Lemma forward_bcs nh bcs u : has_bcs b bcs (forward b P Q A nh bcs g u).
Proof. apply measured_bcs. Qed.
Lemma forward_residual nh bcs u i : (nh = false -> forall j, (j < cnb b)%nat -> bcs j = 0) -> (i < dim)%nat ->
  product Q g (at_points Q (phi P b i)) (at_points Q (expansion P b (forward b P Q A nh bcs g u))) = product Q g (at_points Q (phi P b i)) u.
Proof.
  intros Hh Hi. unfold forward. rewrite (measured_residual nh bcs _ i Hh Hi). apply sum_ext. intros q _. ring.
Qed.
Lemma residual_unique v w : (forall j, (j < cnb b)%nat -> v (dim + j)%nat = w (dim + j)%nat) ->
  (forall i, (i < dim)%nat -> product Q g (at_points Q (phi P b i)) (at_points Q (expansion P b v)) = product Q g (at_points Q (phi P b i)) (at_points Q (expansion P b w))) ->
  forall k, (k < cN b)%nat -> v k = w k.
Proof.
  intros Hb Hr k Hk. destruct C as (_ & C2 & _). fold dim in C2. destruct W as (_ & _ & _ & Hnb & _).
  destruct (le_lt_dec dim k) as [Hd|Hd].
  - replace k with (dim + (k - dim))%nat by lia. apply Hb. unfold dim, cdim in *. lia.
  - assert (v k - w k = 0); [|lra]. apply (C2 (fun k => v k - w k)); [|exact Hd]. intros i Hi. specialize (Hr i Hi). rewrite !product_expansion in Hr.
    rewrite (sum_ext (cnb b) (fun j => _ * v (dim + j)%nat) (fun j => product Q g (at_points Q (phi P b i)) (at_points Q (bfun P b j)) * w (dim + j)%nat)) in Hr by (intros j Hj; rewrite Hb by exact Hj; reflexivity).
    rewrite (sum_ext dim _ (fun k => product Q g (at_points Q (phi P b i)) (at_points Q (phi P b k)) * v k - product Q g (at_points Q (phi P b i)) (at_points Q (phi P b k)) * w k)) by (intros; ring).
    rewrite sum_sub. lra.
Qed.
Lemma forward_expansion nh bcs v k : (nh = false -> forall j, (j < cnb b)%nat -> bcs j = 0) -> has_bcs b bcs v -> (k < cN b)%nat ->
  forward b P Q A nh bcs g (at_points Q (expansion P b v)) k = v k.
Proof.
  intros Hh Hv Hk. revert k Hk. apply residual_unique.
  - intros j Hj. etransitivity; [exact (forward_bcs nh bcs _ j Hj)|]. symmetry. apply Hv, Hj.
  - intros i Hi. apply forward_residual; assumption.
Qed.
End Line.

(** traces *)
Lemma lin_pcomb F n c P : linear_fun F -> F (pcomb n c P) = rsum n (fun i => c i * F (P i)).
Proof.
  intros (Ha & Hs & H0). induction n; cbn [pcomb]; [exact H0|]. rewrite Ha, Hs, IHn. reflexivity.
Qed.
Lemma trace_ok P b F bcs u j : linear_fun F -> (j < cnb b)%nat ->
  (forall k, (k < cdim b)%nat -> F (phi P b k) = 0) -> (forall i, (i < cnb b)%nat -> F (bfun P b i) = if Nat.eqb i j then 1 else 0) ->
  has_bcs b bcs u -> F (expansion P b u) = bcs j.
Proof.
  intros HF Hj H0 H1 Hu. unfold expansion. rewrite (proj1 HF), !lin_pcomb by exact HF.
  rewrite (sum_0 (cdim b)) by (intros k Hk; rewrite H0 by exact Hk; ring).
  rewrite (sum_ext (cnb b) _ (fun i => if Nat.eqb i j then bcs j else 0)).
  - rewrite Rplus_0_l. apply gsum_one, Hj.
  - intros i Hi. rewrite Hu, H1 by exact Hi. destruct (Nat.eqb_spec i j) as [->|]; ring.
Qed.
