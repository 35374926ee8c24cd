(** CoordProperties.v -- C51: curvilinear coordinates.  [regular L n m rv y] says that the position vector is smooth at y
    and its n tangent vectors are linearly independent. *)
From Coq Require Import Reals ZArith List Bool Arith Lia Lra.
From Verif Require Import FormsModel FormsSpec FormsProofs FormsProofs2 FormsProofs3 CoordModel CoordSpec CoordProofs CoordProofs2 CoordProofs3 CoordProofs6 CoordProofs7 CoordProofs8 CoordProofs9.
Import ListNotations.
Local Open Scope R_scope.

Definition kron (i j : nat) : R := if Nat.eqb i j then 1 else 0.

(** * The geometry *)
(** the covariant basis consists of the derivatives of the position, and the covariant metric of their scalar products *)
Theorem C51_covariant : forall (S : SymS) (L : SymSLaws S) n m (rv : nat -> S) y, (1 <= n <= 3)%nat -> regular L n m rv y ->
  (forall i a, (a < m)%nat -> partial i (fun z => pos L rv z a) y (ev L (cov_basis rv i a) y)) /\
  (forall i j, ev L (cov_metric m rv i j) y = dot m (fun a => ev L (cov_basis rv i a) y) (fun a => ev L (cov_basis rv j a) y)).
Proof.
  intros S L n m rv y Hn Ry. pose proof (regular_rv L n m rv y Ry) as HR. split.
  - intros i a Ha. rewrite (proj2 (basis_ok L m rv y i a HR Ha)). exact (pos_partial L m rv y i a HR Ha).
  - intros i j. rewrite (proj2 (metric_ok L n m rv Hn y i j HR)). apply dot_ext; intros a Ha; symmetry; apply (basis_ok L m rv y _ a HR Ha).
Qed.
(** the contravariant metric is the inverse of the covariant metric, the contravariant basis the dual of the covariant basis *)
Theorem C51_contravariant : forall (S : SymS) (L : SymSLaws S) n m (rv : nat -> S) y, (1 <= n <= 3)%nat -> regular L n m rv y ->
  forall i k, (i < n)%nat -> (k < n)%nat ->
  rsum n (fun j => ev L (contra_metric n m rv i j) y * ev L (cov_metric m rv j k) y) = kron i k /\
  dot m (fun a => ev L (contra_basis n m rv i a) y) (fun a => ev L (cov_basis rv k a) y) = kron i k /\
  forall a, (a < m)%nat -> ev L (contra_basis n m rv i a) y = rsum n (fun j => ev L (contra_metric n m rv i j) y * ev L (cov_basis rv j a) y).
Proof.
  intros S L n m rv y Hn Ry i k Hi Hk. pose proof (regular_rv L n m rv y Ry) as HR. split; [|split].
  - etransitivity; [|exact (gt_g L n m rv Hn y Ry i k Hi Hk)]. apply rsum_ext. intros j Hj.
    rewrite (proj2 (gt_ok L n m rv Hn y i j Ry Hi Hj)), (proj2 (metric_ok L n m rv Hn y j k HR)). reflexivity.
  - etransitivity; [|exact (bt_B L n m rv Hn y Ry i k Hi Hk)]. apply dot_ext; intros a Ha.
    + apply (bt_ok L n m rv Hn y i a Ry Hi Ha).
    + apply (basis_ok L m rv y _ a HR Ha).
  - intros a Ha. rewrite (proj2 (bt_ok L n m rv Hn y i a Ry Hi Ha)). apply rsum_ext. intros j Hj.
    rewrite (proj2 (gt_ok L n m rv Hn y i j Ry Hi Hj)), (proj2 (basis_ok L m rv y j a HR Ha)). reflexivity.
Qed.
(** the scaling factors are the lengths of the tangent vectors, and the normal basis has length one *)
Theorem C51_scaling : forall (S : SymS) (L : SymSLaws S) n m (rv : nat -> S) y, (1 <= n <= 3)%nat -> regular L n m rv y ->
  forall i, (i < n)%nat -> let b := fun a => ev L (cov_basis rv i a) y in let c := fun a => ev L (normal_basis m rv i a) y in
  0 < ev L (scaling m rv i) y /\ ev L (scaling m rv i) y * ev L (scaling m rv i) y = dot m b b /\
  (forall a, (a < m)%nat -> b a = ev L (scaling m rv i) y * c a) /\ dot m c c = 1.
Proof.
  intros S L n m rv y Hn Ry i Hi b c. pose proof (regular_rv L n m rv y Ry) as HR.
  destruct (hi_ok L n m rv Hn y i Ry Hi) as (_ & E & P). rewrite E.
  assert (Eb : forall a, (a < m)%nat -> b a = tangent L rv y i a) by (intros a Ha; apply (basis_ok L m rv y i a HR Ha)).
  assert (Ec : forall a, (a < m)%nat -> c a = tangent L rv y i a / rhi L m rv y i) by (intros a Ha; apply (normal_ok L n m rv Hn y i a Ry Hi Ha)).
  assert (Hd : rhi L m rv y i * rhi L m rv y i = dot m b b).
  { rewrite (dot_ext m b b (tangent L rv y i) (tangent L rv y i) Eb Eb). exact (rhi_sq L m rv y i). }
  split; [exact P|]. split; [exact Hd|]. split.
  - intros a Ha. rewrite Eb, Ec by exact Ha. field. lra.
  - rewrite (dot_ext m c c (fun a => / rhi L m rv y i * b a) (fun a => / rhi L m rv y i * b a)); try (intros a Ha; rewrite Ec, Eb by exact Ha; field; lra).
    rewrite dot_scal_l, dot_sym, dot_scal_l, <- Hd. field. lra.
Qed.
(** sqrt(det g): the volume element; with as many coordinates as dimensions it is the absolute value of the Jacobi determinant *)
Theorem C51_volume : forall (S : SymS) (L : SymSLaws S) n m (rv : nat -> S) y, (1 <= n <= 3)%nat -> regular L n m rv y ->
  0 < ev L (sqrt_det_g n m rv) y /\
  ev L (sqrt_det_g n m rv) y * ev L (sqrt_det_g n m rv) y = rdet n (fun i j => ev L (cov_metric m rv i j) y) /\
  (n = m -> ev L (sqrt_det_g n m rv) y = Rabs (rdet n (fun i a => ev L (cov_basis rv i a) y))).
Proof.
  intros S L n m rv y Hn Ry. pose proof (regular_rv L n m rv y Ry) as HR. destruct (sg_ok L n m rv Hn y Ry) as (_ & E & P). rewrite E.
  split; [exact P|]. split.
  - rewrite (rdet_ext n _ (gram L m rv y)) by (intros; apply (metric_ok L n m rv Hn y _ _ HR)).
    unfold rsg. apply sqrt_sqrt. pose proof (gdet_pos L n m rv y Ry). lra.
  - intros EM. rewrite (rsg_abs L n m rv Hn y EM). f_equal. apply rdet_ext. intros i a Hi Ha. symmetry.
    apply (basis_ok L m rv y i a HR). lia.
Qed.
(** the Christoffel symbols are the components of the derivatives of the basis vectors *)
Theorem C51_christoffel : forall (S : SymS) (L : SymSLaws S) n m (rv : nat -> S) y, (1 <= n <= 3)%nat -> regular L n m rv y ->
  forall i j, (i < n)%nat -> (j < n)%nat -> exists d : nat -> R,
    (forall a, (a < m)%nat -> partial j (fun z => ev L (cov_basis rv i a) z) y (d a)) /\
    (forall k, (k < n)%nat -> ev L (christoffel n m rv k i j) y = dot m d (fun a => ev L (contra_basis n m rv k a) y)) /\
    (n = m -> forall a, (a < m)%nat -> d a = rsum n (fun k => ev L (christoffel n m rv k i j) y * ev L (cov_basis rv k a) y)).
Proof.
  intros S L n m rv y Hn Ry i j Hi Hj. pose proof (regular_rv L n m rv y Ry) as HR. exists (B2 L rv y j i). split; [|split].
  - intros a Ha. rewrite <- (proj2 (diff_basis_ok L n m rv Hn y j i a HR Ha)). apply (ev_diff _ L), (basis_ok L m rv y i a HR Ha).
  - intros k Hk. rewrite (proj2 (ct_ok L n m rv Hn y k i j Ry Hk)). apply rsum_ext. intros a Ha.
    rewrite (proj2 (bt_ok L n m rv Hn y k a Ry Hk Ha)). reflexivity.
  - intros E a Ha. rewrite (B2_expand L n m rv Hn y Ry j i a E Hj Hi Ha). apply rsum_ext. intros k Hk.
    rewrite (proj2 (ct_ok L n m rv Hn y k i j Ry Hk)), (proj2 (basis_ok L m rv y k a HR Ha)). reflexivity.
Qed.
(** coordinates classified as orthogonal or Cartesian are *)
Theorem C51_classification : forall (S : SymS) (L : SymSLaws S) n m (rv : nat -> S) y, (1 <= n <= 3)%nat -> regular L n m rv y ->
  (is_orthogonal n m rv = true -> forall i j, (i < n)%nat -> (j < n)%nat -> i <> j -> dot m (tangent L rv y i) (tangent L rv y j) = 0) /\
  (is_cartesian n m rv = true -> n = m /\ forall i j, (i < n)%nat -> (j < n)%nat -> dot m (tangent L rv y i) (tangent L rv y j) = kron i j).
Proof.
  intros S L n m rv y Hn Ry. split.
  - intros H i j Hi Hj Hij. exact (offdiag_gram L n m rv Hn y i j H Ry Hi Hj Hij).
  - intros H. split; [apply (cart_off n m rv Hn H)|]. intros i j Hi Hj. exact (cart_gram L n m rv Hn H y i j Ry Hi Hj).
Qed.
Print Assumptions C51_covariant. Print Assumptions C51_contravariant. Print Assumptions C51_scaling. Print Assumptions C51_volume.
Print Assumptions C51_christoffel. Print Assumptions C51_classification.

(** * The operators *)
(** e is an expression in n variables, U the basis function with its derivatives, and F the function (or the components of
    the field) it denotes in terms of the position: F(X(z)) is the value of e at z. *)
Theorem C51_grad : forall (S : SymS) (L : SymSLaws S) n (rv : nat -> S) normal (e g : expr S), (1 <= n <= 3)%nat ->
  wf e -> e_dim e = n -> num_components e = 1%nat -> grad (coords_of n n rv normal) e = Some g ->
  num_components g = n /\ forall y U F G, regular L n n rv y -> defined L e y -> smooth n U y ->
    frechet n F (pos L rv y) G -> pulls L n rv F (mean L e 0 U) y ->
    defined L g y /\ forall a, (a < n)%nat -> vec L n n rv normal g U y a = G a.
Proof.
  intros S L n rv normal e g Hn W D N H. destruct (grad_scalar_ok L n n rv normal Hn e g W D N H) as (_ & Ng & _ & M).
  split; [exact Ng|]. intros y U F G Ry Dy HU HF HP. split; [apply (M y Ry Dy)|].
  apply (tests_eq L n n rv Hn y Ry _ G eq_refl). intros k Hk. exact (grad_true L n n rv normal Hn e g y U F G W D N H Ry Dy HU HF HP k Hk).
Qed.
(** on a curve or a surface in R^m: the part of the gradient along it *)
Theorem C51_grad_surface : forall (S : SymS) (L : SymSLaws S) n m (rv : nat -> S) normal (e g : expr S), (1 <= n <= 3)%nat ->
  wf e -> e_dim e = n -> num_components e = 1%nat -> grad (coords_of n m rv normal) e = Some g ->
  forall y U F G P, regular L n m rv y -> defined L e y -> smooth n U y ->
    frechet m F (pos L rv y) G -> pulls L n rv F (mean L e 0 U) y -> projection L n m rv P y ->
    forall a, (a < m)%nat -> vec L n m rv normal g U y a = rsum m (fun c => P a c * G c).
Proof. intros S L n m rv normal e g Hn W D N H y U F G P Ry Dy HU HF HP HPr. exact (grad_surf L n m rv normal Hn e g y U F G P W D N H Ry Dy HU HF HP HPr). Qed.
(** such a projection exists at every regular point *)
Theorem C51_projection : forall (S : SymS) (L : SymSLaws S) n m (rv : nat -> S) y, (1 <= n <= 3)%nat -> regular L n m rv y ->
  exists P, projection L n m rv P y.
Proof. intros S L n m rv y Hn Ry. exact (proj_exists L n m rv Hn y Ry). Qed.
Theorem C51_div : forall (S : SymS) (L : SymSLaws S) n (rv : nat -> S) normal (e d : expr S), (1 <= n <= 3)%nat ->
  wf e -> e_dim e = n -> num_components e = n -> div (coords_of n n rv normal) e = Some d ->
  forall y U F DF, regular L n n rv y -> defined L e y -> smooth n U y ->
    (forall a, (a < n)%nat -> frechet n (F a) (pos L rv y) (DF a)) ->
    (forall a, (a < n)%nat -> pulls L n rv (F a) (fun z => vec L n n rv normal e U z a) y) ->
    mean L d 0 U y = rsum n (fun a => DF a a).
Proof. intros S L n rv normal e d Hn W D N H y U F DF Ry Dy HU HF HP. exact (div_true L n n rv normal Hn e d y U F DF eq_refl W D N H Ry Dy HU HF HP). Qed.
(** on a curve or a surface: the trace of P.DF *)
Theorem C51_div_surface : forall (S : SymS) (L : SymSLaws S) n m (rv : nat -> S) normal (e d : expr S), (1 <= n <= 3)%nat ->
  wf e -> e_dim e = n -> num_components e = n -> div (coords_of n m rv normal) e = Some d ->
  forall y U F DF P, regular L n m rv y -> defined L e y -> smooth n U y ->
    (forall a, (a < m)%nat -> frechet m (F a) (pos L rv y) (DF a)) ->
    (forall a, (a < m)%nat -> pulls L n rv (F a) (fun z => vec L n m rv normal e U z a) y) -> projection L n m rv P y ->
    mean L d 0 U y = rsum m (fun c => rsum m (fun a => P c a * DF a c)).
Proof.
  intros S L n m rv normal e d Hn W D N H y U F DF P Ry Dy HU HF HP HPr.
  exact (div_surf_true L n m rv normal Hn e d y U F DF P W D N H Ry Dy HU HF HP HPr).
Qed.
Theorem C51_grad_vector : forall (S : SymS) (L : SymSLaws S) n (rv : nat -> S) normal (e g : expr S), (1 < n <= 3)%nat ->
  wf e -> e_dim e = n -> expr_rank e = Some 1%nat -> grad (coords_of n n rv normal) e = Some g ->
  num_components g = (n * n)%nat /\ forall y U F DF, regular L n n rv y -> defined L e y -> smooth n U y ->
    (forall a, (a < n)%nat -> frechet n (F a) (pos L rv y) (DF a)) ->
    (forall a, (a < n)%nat -> pulls L n rv (F a) (fun z => vec L n n rv normal e U z a) y) ->
    defined L g y /\ forall a c, (a < n)%nat -> (c < n)%nat -> ten L n n rv normal g U y a c = DF a c.
Proof.
  intros S L n rv normal e g Hn W D Rk H. assert (Hn' : (1 <= n <= 3)%nat) by lia.
  destruct (grad_vec_ok L n n rv normal Hn' e g ltac:(lia) W D Rk H) as (_ & Ng & _ & M). split; [exact Ng|].
  intros y U F DF Ry Dy HU HF HP. split; [apply (M y Ry Dy)|].
  exact (grad_vec_true L n n rv normal Hn' e g y U F DF eq_refl ltac:(lia) W D Rk H Ry Dy HU HF HP).
Qed.
Theorem C51_div_tensor : forall (S : SymS) (L : SymSLaws S) n (rv : nat -> S) normal (e d : expr S), (1 < n <= 3)%nat ->
  wf e -> e_dim e = n -> expr_rank e = Some 2%nat -> div (coords_of n n rv normal) e = Some d ->
  num_components d = n /\ forall y U F DF, regular L n n rv y -> defined L e y -> smooth n U y ->
    (forall a c, (a < n)%nat -> (c < n)%nat -> frechet n (F a c) (pos L rv y) (DF a c)) ->
    (forall a c, (a < n)%nat -> (c < n)%nat -> pulls L n rv (F a c) (fun z => ten L n n rv normal e U z a c) y) ->
    defined L d y /\ forall a, (a < n)%nat -> vec L n n rv normal d U y a = rsum n (fun c => DF a c c).
Proof.
  intros S L n rv normal e d Hn W D Rk H. assert (Hn' : (1 <= n <= 3)%nat) by lia.
  destruct (div_ten_ok L n n rv normal Hn' e d W ltac:(lia) D Rk H) as (_ & Ng & _ & M). split; [exact Ng|].
  intros y U F DF Ry Dy HU HF HP. split; [apply (M y Ry Dy)|].
  exact (div_ten_true L n n rv normal Hn' e d y U F DF eq_refl ltac:(lia) W D Rk H Ry Dy HU HF HP).
Qed.
(** curl, in right-handed coordinates *)
Theorem C51_curl_3d : forall (S : SymS) (L : SymSLaws S) (rv : nat -> S) normal (e w : expr S),
  wf e -> e_dim e = 3%nat -> expr_rank e = Some 1%nat -> curl (coords_of 3 3 rv normal) e = Some w ->
  forall y U F DF, regular L 3 3 rv y -> defined L e y -> smooth 3 U y -> 0 < rdet 3 (tangent L rv y) ->
    (forall a, (a < 3)%nat -> frechet 3 (F a) (pos L rv y) (DF a)) ->
    (forall a, (a < 3)%nat -> pulls L 3 rv (F a) (fun z => vec L 3 3 rv normal e U z a) y) ->
    forall a, (a < 3)%nat -> vec L 3 3 rv normal w U y a = curl_of DF a.
Proof.
  intros S L rv normal e w W D Rk H y U F DF Ry Dy HU HD HF HP a Ha.
  rewrite (curl3_true L 3 3 rv normal ltac:(lia) e w y U F DF eq_refl eq_refl W D Rk H Ry Dy HU HF HP a Ha).
  rewrite (Rabs_right (rdet 3 (tangent L rv y))) by lra. field. lra.
Qed.
Theorem C51_curl_2d : forall (S : SymS) (L : SymSLaws S) (rv : nat -> S) normal (e w : expr S),
  wf e -> e_dim e = 2%nat -> expr_rank e = Some 1%nat -> curl (coords_of 2 2 rv normal) e = Some w ->
  forall y U F DF, regular L 2 2 rv y -> defined L e y -> smooth 2 U y -> 0 < rdet 2 (tangent L rv y) ->
    (forall a, (a < 2)%nat -> frechet 2 (F a) (pos L rv y) (DF a)) ->
    (forall a, (a < 2)%nat -> pulls L 2 rv (F a) (fun z => vec L 2 2 rv normal e U z a) y) ->
    mean L w 0 U y = DF 1%nat 0%nat - DF 0%nat 1%nat.
Proof.
  intros S L rv normal e w W D Rk H y U F DF Ry Dy HU HD HF HP.
  rewrite (curl2_true L 2 2 rv normal ltac:(lia) e w y U F DF eq_refl eq_refl W D Rk H Ry Dy HU HF HP).
  rewrite (Rabs_right (rdet 2 (tangent L rv y))) by lra. field. lra.
Qed.
(** on a surface: the component of the curl along the normal b_0 x b_1 *)
Theorem C51_curl_surface : forall (S : SymS) (L : SymSLaws S) (rv : nat -> S) normal (e w : expr S),
  wf e -> e_dim e = 2%nat -> expr_rank e = Some 1%nat -> curl (coords_of 2 3 rv normal) e = Some w ->
  forall y U F DF, regular L 2 3 rv y -> defined L e y -> smooth 2 U y ->
    (forall a, (a < 3)%nat -> frechet 3 (F a) (pos L rv y) (DF a)) ->
    (forall a, (a < 3)%nat -> pulls L 2 rv (F a) (fun z => vec L 2 3 rv normal e U z a) y) ->
    let N := cross (tangent L rv y 0%nat) (tangent L rv y 1%nat) in
    0 < dot 3 N N /\ mean L w 0 U y = dot 3 (curl_of DF) N / sqrt (dot 3 N N).
Proof.
  intros S L rv normal e w W D Rk H y U F DF Ry Dy HU HF HP.
  exact (curl_surf_true L 2 3 rv normal ltac:(lia) e w y U F DF eq_refl eq_refl W D Rk H Ry Dy HU HF HP).
Qed.
(** In left-handed coordinates, such as (theta, r) in the plane, curl returns the opposite of the curl *)
Theorem C51_curl_left_handed_refuted : forall (S : SymS) (L : SymSLaws S) (rv : nat -> S) normal (e w : expr S) y U F DF,
  (wf e -> e_dim e = 3%nat -> expr_rank e = Some 1%nat -> curl (coords_of 3 3 rv normal) e = Some w ->
    regular L 3 3 rv y -> defined L e y -> smooth 3 U y -> rdet 3 (tangent L rv y) < 0 ->
    (forall a, (a < 3)%nat -> frechet 3 (F a) (pos L rv y) (DF a)) ->
    (forall a, (a < 3)%nat -> pulls L 3 rv (F a) (fun z => vec L 3 3 rv normal e U z a) y) ->
    forall a, (a < 3)%nat -> vec L 3 3 rv normal w U y a = - curl_of DF a) /\
  (wf e -> e_dim e = 2%nat -> expr_rank e = Some 1%nat -> curl (coords_of 2 2 rv normal) e = Some w ->
    regular L 2 2 rv y -> defined L e y -> smooth 2 U y -> rdet 2 (tangent L rv y) < 0 ->
    (forall a, (a < 2)%nat -> frechet 2 (F a) (pos L rv y) (DF a)) ->
    (forall a, (a < 2)%nat -> pulls L 2 rv (F a) (fun z => vec L 2 2 rv normal e U z a) y) ->
    mean L w 0 U y = - (DF 1%nat 0%nat - DF 0%nat 1%nat)).
Proof.
  intros S L rv normal e w y U F DF. split; intros W D Rk H Ry Dy HU HD HF HP.
  - intros a Ha. rewrite (curl3_true L 3 3 rv normal ltac:(lia) e w y U F DF eq_refl eq_refl W D Rk H Ry Dy HU HF HP a Ha).
    rewrite (Rabs_left (rdet 3 (tangent L rv y))) by lra. field. lra.
  - rewrite (curl2_true L 2 2 rv normal ltac:(lia) e w y U F DF eq_refl eq_refl W D Rk H Ry Dy HU HF HP).
    rewrite (Rabs_left (rdet 2 (tangent L rv y))) by lra. field. lra.
Qed.
(** div(grad f) is the sum of the second derivatives *)
Theorem C51_laplace : forall (S : SymS) (L : SymSLaws S) n (rv : nat -> S) normal (e g d : expr S), (1 <= n <= 3)%nat ->
  wf e -> e_dim e = n -> num_components e = 1%nat -> grad (coords_of n n rv normal) e = Some g -> div (coords_of n n rv normal) g = Some d ->
  forall y U F G HG, regular L n n rv y -> defined L e y -> smooth n U y ->
    (exists eps, 0 < eps /\ forall z, (forall i, (i < n)%nat -> Rabs (z i - y i) < eps) ->
       mean L e 0 U z = F (pos L rv z) /\ smooth n U z /\ frechet n F (pos L rv z) (fun a => G a (pos L rv z))) ->
    (forall a, (a < n)%nat -> frechet n (G a) (pos L rv y) (HG a)) ->
    mean L d 0 U y = rsum n (fun a => HG a a).
Proof.
  intros S L n rv normal e g d Hn W D N Hg Hd y U F G HG Ry Dy HU HE HH.
  exact (laplace_true L n n rv normal Hn e g d y U F G HG eq_refl W D N Hg Hd Ry Dy HU HE HH).
Qed.
Print Assumptions C51_grad. Print Assumptions C51_grad_surface. Print Assumptions C51_projection. Print Assumptions C51_div. Print Assumptions C51_div_surface.
Print Assumptions C51_grad_vector. Print Assumptions C51_div_tensor. Print Assumptions C51_curl_3d. Print Assumptions C51_curl_2d.
Print Assumptions C51_curl_surface. Print Assumptions C51_curl_left_handed_refuted. Print Assumptions C51_laplace.
