(** BndProofs2.v -- tensor product spaces with one inhomogeneous axis. *)
From Coq Require Import Reals ZArith List Bool Arith Lia Lra.
From Verif Require Import Base Fld SparseModel SparseSpec RPoly StencilSpec BndModel BndSpec BndProofs.
Import ListNotations.
Local Open Scope R_scope.

Section LinOp.
Context {O S : Type} (X : (O -> R) -> S -> R).
Hypothesis HX : linear_op X.
Lemma lop_ext f g s : (forall p, f p = g p) -> X f s = X g s. Proof. intros H. apply HX, H. Qed.
Lemma lop_sum n c (f : nat -> O -> R) s : X (fun p => rsum n (fun k => c k * f k p)) s = rsum n (fun k => c k * X (f k) s).
Proof.
  destruct HX as (Ha & Hs & He). induction n; cbn [gsum].
  - rewrite (He _ (fun p => 0 * 0)) by (intros; ring). rewrite Hs. ring.
  - rewrite (Ha (fun p => rsum n (fun k => c k * f k p)) (fun p => c n * f n p)), Hs, IHn. reflexivity.
Qed.
End LinOp.
Section Tensor.
Context {OP SP OQ SQ : Type} (T : tensor OP SP OQ SQ) (P : nat -> poly) (b : cbase) (Q : quadr) (A : assembled).
Hypothesis W : wf_base b.
Hypothesis HB : linear_op (t_before T).
Hypothesis HA : linear_op (t_after T).
Hypothesis C0 : t_c T <> 0.
Let dim := cdim b.
Let cB := match t_last T with LBefore => t_c T | _ => 1 end.
Let cA := match t_last T with LAfter => t_c T | _ => 1 end.
Lemma c_split : t_c T = cB * this_const T * cA. Proof. unfold cB, cA, this_const. destruct (t_last T); ring. Qed.
Lemma cB0 : cB <> 0. Proof. unfold cB. destruct (t_last T); lra. Qed.
Lemma cA0 : cA <> 0. Proof. unfold cA. destruct (t_last T); lra. Qed.
Lemma x_before_eq f s : x_before T f s = t_before T f s / cB. Proof. unfold x_before, cB. destruct (t_last T); field; assumption. Qed.
Lemma x_after_eq f s : x_after T f s = t_after T f s / cA. Proof. unfold x_after, cA. destruct (t_last T); field; assumption. Qed.

Lemma tensor_rows nh bcs u j s t : (j < cnb b)%nat ->
  tensor_forward T b P Q A nh bcs u (dim + j)%nat s t = x_after T (fun q => bcs j s q) t.
Proof.
  intros Hj. unfold tensor_forward. rewrite !x_after_eq. f_equal. apply (lop_ext _ HA). intros q. exact (measured_bcs P b W Q A nh (fun j => bcs j s q) _ j Hj).
Qed.
Lemma final_eq nh vals j s t : (j < cnb b)%nat ->
  tensor_bcs_final T b P Q A nh vals j s t = x_after T (fun q => tensor_bcs T vals j s q) t.
Proof. intros Hj. apply tensor_rows, Hj. Qed.

Hypothesis CA : correct P b Q (fun q => this_const T * t_gA T q) A.
Lemma product_scal g c u v : product Q (fun q => c * g q) u v = c * product Q g u v.
Proof. unfold product. rewrite <- sum_scal. apply sum_ext. intros; ring. Qed.
Lemma tensor_residual nh bcs u i s t : (nh = false -> forall j s q, (j < cnb b)%nat -> bcs j s q = 0) -> (i < dim)%nat ->
  product Q (t_gA T) (at_points Q (phi P b i)) (at_points Q (expansion P b (fun k => tensor_forward T b P Q A nh bcs u k s t))) =
  product Q (t_gA T) (at_points Q (phi P b i)) (fun k => others T (u k) s t).
Proof.
  intros Hh Hi. set (m := fun k p q => t_c T * t_gA T k * t_gP T p * t_gQ T q * u k p q).
  set (v := fun k q => x_before T (fun p => m k p q) s).
  set (w := fun k q => forward_measured b P Q A nh (fun j => bcs j s q) (fun k => v k q) k).
  assert (MC : this_const T <> 0) by (unfold this_const; destruct (t_last T); lra).
  (* the one-dimensional statement, for each q *)
  assert (R1 : forall q, this_const T * product Q (t_gA T) (at_points Q (phi P b i)) (at_points Q (expansion P b (fun k => w k q))) =
                 rsum (qn Q) (fun k => qw Q k * at_points Q (phi P b i) k * v k q)).
  { intros q. rewrite <- (product_scal (t_gA T) (this_const T)).
    apply (measured_residual P b W Q A _ CA nh (fun j => bcs j s q) (fun k => v k q) i); [intros Hn j Hj; apply Hh; assumption|exact Hi]. }
  (* v *)
  assert (V : forall k q, v k q = t_c T / cB * (t_gA T k * (t_gQ T q * t_before T (fun p => t_gP T p * u k p q) s))).
  { intros k q. unfold v. rewrite x_before_eq. rewrite (lop_ext _ HB _ (fun p => (t_c T * t_gA T k * t_gQ T q) * (t_gP T p * u k p q))) by (intros p; unfold m; ring).
    rewrite (proj1 (proj2 HB)). field. exact cB0. }
  assert (TF : forall k, tensor_forward T b P Q A nh bcs u k s t = t_after T (fun q => w k q) t / cA) by (intros k; unfold tensor_forward; rewrite x_after_eq; reflexivity).
  (* apply t_after to both sides *)
  assert (L : t_after T (fun q => product Q (t_gA T) (at_points Q (phi P b i)) (at_points Q (expansion P b (fun k => w k q)))) t =
              cA * product Q (t_gA T) (at_points Q (phi P b i)) (at_points Q (expansion P b (fun k => tensor_forward T b P Q A nh bcs u k s t)))).
  { rewrite (product_expansion P b Q (t_gA T)). fold dim.
    rewrite (lop_ext _ HA _ (fun q => rsum dim (fun k => product Q (t_gA T) (at_points Q (phi P b i)) (at_points Q (phi P b k)) * w k q) +
       rsum (cnb b) (fun j => product Q (t_gA T) (at_points Q (phi P b i)) (at_points Q (bfun P b j)) * w (dim + j)%nat q)))
      by (intros q; rewrite (product_expansion P b Q (t_gA T)); reflexivity).
    rewrite (proj1 HA), (lop_sum _ HA dim (fun k => product Q (t_gA T) (at_points Q (phi P b i)) (at_points Q (phi P b k))) w),
      (lop_sum _ HA (cnb b) (fun j => product Q (t_gA T) (at_points Q (phi P b i)) (at_points Q (bfun P b j))) (fun j q => w (dim + j)%nat q)).
    rewrite Rmult_plus_distr_l, <- !sum_scal. f_equal; apply sum_ext; intros k _; rewrite TF; [change (t_after T (w k) t) with (t_after T (fun q => w k q) t)|change (t_after T ((fun j q => w (dim + j)%nat q) k) t) with (t_after T (fun q => w (dim + k)%nat q) t)]; field; exact cA0. }
  assert (K : t_after T (fun q => rsum (qn Q) (fun k => qw Q k * at_points Q (phi P b i) k * v k q)) t =
     t_c T / cB * product Q (t_gA T) (at_points Q (phi P b i)) (fun k => others T (u k) s t)).
  { rewrite (lop_sum _ HA (qn Q) (fun k => qw Q k * at_points Q (phi P b i) k) v). unfold product. rewrite <- sum_scal. apply sum_ext. intros k _.
    rewrite (lop_ext _ HA _ (fun q => (t_c T / cB * t_gA T k) * (t_gQ T q * t_before T (fun p => t_gP T p * u k p q) s))) by (intros q; rewrite V; ring).
    rewrite (proj1 (proj2 HA)). unfold others. ring. }
  assert (E : this_const T * (cA * product Q (t_gA T) (at_points Q (phi P b i)) (at_points Q (expansion P b (fun k => tensor_forward T b P Q A nh bcs u k s t)))) =
     t_c T / cB * product Q (t_gA T) (at_points Q (phi P b i)) (fun k => others T (u k) s t)).
  { rewrite <- K, <- L, <- (proj1 (proj2 HA)). apply (lop_ext _ HA). exact R1. }
  rewrite c_split in E at 1. 
  replace (cB * this_const T * cA / cB) with (this_const T * cA) in E by (field; exact cB0).
  apply (Rmult_eq_reg_l (this_const T * cA)); [lra|]. apply Rmult_integral_contrapositive_currified; [exact MC|exact cA0].
Qed.
End Tensor.
