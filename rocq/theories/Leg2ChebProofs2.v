(** Leg2ChebProofs2.v -- what the loops compute. *)
From Coq Require Import Reals ZArith List Arith Bool Lia Lra.
From Verif Require Import Base Fld SparseModel RPoly StencilModel MatrixProofs ChebMatrixProofs HelmholtzProofs Leg2ChebModel Leg2ChebProofs.
Import ListNotations.
Local Open Scope R_scope.

Definition guard (b : bool) (x : R) : R := if b then x else 0.
Lemma acc_loops H s N (g : nat -> nat -> R) v0 i :
  for_up H s (fun h v => for_up (N - 2 * h) 0 (fun i v => upd v i (v i + g h i)) v) v0 i
  = v0 i + rsum H (fun h => guard (Nat.ltb (i + 2 * (s + h)) N) (g (s + h)%nat i)).
Proof.
  induction H as [|H IH].
  - cbn. ring.
  - rewrite for_up_snoc. rewrite (for_up_pointwise (N - 2 * (s + H)) 0 (fun k x => x + g (s + H)%nat k)). rewrite IH. cbn [Nat.leb andb gsum]. set (X := rsum H _). clearbody X. unfold guard.
    destruct (Nat.ltb_spec i (0 + (N - 2 * (s + H)))); destruct (Nat.ltb_spec (i + 2 * (s + H)) N); try lia; ring.
Qed.
Lemma acc_loops_sub H s N (g : nat -> nat -> R) v0 i :
  for_up H s (fun h v => for_up (N - 2 * h) 0 (fun i v => upd v i (v i - g h i)) v) v0 i
  = v0 i - rsum H (fun h => guard (Nat.ltb (i + 2 * (s + h)) N) (g (s + h)%nat i)).
Proof.
  transitivity (v0 i + rsum H (fun h => guard (Nat.ltb (i + 2 * (s + h)) N) (- g (s + h)%nat i))).
  - exact (acc_loops H s N (fun h i => - g h i) v0 i).
  - rewrite (rsum_ext H _ (fun h => (-1) * guard (Nat.ltb (i + 2 * (s + h)) N) (g (s + h)%nat i))).
    + rewrite rsum_scal. ring.
    + intros h Hh. unfold guard. destruct (Nat.ltb _ _); ring.
Qed.
Lemma shift_loop n a (g : nat -> R) v k :
  for_up n 0 (fun i v => upd v (i + a) (v (i + a)%nat + g i)) v k = if (Nat.leb a k && Nat.ltb k (n + a))%bool then v k + g (k - a)%nat else v k.
Proof.
  induction n as [|n IH].
  - cbn [for_up]. destruct (Nat.leb_spec a k); destruct (Nat.ltb_spec k (0 + a)); cbn [andb]; try lia; reflexivity.
  - rewrite for_up_snoc. cbn [Nat.add]. destruct (Nat.eq_dec k (n + a)) as [->|Hk].
    + upds. assert (E : for_up n 0 (fun i v => upd v (i + a) (v (i + a)%nat + g i)) v (n + a)%nat = v (n + a)%nat).
      { clear IH. assert (P : forall m u, (m <= n)%nat -> for_up m 0 (fun i v => upd v (i + a) (v (i + a)%nat + g i)) u (n + a)%nat = u (n + a)%nat).
        { induction m as [|m IHm]; intros u Hm; [reflexivity|]. rewrite for_up_snoc. upds. apply IHm. lia. }
        apply P. lia. }
      rewrite E. destruct (Nat.leb_spec a (n + a)); [|lia]. destruct (Nat.ltb_spec (n + a) (S (n + a))); [|lia]. cbn [andb]. f_equal. f_equal. lia.
    + upds. rewrite IH. destruct (Nat.leb_spec a k); cbn [andb]; [|reflexivity].
      destruct (Nat.ltb_spec k (n + a)); destruct (Nat.ltb_spec k (S (n + a))); try lia; reflexivity.
Qed.
Lemma acc_loops_T H N (g : nat -> nat -> R) v0 i :
  for_up H 0 (fun h v => for_up (N - 2 * h) 0 (fun i v => upd v (i + 2 * h) (v (i + 2 * h)%nat + g h i)) v) v0 i
  = v0 i + rsum H (fun h => guard (Nat.leb (2 * h) i && Nat.ltb i N) (g h (i - 2 * h)%nat)).
Proof.
  induction H as [|H IH].
  - cbn. ring.
  - rewrite for_up_snoc. cbn [Nat.add]. rewrite shift_loop, IH. cbn [gsum]. set (X := rsum H _). clearbody X. unfold guard.
    destruct (Nat.leb_spec (2 * H) i); destruct (Nat.ltb_spec i (N - 2 * H + 2 * H)); destruct (Nat.ltb_spec i N); cbn [andb]; try lia; ring.
Qed.
Lemma acc_slices H s (P : nat -> nat -> bool) (g : nat -> nat -> R) v0 i :
  for_up H s (fun h (v : nat -> R) i => if P h i then v i + g h i else v i) v0 i = v0 i + rsum H (fun h => guard (P (s + h)%nat i) (g (s + h)%nat i)).
Proof.
  induction H as [|H IH].
  - cbn. ring.
  - rewrite for_up_snoc, IH. cbn [gsum]. set (X := rsum H _). clearbody X. unfold guard. destruct (P (s + H)%nat i); ring.
Qed.
Lemma acc_slices_sub H s (P : nat -> nat -> bool) (g : nat -> nat -> R) v0 i :
  for_up H s (fun h (v : nat -> R) i => if P h i then v i - g h i else v i) v0 i = v0 i - rsum H (fun h => guard (P (s + h)%nat i) (g (s + h)%nat i)).
Proof.
  transitivity (v0 i + rsum H (fun h => guard (P (s + h)%nat i) (- g (s + h)%nat i))).
  - exact (acc_slices H s P (fun h i => - g h i) v0 i).
  - rewrite (rsum_ext H _ (fun h => (-1) * guard (P (s + h)%nat i) (g (s + h)%nat i))).
    + rewrite rsum_scal. ring.
    + intros h Hh. unfold guard. destruct (P _ _); ring.
Qed.

(** ** the values *)
Definition l2c_val (N : nat) (c : nat -> R) (i : nat) : R :=
  wt i / PI * rsum (evens N) (fun h => guard (Nat.ltb (i + 2 * h) N) (Lam h * Lam (h + i) * c (2 * h + i)%nat)).
Definition l2c_T_val (N : nat) (c : nat -> R) (j : nat) : R :=
  rsum (evens N) (fun h => guard (Nat.leb (2 * h) j && Nat.ltb j N) (Lam h * Lam (j - h) * (wt (j - 2 * h) / PI * c (j - 2 * h)%nat))).
Lemma evens_pos N : (N < 2 * evens N + 1)%nat /\ (2 * evens N < N + 2)%nat.
Proof.
  unfold evens. pose proof (Nat.div_mod (N + 1) 2 ltac:(lia)) as E. pose proof (Nat.mod_upper_bound (N + 1) 2 ltac:(lia)). lia.
Qed.
Lemma rsum_more n m f : (n <= m)%nat -> (forall i, (n <= i)%nat -> f i = 0) -> rsum m f = rsum n f.
Proof.
  intros H Hz. replace m with (n + (m - n))%nat by lia. induction (m - n)%nat as [|k IH]; [f_equal; lia|].
  replace (n + S k)%nat with (S (n + k)) by lia. rewrite rsum_last, IH, Hz by lia. ring.
Qed.

  Lemma scale_upto N (f : nat -> R) (x : R) k : (k < N)%nat -> for_up N 0 (fun i v => upd v i (v i * x)) f k = f k * x.
  Proof.
    intros Hk. rewrite (for_up_pointwise N 0 (fun _ y => y * x)). cbn [Nat.leb andb Nat.add]. destruct (Nat.ltb_spec k N); [reflexivity|lia].
  Qed.
Section Values.
  Variables (N : nat) (c : nat -> R) (i : nat).
  Hypothesis Hi : (i < N)%nat.
  Lemma leg2cheb_val : leg2cheb N false c i = l2c_val N c i.
  Proof.
    unfold leg2cheb, leg2cheb_loops, l2c_val. cbv zeta. rewrite scale_upto by exact Hi.
    assert (E : forall k, for_up (evens N) 0 (fun h v => for_up (N - 2 * h) 0 (fun i v => upd v i (v i + Lam h * Lam (h + i)%nat * c (2 * h + i)%nat)) v) zero_array k
      = rsum (evens N) (fun h => guard (Nat.ltb (k + 2 * h) N) (Lam h * Lam (h + k) * c (2 * h + k)%nat))).
    { intros k. rewrite (acc_loops (evens N) 0 N (fun h i => Lam h * Lam (h + i) * c (2 * h + i)%nat)). unfold zero_array. cbn [Nat.add]. ring. }
    unfold upd. unfold wt. destruct (Nat.eqb_spec i 0) as [->|Hn]; fold (@upd R); rewrite E; field; pose proof PI_RGT_0; lra.
  Qed.
  Lemma leg2cheb_py_val : leg2cheb_py N false c i = l2c_val N c i.
  Proof.
    unfold leg2cheb_py, l2c_val. cbv zeta.
    rewrite (acc_slices (evens N) 0 (fun h i => Nat.ltb i (N - 2 * h)) (fun h i => Lam h * Lam (h + i) * c (2 * h + i)%nat)). unfold zero_array. cbn [Nat.add].
    rewrite (rsum_ext _ (fun h => guard (Nat.ltb i (N - 2 * h)) _) (fun h => guard (Nat.ltb (i + 2 * h) N) (Lam h * Lam (h + i) * c (2 * h + i)%nat))).
    - unfold py_ck, wt. pose proof PI_RGT_0. destruct (Nat.eqb i 0); field; lra.
    - intros h Hh. unfold guard. destruct (Nat.ltb_spec i (N - 2 * h)); destruct (Nat.ltb_spec (i + 2 * h) N); try lia; reflexivity.
  Qed.
  Lemma direct_val : Leg2Cheb_direct N false c i = l2c_val N c i.
  Proof.
    unfold Leg2Cheb_direct, direct1, l2c_val. cbv zeta.
    assert (E : forall k, for_up N 0 (fun h v => for_up (N - 2 * h) 0 (fun i v => upd v i (v i + Lam h * Lam (h + i)%nat * c (2 * h + i)%nat)) v) zero_array k
      = rsum (evens N) (fun h => guard (Nat.ltb (k + 2 * h) N) (Lam h * Lam (h + k) * c (2 * h + k)%nat))).
    { intros k. rewrite (acc_loops N 0 N (fun h i => Lam h * Lam (h + i) * c (2 * h + i)%nat)). unfold zero_array. cbn [Nat.add]. rewrite Rplus_0_l.
      pose proof (evens_pos N). destruct N as [|n] eqn:EN; [lia|]. rewrite <- EN in *. apply rsum_more; [lia|].
      intros h Hh. unfold guard. destruct (Nat.ltb_spec (k + 2 * h) N); [lia|reflexivity]. }
    unfold upd at 1. unfold wt. pose proof PI_RGT_0. destruct (Nat.eqb_spec i 0) as [->|Hn]; rewrite scale_upto by lia; rewrite E; field; lra.
  Qed.
  Lemma leg2cheb_T_val : leg2cheb N true c i = l2c_T_val N c i.
  Proof.
    unfold leg2cheb, leg2cheb_loops_T, l2c_T_val. cbv zeta. set (cv := upd _ _ _).
    rewrite (acc_loops_T (evens N) N (fun h i => Lam h * Lam (h + i) * cv i)). unfold zero_array at 1. rewrite Rplus_0_l.
    apply rsum_ext. intros h Hh. unfold guard. destruct (Nat.leb_spec (2 * h) i); cbn [andb]; [|reflexivity]. destruct (Nat.ltb_spec i N); [|reflexivity].
    replace (h + (i - 2 * h))%nat with (i - h)%nat by lia. f_equal. unfold cv, upd at 1. unfold wt. pose proof PI_RGT_0.
    destruct (Nat.eqb_spec (i - 2 * h) 0) as [E0|E0]; [rewrite E0|];
      rewrite (for_up_pointwise N 0 (fun k _ => c k * (2 / PI))); cbn [Nat.leb andb Nat.add];
      (match goal with |- context [Nat.ltb ?a ?b] => destruct (Nat.ltb_spec a b); [|lia] end); field; lra.
  Qed.
  Lemma leg2cheb_py_T_val : leg2cheb_py N true c i = l2c_T_val N c i.
  Proof.
    unfold leg2cheb_py, l2c_T_val. cbv zeta.
    rewrite (acc_slices (evens N) 0 (fun h i => (Nat.leb (2 * h) i && Nat.ltb i N)%bool) (fun h i => Lam h * Lam (h + (i - 2 * h)) * (c (i - 2 * h)%nat / py_ck (i - 2 * h)))).
    unfold zero_array. rewrite Rplus_0_l. cbn [Nat.add]. apply rsum_ext. intros h Hh. unfold guard.
    destruct (Nat.leb_spec (2 * h) i); cbn [andb]; [|reflexivity]. destruct (Nat.ltb_spec i N); [|reflexivity].
    replace (h + (i - 2 * h))%nat with (i - h)%nat by lia. f_equal. unfold py_ck, wt. pose proof PI_RGT_0. destruct (Nat.eqb (i - 2 * h) 0); field; lra.
  Qed.
  Lemma direct_T_val : Leg2Cheb_direct N true c i = l2c_T_val N c i.
  Proof.
    unfold Leg2Cheb_direct, direct1, l2c_T_val. cbv zeta. set (cv := upd _ _ _).
    rewrite (for_up_ext N 0 _ (fun h v => for_up (N - 2 * h) 0 (fun i v => upd v (i + 2 * h) (v (i + 2 * h)%nat + Lam h * Lam (h + i)%nat * cv i)) v))
      by (intros h v Hh; apply for_up_ext; intros j w Hj; rewrite (Nat.add_comm (2 * h)); reflexivity).
    rewrite (acc_loops_T N N (fun h i => Lam h * Lam (h + i) * cv i)). unfold zero_array at 1. rewrite Rplus_0_l.
    pose proof (evens_pos N). rewrite (rsum_more (evens N) N).
    - apply rsum_ext. intros h Hh. unfold guard. destruct (Nat.leb_spec (2 * h) i); cbn [andb]; [|reflexivity]. destruct (Nat.ltb_spec i N); [|reflexivity].
      replace (h + (i - 2 * h))%nat with (i - h)%nat by lia. f_equal. unfold cv, upd at 1. unfold wt. pose proof PI_RGT_0.
      destruct (Nat.eqb_spec (i - 2 * h) 0) as [E0|E0]; [rewrite E0|]; rewrite scale_upto by lia; field; lra.
    - lia.
    - intros h Hh. unfold guard. destruct (Nat.leb_spec (2 * h) i); [lia|reflexivity].
  Qed.
  Lemma FMMLeg2Cheb_val : FMMLeg2Cheb_direct N false c i
    = wt i / PI * rsum (N / 2) (fun h => guard (Nat.ltb (i + 2 * h) N) (Lam h * Lam (h + i) * c (2 * h + i)%nat)).
  Proof.
    unfold FMMLeg2Cheb_direct, direct1. cbv zeta.
    assert (E : forall k, for_up (N / 2) 0 (fun h v => for_up (N - 2 * h) 0 (fun i v => upd v i (v i + Lam h * Lam (h + i)%nat * c (2 * h + i)%nat)) v) zero_array k
      = rsum (N / 2) (fun h => guard (Nat.ltb (k + 2 * h) N) (Lam h * Lam (h + k) * c (2 * h + k)%nat))).
    { intros k. rewrite (acc_loops (N / 2) 0 N (fun h i => Lam h * Lam (h + i) * c (2 * h + i)%nat)). unfold zero_array. cbn [Nat.add]. ring. }
    unfold upd at 1. unfold wt. pose proof PI_RGT_0. destruct (Nat.eqb_spec i 0) as [->|Hn]; rewrite scale_upto by lia; rewrite E; field; lra.
  Qed.
End Values.

(** ** cheb2leg *)
Definition vnf (v : nat -> R) (i : nat) : R := if Nat.eqb i 0 then v 0%nat else v i * INR i.
Lemma c2l_vn_val N v i : (i < N)%nat -> c2l_vn N v i = vnf v i.
Proof.
  intros Hi. unfold c2l_vn, vnf. rewrite (for_up_pointwise (N - 1) 1 (fun k _ => v k * INR k)).
  destruct (Nat.eqb_spec i 0) as [->|Hn]; [reflexivity|]. destruct (Nat.leb_spec 1 i); [|lia]. destruct (Nat.ltb_spec i (1 + (N - 1))); [reflexivity|lia].
Qed.
(** with the terms h = 1, ..., H *)
Definition c2l_val (H N : nat) (v : nat -> R) (i : nat) : R :=
  (sqrt PI * c2l_a i * vnf v i - rsum H (fun h => guard (Nat.ltb (i + 2 * (1 + h)) N) (c2l_dn (1 + h) * c2l_a (1 + h + i) * vnf v (2 * (1 + h) + i)))) * (INR i + / 2).
Lemma c2l_sub_val H N vn v c0 i : (forall k, (k < N)%nat -> vn k = vnf v k) ->
  c2l_sub H N c2l_a c2l_dn vn c0 i = c0 i - rsum H (fun h => guard (Nat.ltb (i + 2 * (1 + h)) N) (c2l_dn (1 + h) * c2l_a (1 + h + i) * vnf v (2 * (1 + h) + i))).
Proof.
  intros Hv. unfold c2l_sub. rewrite (acc_loops_sub H 1 N (fun h i => c2l_dn h * c2l_a (h + i) * vn (2 * h + i)%nat)). f_equal.
  apply rsum_ext. intros h Hh. unfold guard. destruct (Nat.ltb_spec (i + 2 * (1 + h)) N); [|reflexivity]. rewrite Hv by lia. reflexivity.
Qed.
Section Values2.
  Variables (N : nat) (v : nat -> R) (i : nat).
  Hypothesis Hi : (i < N)%nat.
  Lemma fin_scale f : for_up N 0 (fun n c => upd c n (c n * (INR n + / 2))) f i = f i * (INR i + / 2).
  Proof. rewrite (for_up_pointwise N 0 (fun k x => x * (INR k + / 2))). cbn [Nat.leb andb Nat.add]. destruct (Nat.ltb_spec i N); [reflexivity|lia]. Qed.
  Lemma cheb2leg_val : cheb2leg N v i = c2l_val ((N - 1) / 2) N v i.
  Proof.
    unfold cheb2leg, c2l_val. cbv zeta. rewrite fin_scale. f_equal. rewrite (c2l_sub_val _ _ _ v) by (intros; apply c2l_vn_val; assumption). f_equal.
    rewrite (for_up_pointwise N 0 (fun n _ => sqrt PI * c2l_a n * c2l_vn N v n)). cbn [Nat.leb andb Nat.add]. destruct (Nat.ltb_spec i N); [|lia]. rewrite c2l_vn_val by lia. reflexivity.
  Qed.
  Lemma cheb2leg_py_val : cheb2leg_py N v i = c2l_val ((N - 1) / 2) N v i.
  Proof.
    unfold cheb2leg_py, c2l_val. cbv zeta. destruct (Nat.ltb_spec i N); [|lia]. f_equal.
    rewrite (acc_slices_sub ((N - 1) / 2) 1 (fun h i => Nat.ltb i (N - 2 * h)) (fun h i => c2l_dn h * c2l_a (h + i) * vnf v (2 * h + i))).
    destruct (Nat.ltb_spec i N); [|lia]. f_equal. apply rsum_ext. intros h Hh. unfold guard.
    destruct (Nat.ltb_spec i (N - 2 * (1 + h))); destruct (Nat.ltb_spec (i + 2 * (1 + h)) N); try lia; reflexivity.
  Qed.
  Lemma Cheb2Leg_direct_val : Cheb2Leg_direct N v i = c2l_val (N / 2 - 1) N v i.
  Proof.
    unfold Cheb2Leg_direct, direct4, c2l_val. cbv zeta. rewrite fin_scale. f_equal.
    assert (W : forall k, (k < N)%nat -> for_up (N - 1) 1 (fun i w => upd w i (w i * INR i)) v k = vnf v k).
    { intros k Hk. rewrite (for_up_pointwise (N - 1) 1 (fun k x => x * INR k)). unfold vnf. destruct (Nat.eqb_spec k 0) as [->|]; [reflexivity|].
      destruct (Nat.leb_spec 1 k); [|lia]. destruct (Nat.ltb_spec k (1 + (N - 1))); [reflexivity|lia]. }
    rewrite (c2l_sub_val _ _ _ v) by exact W. f_equal. set (w := for_up (N - 1) 1 _ v) in *.
    rewrite (for_up_pointwise N 0 (fun k x => x + sqrt PI * c2l_a k * w k)). cbn [Nat.leb andb Nat.add]. destruct (Nat.ltb_spec i N); [|lia].
    rewrite W by lia. unfold zero_array. ring.
  Qed.
End Values2.
