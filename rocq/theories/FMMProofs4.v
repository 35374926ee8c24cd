(** FMMProofs4.v -- Leg2Cheb and Cheb2Leg with the hierarchical decomposition. *)
From Coq Require Import Reals List Arith Bool Lia Lra.
From Verif Require Import Base RPoly StencilProofs8 HelmholtzProofs Leg2ChebModel Leg2ChebProofs Leg2ChebProofs2 Leg2ChebProofs3 FMMModel FMMProofs FMMProofs2 FMMProofs3.
Import ListNotations.
Local Open Scope R_scope.

Lemma Mxy_even r h : Mxy r (r + 2 * h) = Lam h * Lam (r + h).
Proof.
  unfold Mxy. replace (r + 2 * h - r)%nat with (h * 2)%nat by lia. replace (r + 2 * h + r)%nat with ((r + h) * 2)%nat by lia. rewrite !Nat.div_mul by lia. reflexivity.
Qed.
Lemma Lxy_even r h : (1 <= h)%nat -> Lxy r (r + 2 * h) = - (c2l_dn h * c2l_a (r + h)).
Proof.
  intros Hh. unfold Lxy, LamH, c2l_dn, c2l_a. replace (r + 2 * h - r)%nat with (2 * h)%nat by lia. replace (2 * h - 2)%nat with ((h - 1) * 2)%nat by lia.
  replace (r + 2 * h + r)%nat with ((r + h) * 2)%nat by lia. rewrite !Nat.div_mul by lia. destruct (Nat.eqb_spec (r + h) 0); [lia|].
  replace (r + (r + 2 * h) + 1)%nat with (2 * (r + h) + 1)%nat by lia. rewrite plus_INR, !mult_INR. cbn [INR].
  pose proof (lt_0_INR h ltac:(lia)). pose proof (lt_0_INR (r + h) ltac:(lia)). pose proof (Lam_pos (r + h)). field. repeat split; lra.
Qed.
Section Whole.
  Variables (N : nat) (D : list nat) (s diags : nat).
  Hypothesis HD : Forall (fun d => (0 < d)%nat) D.
  Hypothesis Hs : (0 < s)%nat.
  Let Nd := get_number_of_blocks (List.length D) D.
  Hypothesis HN : (N <= 2 * (diags + s * Nd))%nat.
  Let M := (diags + s * Nd + evens N + diags + s)%nat.
  Lemma whole r (y : nat -> R) : (r < N)%nat ->
    rsum M (fun h => guard (farb D s diags (r / 2) (r / 2 + h)) (guard (Nat.ltb (r + 2 * h) N) (y h)))
    + rsum M (fun h => guard (nearb s diags Nd (r / 2) h) (guard (Nat.ltb (r + 2 * h) N) (y h)))
    + rsum diags (fun h => guard (Nat.ltb (r + 2 * h) N) (y h))
    = rsum (evens N) (fun h => guard (Nat.ltb (r + 2 * h) N) (y h)).
  Proof.
    intros Hr. pose proof (evens_pos N) as HE. rewrite <- (rsum_more (evens N) M); [|unfold M; lia|intros h Hh; unfold guard; destruct (Nat.ltb_spec (r + 2 * h) N); [lia|reflexivity]].
    rewrite (rsum_ext diags _ (fun h => guard (Nat.ltb h diags) (guard (Nat.ltb (r + 2 * h) N) (y h)))) by (intros h Hh; unfold guard; destruct (Nat.ltb_spec h diags); [reflexivity|lia]).
    rewrite <- (rsum_more diags M); [|unfold M; lia|intros h Hh; unfold guard; destruct (Nat.ltb_spec h diags); [lia|reflexivity]].
    rewrite <- !rsum_add. apply rsum_ext. intros h Hh. destruct (Nat.ltb_spec (r + 2 * h) N) as [L|L].
    - assert (Hb : (r / 2 + h < diags + s * Nd)%nat) by (pose proof (Nat.div_mod r 2 ltac:(lia)); lia).
      pose proof (split_parts D s diags (r / 2) h Hs Hb (y h)) as P. fold Nd in P. unfold guard in *. lra.
    - cbn [guard]. unfold guard. repeat match goal with |- context [if ?b then 0 else 0] => destruct b end; ring.
  Qed.
  Lemma whole_T c (y : nat -> R) : (c < N)%nat ->
    rsum M (fun h => guard (Nat.leb (2 * h) c && farb D s diags (c / 2 - h) (c / 2)) (y h))
    + rsum M (fun h => guard (Nat.leb (2 * h) c && nearb s diags Nd ((c - 2 * h) / 2) h) (y h))
    + rsum diags (fun h => guard (Nat.leb (2 * h) c && Nat.ltb c N) (y h))
    = rsum (evens N) (fun h => guard (Nat.leb (2 * h) c && Nat.ltb c N) (y h)).
  Proof.
    intros Hc. pose proof (evens_pos N) as HE. rewrite <- (rsum_more (evens N) M); [|unfold M; lia|intros h Hh; unfold guard; destruct (Nat.leb_spec (2 * h) c); [lia|reflexivity]].
    rewrite (rsum_ext diags _ (fun h => guard (Nat.ltb h diags) (guard (Nat.leb (2 * h) c && Nat.ltb c N) (y h)))) by (intros h Hh; unfold guard; destruct (Nat.ltb_spec h diags); [reflexivity|lia]).
    rewrite <- (rsum_more diags M); [|unfold M; lia|intros h Hh; unfold guard; destruct (Nat.ltb_spec h diags); [lia|reflexivity]].
    rewrite <- !rsum_add. apply rsum_ext. intros h Hh. destruct (Nat.ltb_spec c N); [|lia]. rewrite andb_true_r. destruct (Nat.leb_spec (2 * h) c) as [L|L]; cbn [andb].
    - assert (E : ((c - 2 * h) / 2 = c / 2 - h)%nat).
      { pose proof (Nat.div_mod c 2 ltac:(lia)). pose proof (Nat.mod_upper_bound c 2 ltac:(lia)). symmetry. apply (Nat.div_unique _ 2 _ (c mod 2)); lia. }
      assert (Hh2 : (h <= c / 2)%nat) by (pose proof (Nat.div_mod c 2 ltac:(lia)); pose proof (Nat.mod_upper_bound c 2 ltac:(lia)); lia).
      assert (Hb : (c / 2 - h + h < diags + s * Nd)%nat) by (pose proof (Nat.div_mod c 2 ltac:(lia)); lia).
      rewrite E. pose proof (split_parts D s diags (c / 2 - h) h Hs Hb (y h)) as P. fold Nd in P. replace (c / 2 - h + h)%nat with (c / 2)%nat in P by lia. unfold guard in *. lra.
    - unfold guard. destruct (Nat.ltb h diags); ring.
  Qed.
  Lemma Leg2Cheb_fmm_val u i : (i < N)%nat -> Leg2Cheb_fmm N D s diags false u i = l2c_val N u i.
  Proof.
    intros Hi. unfold Leg2Cheb_fmm. cbv zeta. fold Nd.
    assert (E : forall r, (r < N)%nat -> direct1_on diags N false Lam u (direct2 (2 * s) Nd (2 * diags) N false Lam u (fmm_cheb N D s diags Mxy u)) r
      = rsum (evens N) (fun h => guard (Nat.ltb (r + 2 * h) N) (Lam h * Lam (h + r) * u (2 * h + r)%nat))).
    { intros r Hr. unfold direct1_on. rewrite (acc_loops diags 0 N (fun h i => Lam h * Lam (h + i) * u (2 * h + i)%nat)).
      rewrite (direct2_val N s diags Nd Lam u _ Hs M) by (unfold M; lia || exact Hr).
      rewrite (fmm_cheb_sum N D s diags Mxy u HD Hs (fun h r => Lam h * Lam (r + h)) (fun r h _ _ => Mxy_even r h) M) by (unfold M, Nd; lia || exact Hr).
      rewrite <- (whole r) by exact Hr. cbn [Nat.add]. f_equal. f_equal; apply rsum_ext; intros h Hh; unfold guard; rewrite (Nat.add_comm (2 * h) r), (Nat.add_comm h r); reflexivity. }
    unfold upd at 1, l2c_val, wt. pose proof PI_RGT_0. destruct (Nat.eqb_spec i 0) as [->|Hn]; rewrite scale_upto by lia; rewrite E by lia; field; lra.
  Qed.
  Lemma Leg2Cheb_fmm_T_val u i : (i < N)%nat -> Leg2Cheb_fmm N D s diags true u i = l2c_T_val N u i.
  Proof.
    intros Hi. unfold Leg2Cheb_fmm. cbv zeta. fold Nd. set (cv := upd _ _ _). unfold direct1_on.
    rewrite (acc_loops_T diags N (fun h i => Lam h * Lam (h + i) * cv i)).
    rewrite (direct2_T_val N s diags Nd Lam cv _ Hs M) by (unfold M; lia || exact Hi).
    rewrite (fmm_cheb_T_sum N D s diags Mxy cv HD Hs (fun h r => Lam h * Lam (r + h)) (fun r h _ _ => Mxy_even r h) M) by (unfold M, Nd; lia || exact Hi).
    unfold l2c_T_val. rewrite (rsum_ext (evens N) _ (fun h => guard (Nat.leb (2 * h) i && Nat.ltb i N) (Lam h * Lam (i - h) * cv (i - 2 * h)%nat))).
    - rewrite <- (whole_T i) by exact Hi. f_equal; [f_equal|]; apply rsum_ext; intros h Hh; unfold guard; destruct (Nat.leb_spec (2 * h) i); cbn [andb]; try reflexivity.
      + replace (i - 2 * h + h)%nat with (i - h)%nat by lia. reflexivity.
      + replace (h + (i - 2 * h))%nat with (i - h)%nat by lia. reflexivity.
    - intros h Hh. unfold guard. destruct (Nat.leb_spec (2 * h) i); cbn [andb]; [|reflexivity]. destruct (Nat.ltb_spec i N); [|reflexivity]. f_equal.
      unfold cv, upd at 1. unfold wt. pose proof PI_RGT_0. destruct (Nat.eqb_spec (i - 2 * h) 0) as [E0|E0]; [rewrite E0|]; rewrite scale_upto by lia; field; lra.
  Qed.
  Lemma Cheb2Leg_fmm_val v i : (1 <= diags)%nat -> (i < N)%nat -> Cheb2Leg_fmm N D s diags v i = c2l_val ((N - 1) / 2) N v i.
  Proof.
    intros Hd Hi. unfold Cheb2Leg_fmm. cbv zeta. fold Nd. rewrite fin_scale by exact Hi.
    assert (W : forall k, (k < N)%nat -> for_up (N - 1) 1 (fun i w => upd w i (w i * INR i)) v k = vnf v k).
    { intros k Hk. rewrite (for_up_pointwise (N - 1) 1 (fun k x => x * INR k)). unfold vnf. destruct (Nat.eqb_spec k 0) as [->|]; [reflexivity|].
      destruct (Nat.leb_spec 1 k); [|lia]. destruct (Nat.ltb_spec k (1 + (N - 1))); [reflexivity|lia]. }
    set (w := for_up (N - 1) 1 _ v) in *. unfold direct4. cbv zeta. rewrite (c2l_sub_val _ _ _ v) by exact W.
    rewrite (for_up_pointwise N 0 (fun k x => x + sqrt PI * c2l_a k * w k)). cbn [Nat.leb andb Nat.add]. destruct (Nat.ltb_spec i N); [|lia].
    rewrite (direct3_val N s diags Nd c2l_a w _ Hs M) by (unfold M; lia || exact Hi).
    rewrite (fmm_cheb_sum N D s diags Lxy w HD Hs (fun h r => - (c2l_dn h * c2l_a (r + h))) (fun r h _ H1 => Lxy_even r h H1) M) by (unfold M, Nd; lia || exact Hi).
    unfold c2l_val. f_equal. rewrite (W i Hi).
    set (y := fun h => if Nat.eqb h 0 then 0 else - (c2l_dn h * c2l_a (i + h) * vnf v (i + 2 * h))).
    pose proof (whole i y Hi) as X.
    (* the sums with y, whose term h = 0 is zero *)
    assert (Z : forall h b, (b = true -> (1 <= h)%nat) -> guard b (guard (Nat.ltb (i + 2 * h) N) (- (c2l_dn h * c2l_a (i + h)) * w (i + 2 * h)%nat)) = guard b (guard (Nat.ltb (i + 2 * h) N) (y h))).
    { intros h b Hb. unfold guard. destruct b; [|reflexivity]. specialize (Hb eq_refl). destruct (Nat.ltb_spec (i + 2 * h) N); [|reflexivity]. rewrite W by lia. unfold y. destruct (Nat.eqb_spec h 0); [lia|ring]. }
    rewrite (rsum_ext M (fun h => guard (farb D s diags (i / 2) (i / 2 + h)) _) (fun h => guard (farb D s diags (i / 2) (i / 2 + h)) (guard (Nat.ltb (i + 2 * h) N) (y h)))).
    2:{ intros h Hh. apply Z. intros Hb. apply (far_pos N D s diags Hs M ltac:(unfold M, Nd; lia)) in Hb; lia. }
    rewrite (rsum_ext M (fun h => guard (nearb s diags Nd (i / 2) h) _) (fun h => guard (nearb s diags Nd (i / 2) h) (guard (Nat.ltb (i + 2 * h) N) (y h)))).
    2:{ intros h Hh. rewrite <- Z.
        - unfold guard. destruct (nearb _ _ _ _ _); [|reflexivity]. destruct (Nat.ltb _ _); [ring|reflexivity].
        - intros Hb. unfold nearb in Hb. rewrite !andb_true_iff, Nat.leb_le in Hb. lia. }
    assert (S1 : forall n, rsum (S n) (fun h => guard (Nat.ltb (i + 2 * h) N) (y h))
       = - rsum n (fun h => guard (Nat.ltb (i + 2 * (1 + h)) N) (c2l_dn (1 + h) * c2l_a (1 + h + i) * vnf v (2 * (1 + h) + i)))).
    { intros n. rewrite rsum_first. rewrite (rsum_ext n (fun i0 => guard (Nat.ltb (i + 2 * S i0) N) (y (S i0))) (fun h => (-1) * guard (Nat.ltb (i + 2 * (1 + h)) N) (c2l_dn (1 + h) * c2l_a (1 + h + i) * vnf v (2 * (1 + h) + i)))).
      - rewrite rsum_scal. unfold guard at 1, y. cbn [Nat.eqb]. destruct (Nat.ltb (i + 2 * 0) N); ring.
      - intros h Hh. unfold guard. cbn [Nat.add]. destruct (Nat.ltb (i + 2 * S h) N); [|ring]. unfold y. cbn [Nat.eqb]. rewrite (Nat.add_comm i (S h)), (Nat.add_comm i (2 * S h)). cbn [Nat.add]. ring. }
    replace (rsum diags (fun h => guard (Nat.ltb (i + 2 * h) N) (y h))) with (rsum (S (diags - 1)) (fun h => guard (Nat.ltb (i + 2 * h) N) (y h))) in X by (f_equal; lia).
    pose proof (evens_pos N) as HE. assert (EE : evens N = S ((N - 1) / 2)).
    { unfold evens. replace (N + 1)%nat with (N - 1 + 1 * 2)%nat by lia. rewrite Nat.div_add by lia. lia. }
    replace (rsum (evens N) (fun h => guard (Nat.ltb (i + 2 * h) N) (y h))) with (rsum (S ((N - 1) / 2)) (fun h => guard (Nat.ltb (i + 2 * h) N) (y h))) in X by (rewrite EE; reflexivity).
    rewrite !S1 in X. fold Nd. cbn [Nat.add] in X |- *. lra.
  Qed.
End Whole.
Lemma padded_ok N diags Nd s Nn : (0 < Nd)%nat -> (diags < N / 2)%nat -> padded N diags Nd = (s, Nn) -> (0 < s /\ N <= Nn /\ Nn = 2 * (diags + s * Nd))%nat.
Proof.
  intros HN Hd. unfold padded. cbv zeta. pose proof (Nat.div_mod N 2 ltac:(lia)) as E. pose proof (Nat.mod_upper_bound N 2 ltac:(lia)) as B.
  pose proof (Nat.div_mod (N / 2 - diags) Nd ltac:(lia)) as E2. pose proof (Nat.mod_upper_bound (N / 2 - diags) Nd ltac:(lia)) as B2.
  set (m := (N / 2)%nat) in *. set (o := (N mod 2)%nat) in *. set (q := ((m - diags) / Nd)%nat) in *. set (t := ((m - diags) mod Nd)%nat) in *. clearbody m o q t.
  destruct (Nat.ltb_spec 0 t); destruct (Nat.eqb_spec o 1); cbn [orb]; intros X; apply pair_equal_spec in X; destruct X as (<- & <-); repeat split; nia.
Qed.
Lemma padded_py_ok N Nb s Nn : (0 < N)%nat -> padded_py N Nb = (s, Nn) -> (0 < s /\ N <= Nn /\ Nn = 2 * (s + s * Nb))%nat.
Proof.
  intros HN. unfold padded_py. intros X. apply pair_equal_spec in X. destruct X as (<- & <-). set (c := (2 * (1 + Nb))%nat).
  pose proof (Nat.div_mod (N + (c - 1)) c ltac:(lia)) as E. pose proof (Nat.mod_upper_bound (N + (c - 1)) c ltac:(lia)) as B.
  set (q := ((N + (c - 1)) / c)%nat) in *. clearbody q. unfold c in *. clear c. repeat split; nia.
Qed.
