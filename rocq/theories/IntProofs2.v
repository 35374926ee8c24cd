(** IntProofs2.v -- Fourier, Jacobi, Laguerre, several dimensions. *)
From Coq Require Import Reals Lra Lia List Arith Bool ZArith.
From Verif Require Import Base Fld Complex RPoly MatrixSpec MatrixProofs ChebTransModel ChebTransProofs ChebTransProofs3 StencilProofs StencilProofs8 FMatProofs IntModel IntSpec IntProofs.
Import ListNotations.
Local Open Scope R_scope.

(** ** Fourier *)
Lemma fst_fsum n (f : nat -> CFld) : fst (fsum n f : Cx) = rsum n (fun j => fst (f j : Cx)).
Proof. induction n as [|n IH]; [reflexivity|]. rewrite fsum_S, gsum_last, <- IH. reflexivity. Qed.
Lemma snd_fsum n (f : nat -> CFld) : snd (fsum n f : Cx) = rsum n (fun j => snd (f j : Cx)).
Proof. induction n as [|n IH]; [reflexivity|]. rewrite fsum_S, gsum_last, <- IH. reflexivity. Qed.
Lemma trig_sums N k : (k < N)%nat ->
  rsum N (fun j => cos (INR k * (2 * PI * INR j / INR N))) = (if Nat.eqb k 0 then INR N else 0) /\ rsum N (fun j => sin (INR k * (2 * PI * INR j / INR N))) = 0.
Proof.
  intros Hk. pose proof (E_sum N (Z.of_nat k) ltac:(lia)) as E0. rewrite Z.mod_small in E0 by lia. rewrite <- INR_IZR_INZ in E0.
  pose proof (f_equal fst E0) as A. pose proof (f_equal snd E0) as B. rewrite fst_fsum in A. rewrite snd_fsum in B. cbn [E fst snd] in A, B.
  unfold E in A, B. cbn [fst snd] in A, B. rewrite A, B.
  destruct (Nat.eqb_spec k 0), (Z.eqb_spec (Z.of_nat k) 0); try lia; rewrite ?C_nat; split; reflexivity.
Qed.
Lemma newton_trig k : newton (fun y => cos (INR k * y)) 0 (2 * PI) (if Nat.eqb k 0 then 2 * PI else 0) /\ newton (fun y => sin (INR k * y)) 0 (2 * PI) 0.
Proof.
  destruct (Nat.eqb_spec k 0) as [->|Hk]; split.
  - exists (fun y => y). split; [|ring]. intros y. cbn [INR]. rewrite Rmult_0_l, cos_0. apply derivable_pt_lim_id.
  - exists (fun _ => 0). split; [|ring]. intros y. cbn [INR]. rewrite Rmult_0_l, sin_0. apply derivable_pt_lim_const.
  - assert (H : INR k <> 0) by (apply not_0_INR; exact Hk). exists (fun y => / INR k * sin (INR k * y)). split.
    + intros y. replace (cos (INR k * y)) with (/ INR k * (INR k * cos (INR k * y))) by (field; exact H). apply (derivable_pt_lim_scal (fun y => sin (INR k * y))), dsin.
    + rewrite Rmult_0_r, sin_0. pose proof (period_sin (Z.of_nat k)) as P. rewrite <- INR_IZR_INZ in P. rewrite P. ring.
  - assert (H : INR k <> 0) by (apply not_0_INR; exact Hk). exists (fun y => - / INR k * cos (INR k * y)). split.
    + intros y. replace (sin (INR k * y)) with (- / INR k * - (INR k * sin (INR k * y))) by (field; exact H). apply (derivable_pt_lim_scal (fun y => cos (INR k * y))), dcos.
    + rewrite Rmult_0_r, cos_0. pose proof (period_cos (Z.of_nat k)) as P. rewrite <- INR_IZR_INZ in P. rewrite P. ring.
Qed.
Lemma trig_cont n al be a L : continuity (trig_poly n al be a L).
Proof.
  intros x. unfold trig_poly. induction n as [|n IH].
  - apply continuity_pt_const. intros u v. reflexivity.
  - cbn [gsum]. apply (continuity_pt_plus (fun x => rsum n (fun k => al k * cos (INR k * (2 * PI / L * (x - a))) + be k * sin (INR k * (2 * PI / L * (x - a)))))); [exact IH|].
    apply (continuity_pt_plus (fun x => al n * cos (INR n * (2 * PI / L * (x - a))))).
    + apply (continuity_pt_scal (fun x => cos (INR n * (2 * PI / L * (x - a))))).
      apply (continuity_pt_comp (fun x => INR n * (2 * PI / L * (x - a))) cos); [reg|apply continuity_cos].
    + apply (continuity_pt_scal (fun x => sin (INR n * (2 * PI / L * (x - a))))).
      apply (continuity_pt_comp (fun x => INR n * (2 * PI / L * (x - a))) sin); [reg|apply continuity_sin].
Qed.
Lemma fourier_exact N n al be a L : (0 < n)%nat -> (n <= N)%nat -> 0 < L ->
  integral (trig_poly n al be a L) a (a + L) (/ domain_factor L (2 * PI) * rsum N (fun j => fourier_unweighted N * trig_poly n al be a L (map_true a 0 (domain_factor L (2 * PI)) (2 * PI * INR j / INR N)))).
Proof.
  intros Hn HN HL. pose proof PI_RGT_0 as HP. unfold Rgt in HP. assert (H0 : 0 < INR N) by (apply lt_0_INR; lia).
  apply newton_integral; [lra|apply trig_cont|]. unfold domain_factor, map_true, fourier_unweighted.
  replace (/ (2 * PI / L)) with (L / (2 * PI)) by (field; lra).
  set (s := L / (2 * PI)). assert (Hs : s <> 0) by (unfold s; apply Rgt_not_eq; apply Rdiv_lt_0_compat; lra).
  match goal with |- newton ?f a (a + L) ?v => enough (X : newton f (s * 0 + a) (s * (2 * PI) + a) v);
    [replace (s * 0 + a) with a in X by ring; replace (s * (2 * PI) + a) with (a + L) in X by (unfold s; field; lra); exact X|] end.
  apply newton_affine; [exact Hs|].
  assert (TE : forall y, trig_poly n al be a L (s * y + a) = rsum n (fun k => al k * cos (INR k * y) + be k * sin (INR k * y))).
  { intros y. unfold trig_poly. apply gsum_ext_R. intros k _. replace (2 * PI / L * (s * y + a - a)) with y by (unfold s; field; lra). reflexivity. }
  rewrite (gsum_ext_R N _ (fun j => 2 * PI / INR N * rsum n (fun k => al k * cos (INR k * (2 * PI * INR j / INR N)) + be k * sin (INR k * (2 * PI * INR j / INR N))))).
  2:{ intros j _. rewrite <- TE. do 2 f_equal. unfold s. field. lra. }
  apply newton_ext with (f := fun y => rsum n (fun k => al k * cos (INR k * y) + be k * sin (INR k * y))); [intros; rewrite TE; reflexivity|].
  rewrite gsum_scal. clear Hn TE. induction n as [|n IH].
  - replace (2 * PI / INR N * _) with 0; [apply newton_0|]. rewrite (gsum_ext_R N _ (fun _ => 0)) by reflexivity. rewrite gsum_zero by (intros; reflexivity). ring.
  - replace (2 * PI / INR N * rsum N (fun j => rsum (S n) (fun k => al k * cos (INR k * (2 * PI * INR j / INR N)) + be k * sin (INR k * (2 * PI * INR j / INR N))))) with
      (2 * PI / INR N * rsum N (fun j => rsum n (fun k => al k * cos (INR k * (2 * PI * INR j / INR N)) + be k * sin (INR k * (2 * PI * INR j / INR N))))
        + (al n * (if Nat.eqb n 0 then 2 * PI else 0) + be n * 0)).
    + cbn [gsum]. apply (newton_add (fun y => rsum n (fun k => al k * cos (INR k * y) + be k * sin (INR k * y)))); [apply IH; lia|].
      apply (newton_add (fun y => al n * cos (INR n * y))); apply newton_scal; apply newton_trig.
    + cbn [gsum].
      rewrite gsum_add, gsum_add, !gsum_scal. destruct (trig_sums N n ltac:(lia)) as [-> ->]. destruct (Nat.eqb n 0); field; lra.
Qed.
(** ** Jacobi *)
Lemma integrate_pprim p : poly_integrate p = pprim p.
Proof. reflexivity. Qed.
Lemma fi_pint P i : P 0%nat = [1] -> jacobi_fi P i = pint (P i).
Proof.
  intros H. unfold jacobi_fi, pint. rewrite integrate_pprim. destruct (Nat.eqb_spec i 0) as [->|]; [|reflexivity]. rewrite H. cbn. field.
Qed.
Lemma jacobi_exact_fun (P : nat -> poly) h x w n N (c : nat -> R) a b :
  P 0%nat = [1] -> (forall k, (k < N)%nat -> h k <> 0) ->
  (forall k l, (k < N)%nat -> (l < N)%nat -> rsum n (fun j => w j * (peval (P k) (x j) * peval (P l) (x j))) = if Nat.eqb k l then h k else 0) -> a < b ->
  integral (fun X => rsum N (fun k => c k * peval (P k) (2 / (b - a) * (X - a) - 1))) a b
    (/ domain_factor (b - a) 2 * rsum n (fun j => jacobi_unweighted P h x w N j * rsum N (fun k => c k * peval (P k) (x j)))).
Proof.
  intros P0 Hh O Hab. apply newton_integral; [lra| |].
  { intros X. apply derivable_continuous_pt. clear. induction N as [|N IH].
    - cbn [gsum]. apply derivable_pt_const.
    - cbn [gsum]. apply (derivable_pt_plus (fun X => rsum N (fun k => c k * peval (P k) (2 / (b - a) * (X - a) - 1)))); [exact IH|].
      apply (derivable_pt_scal (fun X => peval (P N) (2 / (b - a) * (X - a) - 1))).
      apply (derivable_pt_comp (fun X => 2 / (b - a) * (X - a) - 1) (peval (P N))); [reg|]. exists (peval (pderiv (P N)) (2 / (b - a) * (X - a) - 1)). apply pderiv_correct. }
  unfold domain_factor. replace (/ (2 / (b - a))) with ((b - a) / 2) by (field; lra).
  set (al := (b - a) / 2). set (be := (b + a) / 2). assert (Hal : al <> 0) by (unfold al; lra).
  match goal with |- newton ?f a b ?v => enough (X : newton f (al * (-1) + be) (al * 1 + be) v);
    [replace (al * (-1) + be) with a in X by (unfold al, be; field); replace (al * 1 + be) with b in X by (unfold al, be; field); exact X|] end.
  apply newton_affine; [exact Hal|].
  apply newton_ext with (f := fun y => rsum N (fun k => c k * peval (P k) y)).
  { intros y. apply gsum_ext_R. intros k _. do 2 f_equal. unfold al, be. field. lra. }
  assert (G : forall r, (r <= N)%nat -> newton (fun y => rsum r (fun k => c k * peval (P k) y)) (-1) 1 (rsum n (fun j => jacobi_unweighted P h x w N j * rsum r (fun k => c k * peval (P k) (x j))))).
  { induction r as [|r IH]; intros Hr.
    - replace (rsum n _) with 0 by (symmetry; apply gsum_zero; intros; cbn; ring). apply newton_0.
    - replace (rsum n (fun j => jacobi_unweighted P h x w N j * rsum (S r) (fun l => c l * peval (P l) (x j)))) with
        (rsum n (fun j => jacobi_unweighted P h x w N j * rsum r (fun l => c l * peval (P l) (x j))) + c r * pint (P r)).
      + apply (newton_add (fun y => rsum r (fun l => c l * peval (P l) y)) (fun y => c r * peval (P r) y)); [apply IH; lia|]. apply newton_scal, pint_newton.
      + rewrite <- (fi_pint P r P0). rewrite <- (interp_weights (fun k => peval (P k)) x w h (jacobi_fi P) n N r O Hh ltac:(lia)).
        rewrite <- gsum_scal, <- gsum_add. apply gsum_ext_R. intros j _. rewrite gsum_last. unfold jacobi_unweighted. ring. }
  apply G. lia.
Qed.
(** ** several dimensions *)
Lemma msum_ext axes u v : (forall t, u t = v t) -> msum axes u = msum axes v.
Proof. revert u v. induction axes as [|[n w] r IH]; intros u v H; cbn [msum]; [apply H|]. apply gsum_ext_R. intros i _. f_equal. apply IH. intros t. apply H. Qed.
Lemma msum_sum axes n (u : nat -> list nat -> R) : msum axes (fun t => rsum n (fun i => u i t)) = rsum n (fun i => msum axes (u i)).
Proof.
  revert u. induction axes as [|[k w] r IH]; intros u; cbn [msum]; [reflexivity|].
  rewrite gsum_swap. apply gsum_ext_R. intros j _. rewrite gsum_scal. f_equal. apply IH.
Qed.
Lemma msum_scal axes c u : msum axes (fun t => c * u t) = c * msum axes u.
Proof.
  revert u. induction axes as [|[k w] r IH]; intros u; cbn [msum]; [reflexivity|].
  rewrite <- gsum_scal. apply gsum_ext_R. intros j _. rewrite IH. ring.
Qed.
Lemma set_nth_app p i z0 t : set_nth (length p) i (p ++ z0 :: t) = p ++ i :: t.
Proof. induction p as [|a p IH]; cbn; [reflexivity|]. rewrite IH. reflexivity. Qed.
Lemma msum_ext_len axes u v : (forall t, length t = length axes -> u t = v t) -> msum axes u = msum axes v.
Proof.
  revert u v. induction axes as [|[n w] r IH]; intros u v H; cbn [msum]; [apply H; reflexivity|]. apply gsum_ext_R. intros i _. f_equal. apply IH.
  intros t Ht. apply H. cbn. rewrite Ht. reflexivity.
Qed.
Lemma dx_loop_msum axes : forall p z u, length z = length axes -> dx_loop (length p) axes u (p ++ z) = msum axes (fun t => u (p ++ t)).
Proof.
  induction axes as [|[n w] r IH]; intros p z u Hz; cbn [dx_loop msum].
  - destruct z; [reflexivity|discriminate].
  - destruct z as [|z0 z]; [discriminate|]. injection Hz as Hz.
    replace (S (length p)) with (length (p ++ [z0])) by (rewrite app_length; cbn; lia). replace (p ++ z0 :: z) with ((p ++ [z0]) ++ z) by (rewrite <- app_assoc; reflexivity).
    rewrite IH by exact Hz. rewrite (msum_ext r _ (fun t => rsum n (fun i => w i * u (p ++ i :: t)))).
    + rewrite (msum_sum r n (fun i t => w i * u (p ++ i :: t))). apply gsum_ext_R. intros i _. rewrite msum_scal. reflexivity.
    + intros t. unfold dx_axis. apply gsum_ext_R. intros i _. rewrite <- app_assoc. cbn [app]. rewrite set_nth_app. ring.
Qed.
(** functions that are sums of products *)
Fixpoint tprod (ax : nat) (xs : list (nat -> R)) (f : nat -> R -> R) (idx : list nat) : R :=
  match xs, idx with x :: xs, i :: idx => f ax (x i) * tprod (S ax) xs f idx | _, _ => 1 end.
Fixpoint vprod (ax n : nat) (v : nat -> R) : R := match n with O => 1 | S n => v ax * vprod (S ax) n v end.
Lemma msum_tprod axes : forall ax xs f s, length xs = length axes ->
  (forall a n w x, nth_error axes a = Some (n, w) -> nth_error xs a = Some x -> rsum n (fun i => w i * f (ax + a)%nat (x i)) = s (ax + a)%nat) ->
  msum axes (tprod ax xs f) = vprod ax (length axes) s.
Proof.
  induction axes as [|[n w] r IH]; intros ax xs f s Hl H; cbn [msum length vprod].
  - destruct xs; [reflexivity|discriminate].
  - destruct xs as [|x xs]; [discriminate|]. injection Hl as Hl.
    rewrite (gsum_ext_R n _ (fun i => vprod (S ax) (length r) s * (w i * f ax (x i)))).
    + rewrite gsum_scal. specialize (H 0%nat n w x eq_refl eq_refl). rewrite Nat.add_0_r in H. rewrite H. ring.
    + intros i _. rewrite (msum_ext r _ (fun t => f ax (x i) * tprod (S ax) xs f t)) by reflexivity. rewrite msum_scal.
      rewrite (IH (S ax) xs f s Hl); [ring|]. intros a n' w' x' Ha Hx. specialize (H (S a) n' w' x' Ha Hx). replace (S ax + a)%nat with (ax + S a)%nat by lia. exact H.
Qed.
(** ** Laguerre *)
Lemma newton_exp b : newton (fun x => exp (- x)) 0 b (1 - exp (- b)).
Proof.
  exists (fun x => - exp (- x)). split; [|rewrite Ropp_0, exp_0; ring]. intros x.
  replace (exp (- x)) with (- (exp (- x) * - (1))) by ring. apply (derivable_pt_lim_opp (fun x => exp (- x))).
  apply (derivable_pt_lim_comp (fun x => - x) exp); [apply (derivable_pt_lim_opp (fun x => x)), derivable_pt_lim_id|apply derivable_pt_lim_exp].
Qed.
Lemma improper_exp : improper (fun x => exp (- x)) 1.
Proof.
  intros eps He. exists (Rmax 0 (1 - ln eps)). intros b Hb. pose proof (Rmax_l 0 (1 - ln eps)). pose proof (Rmax_r 0 (1 - ln eps)).
  exists (1 - exp (- b)). split.
  - apply newton_integral; [lra| |apply newton_exp]. intros x. apply (continuity_pt_comp (fun x => - x) exp); [reg|apply derivable_continuous, derivable_exp].
  - replace (1 - exp (- b) - 1) with (- exp (- b)) by ring. rewrite Rabs_Ropp, Rabs_right by (apply Rle_ge, Rlt_le, exp_pos).
    rewrite <- (exp_ln eps He). apply exp_increasing. lra.
Qed.
Lemma rsum_le_lt n f g : (0 < n)%nat -> (forall j, (j < n)%nat -> f j < g j) -> rsum n f < rsum n g.
Proof.
  intros Hn H. induction n as [|n IH]; [lia|]. cbn [gsum]. pose proof (H n ltac:(lia)). destruct n as [|n]; [cbn; lra|].
  specialize (IH ltac:(lia) ltac:(intros; apply H; lia)). lra.
Qed.
