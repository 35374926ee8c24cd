(** HelmholtzProofs4.v -- the solvers applied to the Dirichlet and Neumann matrices. *)
From Coq Require Import Reals ZArith List Arith Bool Lia Lra.
From Verif Require Import Base Fld SparseModel SparseSpec SparseProofs RPoly StencilModel StencilModel2 LegMatrixModel LegMatrixProofs5 LegMatrixProofs6
  ChebMatrixModel ChebMatrixProofs2 HelmholtzModel HelmholtzSpec HelmholtzProofs HelmholtzProofs2 HelmholtzProofs3.
Import ListNotations.
Local Open Scope R_scope.

Lemma brow_lin a b l1 d1 u1 f1 l2 d2 u2 f2 k j :
  a * brow l1 d1 u1 f1 k j + b * brow l2 d2 u2 f2 k j
  = brow (a * l1 + b * l2) (a * d1 + b * d2) (a * u1 + b * u2) (a * f1 + b * f2) k j.
Proof.
  unfold brow. destruct (Nat.eqb j k); [ring|]. destruct (Nat.eqb j (k + 2)); [ring|].
  destruct (Nat.leb (k + 4) j && Nat.even (j - k))%bool; [ring|]. destruct (Nat.eqb (j + 2) k); ring.
Qed.
Lemma brow_eq l1 d1 u1 f1 l2 d2 u2 f2 k j :
  ((2 <= k)%nat -> l1 = l2) -> d1 = d2 -> u1 = u2 -> f1 = f2 -> brow l1 d1 u1 f1 k j = brow l2 d2 u2 f2 k j.
Proof.
  intros Hl -> -> ->. unfold brow. destruct (Nat.eqb j k); [reflexivity|]. destruct (Nat.eqb j (k + 2)); [reflexivity|].
  destruct (Nat.leb (k + 4) j && Nat.even (j - k))%bool; [reflexivity|].
  destruct (Nat.eqb_spec (j + 2) k); [apply Hl; lia|reflexivity].
Qed.

Lemma smul_entry A s k j : mat_entry RFld (smul RFld A s) k j = s * mat_entry RFld A k j.
Proof.
  unfold mat_entry, smul. cbn [sm_items sm_scale].
  destruct (lookup RFld (sm_items RFld A) (Z.of_nat j - Z.of_nat k)); rn; ring.
Qed.
Lemma smul_key A s z : key (smul RFld A s) z = key A z.
Proof. reflexivity. Qed.

Lemma zin a b z : (a <= z < b)%Z -> Z.even (z - a) = true -> In z (zarange a b).
Proof. intros. apply in_zarange. auto. Qed.
Lemma znotin a b z : (b <= z)%Z -> ~ In z (zarange a b).
Proof. intros H E. apply in_zarange in E. lia. Qed.

(** ** Poisson, Dirichlet *)
Section Poisson.
  Variables (N : nat) (c s : R).
  Let A := smul RFld (scaled c (c_ASDSD N)) s.

  Lemma A_scale : sm_scale RFld A = s.
  Proof. unfold A, smul, scaled, c_ASDSD, dmat. cbn [sm_scale]. rn. ring. Qed.
  Lemma A_rows : sm_rows RFld A = (N - 2)%nat.
  Proof. reflexivity. Qed.
  Definition ad i := -2 * PI * (INR i + 1) * (INR i + 2) * c.
  Definition ad1 i := -4 * PI * (INR i + 1) * c.
  Lemma A_key0 : (3 <= N)%nat -> key A 0 = Some ad.
  Proof. intros H. unfold A. rewrite smul_key. unfold c_ASDSD. rewrite key_fromkeys by (apply zin; [lia|reflexivity]). reflexivity. Qed.
  Lemma A_key2 : (5 <= N)%nat -> key A 2 = Some ad1.
  Proof. intros H. unfold A. rewrite smul_key. unfold c_ASDSD. rewrite key_fromkeys by (apply zin; [lia|reflexivity]). reflexivity. Qed.
  Lemma A_entry k j : (k < N - 2)%nat -> (j < N - 2)%nat ->
    mat_entry RFld A k j = s * brow 0 (ad k) (ad1 k) (ad1 k) k j.
  Proof.
    intros Hk Hj. unfold A. rewrite smul_entry, scaled_entry, ASDSD_row by assumption. f_equal.
    unfold brow, ad, ad1. destruct (Nat.eqb j k); [ring|]. destruct (Nat.eqb j (k + 2)); [ring|].
    destruct (Nat.leb (k + 4) j && Nat.even (j - k))%bool; [ring|]. destruct (Nat.eqb (j + 2) k); ring.
  Qed.
  Lemma row_two M di up k u : (k < M)%nat ->
    rsum M (fun j => brow 0 di up up k j * u j) = di * u k + up * tail M (k + 2) u.
  Proof.
    intros Hk. rewrite brow_sum by exact Hk.
    destruct (Nat.ltb_spec (k + 2) M).
    - rewrite (tail_step M (k + 2)) by lia. replace (k + 2 + 2)%nat with (k + 4)%nat by lia.
      destruct (Nat.leb 2 k); ring.
    - rewrite !tail_ge by lia. destruct (Nat.leb 2 k); ring.
  Qed.
  Lemma ad_neq k : c <> 0 -> ad k <> 0.
  Proof.
    intros Hc. unfold ad. pose proof (pos_INR k). pose proof PI_RGT_0.
    repeat (apply Rmult_integral_contrapositive_currified; try lra).
  Qed.

  Lemma poisson_ok (opt alias : bool) b :
    (5 <= N)%nat -> c <> 0 -> s <> 0 -> (opt = true -> s = 1 \/ Rabs (s - 1) >= 1 / 10 ^ 8) ->
    exists u, add_solver opt alias N A b = Some u /\ solves (N - 2) (mat_entry RFld A) b u.
  Proof.
    intros HN Hc Hs Ho. unfold add_solver. rewrite A_key0, A_key2 by lia. rewrite A_scale, A_rows.
    eexists. split; [reflexivity|]. intros k Hk.
    destruct (add_subst_spec alias (N - 2) ad ad1 b b ltac:(lia) ltac:(reflexivity) ltac:(intros; apply ad_neq; exact Hc)) as (Hr & _).
    set (w := add_subst alias (N - 2) ad ad1 b b) in *.
    set (u := if opt then _ else _).
    assert (Hu : forall j, (j < N - 2)%nat -> s * u j = w j).
    { intros j Hj. unfold u. destruct opt.
      - unfold poisson_solve_ADD_1D. fold w. unfold small8. destruct (Rlt_dec (Rabs (s - 1)) (1 / 10 ^ 8)) as [E|E].
        + destruct (Ho eq_refl) as [-> | E']; [ring|lra].
        + rewrite (for_up_pointwise (N - 2) 0 (fun _ x => x / s)). cbn [Nat.leb andb].
          replace (Nat.ltb j (0 + (N - 2))) with true by (symmetry; apply Nat.ltb_lt; lia). field. exact Hs.
      - unfold poisson_solve_ADD_py. fold w.
        rewrite (for_up_pointwise N 0 (fun _ x => x / s)). cbn [Nat.leb andb].
        replace (Nat.ltb j (0 + N)) with true by (symmetry; apply Nat.ltb_lt; lia). field. exact Hs. }
    unfold row_solved.
    rewrite (rsum_ext _ _ (fun j => brow 0 (ad k) (ad1 k) (ad1 k) k j * w j)).
    - rewrite row_two by exact Hk. apply Hr. exact Hk.
    - intros j Hj. cbv beta. rewrite A_entry by assumption. rewrite <- (Hu j Hj). ring.
  Qed.

  Lemma poisson_small (opt alias : bool) b : (N <= 4)%nat -> add_solver opt alias N A b = None.
  Proof.
    intros HN. unfold add_solver. assert (E : key A 2 = None).
    { unfold A. rewrite smul_key. unfold c_ASDSD. apply key_fromkeys_none. apply znotin. lia. }
    rewrite E. destruct (key A 0); reflexivity.
  Qed.
End Poisson.

Lemma tail_sub M a u w : tail M a (fun j => u j - w j) = tail M a u - tail M a w.
Proof.
  unfold tail. induction M as [|M IH]; cbn [gsum]; [ring|]. rewrite IH.
  destruct (Nat.leb a M && Nat.even (M - a))%bool; ring.
Qed.

(** ** Poisson, Neumann *)
Lemma for_down_first {S} n (f : nat -> S -> S) s : for_down (Datatypes.S n) f s = f 0%nat (for_down n (fun k => f (k + 1)%nat) s).
Proof.
  revert s. induction n as [|n IH]; intros s; [reflexivity|].
  change (for_down (Datatypes.S (Datatypes.S n)) f s) with (for_down (Datatypes.S n) f (f (Datatypes.S n) s)).
  rewrite IH. cbn [for_down]. replace (n + 1)%nat with (Datatypes.S n) by lia. reflexivity.
Qed.
Lemma for_down_ext {S} n (f g : nat -> S -> S) s : (forall i s, (i < n)%nat -> f i s = g i s) -> for_down n f s = for_down n g s.
Proof.
  revert s. induction n as [|n IH]; intros s H; [reflexivity|]. cbn [for_down]. rewrite H by lia. apply IH. intros; apply H; lia.
Qed.

Lemma ann_subst_spec alias M d d1 b u :
  (3 <= M)%nat -> (alias = true -> forall k, u k = b k) ->
  (forall k, (1 <= k < M)%nat -> d k <> 0) ->
  let u1 := upd u (M - 1) (rd alias b u (M - 1)%nat / d (M - 1)%nat) in
  let u2 := upd u1 (M - 2) (rd alias b u1 (M - 2)%nat / d (M - 2)%nat) in
  let r := fst (fst (for_down (M - 3) (ann_step alias d d1 b) (u2, 0, 0))) in
  forall k, (1 <= k < M)%nat -> d k * r k + d1 k * tail M (k + 2) r = b k.
Proof.
  intros HM Ha Hd u1 u2 r k Hk.
  set (d' := upd d 0 1).
  assert (Hd' : forall k, (k < M)%nat -> d' k <> 0).
  { intros i Hi. unfold d'. destruct (Nat.eq_dec i 0) as [->|]; [rewrite upd_same; lra|]. rewrite upd_other by assumption. apply Hd. lia. }
  destruct (add_subst_spec alias M d' d1 b u ltac:(lia) Ha Hd') as (Hr & _).
  unfold add_subst in Hr.
  assert (E1 : d' (M - 1)%nat = d (M - 1)%nat) by (unfold d'; apply upd_other; lia).
  assert (E2 : d' (M - 2)%nat = d (M - 2)%nat) by (unfold d'; apply upd_other; lia).
  rewrite E1, E2 in Hr. fold u1 in Hr. fold u2 in Hr.
  assert (E3 : for_down (M - 2) (add_step alias d' d1 b) (u2, 0, 0)
               = add_step alias d' d1 b 0 (for_down (M - 3) (ann_step alias d d1 b) (u2, 0, 0))).
  { replace (M - 2)%nat with (S (M - 3)) at 1 by lia. rewrite for_down_first. f_equal.
    apply for_down_ext. intros i [[w se] so] Hi. unfold ann_step, add_step, d'. rewrite (upd_other d 0 1 (i + 1)) by lia. reflexivity. }
  rewrite E3 in Hr.
  unfold r. destruct (for_down (M - 3) (ann_step alias d d1 b) (u2, 0, 0)) as [[w se] so]. cbn [fst].
  specialize (Hr k ltac:(lia)).
  unfold add_step in Hr. cbn [Nat.even] in Hr. cbv zeta in Hr.
  match type of Hr with context [upd (upd w 0 ?x) 0 ?y] => set (w' := upd (upd w 0 x) 0 y) in Hr end.
  assert (Hw : forall j, j <> 0%nat -> w' j = w j) by (intros j Hj; unfold w'; rewrite !upd_other by assumption; reflexivity).
  rewrite <- Hr. unfold d'. rewrite upd_other by lia. rewrite Hw by lia.
  rewrite (tail_ext M (k + 2) w' w) by (intros; apply Hw; lia). reflexivity.
Qed.

(** uniqueness of the components 1, 2, ... *)
Lemma back_unique M (d d1 x : nat -> R) :
  (forall k, (1 <= k < M)%nat -> d k <> 0) ->
  (forall k, (1 <= k < M)%nat -> d k * x k + d1 k * tail M (k + 2) x = 0) ->
  forall k, (1 <= k < M)%nat -> x k = 0.
Proof.
  intros Hd H. assert (G : forall n k, (M - k <= n)%nat -> (1 <= k < M)%nat -> x k = 0).
  { induction n as [|n IH]; intros k Hn Hk; [lia|].
    assert (E : tail M (k + 2) x = 0).
    { apply rsum_zero. intros j Hj. destruct (Nat.leb_spec (k + 2) j); cbn [andb]; [|reflexivity].
      rewrite IH by lia. destruct (Nat.even (j - (k + 2))); reflexivity. }
    pose proof (H k Hk) as Hk'. rewrite E in Hk'. rewrite Rmult_0_r, Rplus_0_r in Hk'.
    apply Rmult_integral in Hk'. destruct Hk' as [E'|E']; [|exact E']. exfalso. exact (Hd k Hk E'). }
  intros k Hk. apply (G M); lia.
Qed.

Section Neumann.
  Variables (N : nat) (c s : R).
  Let A := smul RFld (scaled c (c_ASNSN N)) s.
  Definition nd i := -2 * PI * (INR i + 1) / (INR i + 2) * c.
  Definition nd1 i := -4 * PI * (INR i + 1) / (INR i + 2) ^ 2 * c.
  Lemma An_scale : sm_scale RFld A = s.
  Proof. unfold A, smul, scaled, c_ASNSN, dmat. cbn [sm_scale]. rn. ring. Qed.
  Lemma An_key z : (0 <= z < Z.of_nat N - 2)%Z -> Z.even z = true ->
    key A z = Some (fun i => if Z.eqb z 0 then -2 * PI * INR i ^ 2 * (INR i + 1) / (INR i + 2) * c
                             else -4 * PI * (INR i + INR (Z.to_nat z)) ^ 2 * (INR i + 1) / (INR i + 2) ^ 2 * c).
  Proof.
    intros Hz Ez. unfold A. rewrite smul_key. unfold c_ASNSN.
    rewrite key_fromkeys by (apply zin; [lia|rewrite Z.sub_0_r; exact Ez]).
    destruct (Z.eqb z 0); reflexivity.
  Qed.
  Lemma An_entry k j : (k < N - 2)%nat -> (j < N - 2)%nat ->
    mat_entry RFld A k j = s * (brow 0 (nd k) (nd1 k) (nd1 k) k j * INR j ^ 2).
  Proof.
    intros Hk Hj. unfold A. rewrite smul_entry, scaled_entry, ASNSN_row by assumption. f_equal. rewrite <- Rmult_assoc. f_equal.
    pose proof (pos_INR k).
    unfold brow, nd, nd1. destruct (Nat.eqb j k); [field; lra|]. destruct (Nat.eqb j (k + 2)); [field; lra|].
    destruct (Nat.leb (k + 4) j && Nat.even (j - k))%bool; [field; lra|]. destruct (Nat.eqb (j + 2) k); ring.
  Qed.
  Lemma nd_neq k : c <> 0 -> nd k <> 0.
  Proof.
    intros Hc. unfold nd. pose proof (pos_INR k). pose proof PI_RGT_0.
    apply Rmult_integral_contrapositive_currified; [|exact Hc]. unfold Rdiv.
    repeat (apply Rmult_integral_contrapositive_currified; try lra). apply Rinv_neq_0_compat. lra.
  Qed.

  Lemma sq_neq j : (1 <= j)%nat -> INR j ^ 2 <> 0.
  Proof. intros H. apply pow_nonzero. apply not_0_INR. lia. Qed.
  Lemma ann_j2_sq j : (1 <= j)%nat -> ann_j2 j = / INR j ^ 2.
  Proof.
    intros H. unfold ann_j2. destruct (Nat.eqb_spec j 0); [lia|]. rewrite pow_INR. unfold Rdiv. ring.
  Qed.
  Lemma ann_j2_mul j : (1 <= j)%nat -> INR j ^ 2 * ann_j2 j = 1.
  Proof. intros H. rewrite ann_j2_sq by exact H. field. apply not_0_INR. lia. Qed.

  (** a row of the matrix as a combination of the components j^2 u_j *)
  Lemma An_row u k : (k < N - 2)%nat ->
    rsum (N - 2) (fun j => mat_entry RFld A k j * u j)
    = s * (nd k * (INR k ^ 2 * u k) + nd1 k * tail (N - 2) (k + 2) (fun j => INR j ^ 2 * u j)).
  Proof.
    intros Hk. rewrite <- (row_two (N - 2) (nd k) (nd1 k) k (fun j => INR j ^ 2 * u j)) by exact Hk.
    rewrite <- rsum_scal. apply rsum_ext. intros j Hj. rewrite An_entry by assumption. ring.
  Qed.

  (** the components 1, 2, ... of any solution of rows 1, 2, ... determine row 0 *)
  Lemma singular_row0 f u : (3 <= N)%nat -> c <> 0 -> s <> 0 ->
    (forall k, (1 <= k < N - 2)%nat -> row_solved (N - 2) (mat_entry RFld A) f u k) ->
    (exists w, solves (N - 2) (mat_entry RFld A) f w) -> solves (N - 2) (mat_entry RFld A) f u.
  Proof.
    intros HN Hc Hs Hu [w Hw].
    assert (Hx : forall k, (1 <= k < N - 2)%nat -> INR k ^ 2 * u k - INR k ^ 2 * w k = 0).
    { apply (back_unique (N - 2) nd nd1); [intros; apply nd_neq; exact Hc|].
      intros k Hk. pose proof (Hu k Hk) as H1. pose proof (Hw k ltac:(lia)) as H2.
      unfold row_solved in H1, H2. rewrite An_row in H1, H2 by lia.
      assert (E : tail (N - 2) (k + 2) (fun j => INR j ^ 2 * u j - INR j ^ 2 * w j)
                  = tail (N - 2) (k + 2) (fun j => INR j ^ 2 * u j) - tail (N - 2) (k + 2) (fun j => INR j ^ 2 * w j)).
      { apply (tail_sub (N - 2) (k + 2) (fun j => INR j ^ 2 * u j) (fun j => INR j ^ 2 * w j)). }
      rewrite E. apply (Rmult_eq_reg_l s); [|exact Hs]. rewrite <- H2 in H1. lra. }
    intros k Hk. destruct (Nat.eq_dec k 0) as [->|Hne]; [|apply Hu; lia].
    unfold row_solved. rewrite <- (Hw 0%nat ltac:(lia)). rewrite !An_row by lia. f_equal. f_equal.
    - cbn [INR]. ring.
    - f_equal. apply tail_ext. intros j Hj. pose proof (Hx j ltac:(lia)). lra.
  Qed.

  Lemma ann_ok alias b u0 : (5 <= N)%nat -> c <> 0 -> s <> 0 -> (alias = true -> forall k, u0 k = b k) ->
    exists u, ann_solver alias N A [(0%nat, 0)] b u0 = Some u /\ solves_singular (N - 2) (mat_entry RFld A) b u.
  Proof.
    intros HN Hc Hs Ha. unfold ann_solver.
    rewrite (An_key 0), (An_key 2) by (try lia; reflexivity). cbn [Z.eqb]. rewrite An_scale.
    change (sm_rows RFld A) with (N - 2)%nat. eexists. split; [reflexivity|].
    match goal with |- context [ann_core _ _ _ ?x ?y _ _ _ _] => set (d := x); set (d1 := y) end.
    assert (Ed : forall k, (1 <= k)%nat -> d k = nd k).
    { intros k Hk. unfold d, nd. rewrite ann_j2_sq by exact Hk. pose proof (pos_INR k). field. repeat split; try lra; apply not_0_INR; lia. }
    assert (Ed1 : forall k, d1 k = nd1 k).
    { intros k. unfold d1, nd1. rewrite ann_j2_sq by lia. rewrite plus_INR. pose proof (pos_INR k).
      change (INR 2) with 2. change (INR (Z.to_nat 2)) with 2. field. lra. }
    pose proof (ann_subst_spec alias (N - 2) d d1 b u0 ltac:(lia) Ha) as Hr.
    specialize (Hr ltac:(intros k Hk; rewrite Ed by lia; apply nd_neq; exact Hc)).
    cbv zeta in Hr. unfold ann_core. cbv zeta.
    match goal with |- context [for_down _ _ (?x, 0, 0)] => set (u2 := x) in * end.
    destruct (for_down (N - 2 - 3) (ann_step alias d d1 b) (u2, 0, 0)) as [[w se] so]. cbn [fst] in Hr.
    cbn [fold_left fst snd].
    match goal with |- solves_singular _ _ _ ?x => set (u := x) end.
    assert (Hu : forall j, (1 <= j < N - 2)%nat -> s * (INR j ^ 2 * u j) = w j).
    { intros j Hj. unfold u. rewrite upd_other by lia.
      rewrite (for_up_pointwise N 0 (fun _ x => x / s)). cbn [Nat.leb andb].
      replace (Nat.ltb j (0 + N)) with true by (symmetry; apply Nat.ltb_lt; lia).
      rewrite (for_up_pointwise (N - 2) 0 (fun k x => x * ann_j2 k)). cbn [Nat.leb andb].
      replace (Nat.ltb j (0 + (N - 2))) with true by (symmetry; apply Nat.ltb_lt; lia).
      rewrite ann_j2_sq by lia. field. repeat split; try exact Hs; apply not_0_INR; lia. }
    assert (Hrows : forall k, (1 <= k < N - 2)%nat -> row_solved (N - 2) (mat_entry RFld A) b u k).
    { intros k Hk. unfold row_solved. rewrite An_row by lia. rewrite <- (Hr k Hk), Ed, Ed1 by lia.
      rewrite Rmult_plus_distr_l. f_equal.
      - rewrite <- (Hu k Hk). ring.
      - rewrite (tail_ext _ _ w (fun j => s * (INR j ^ 2 * u j))) by (intros j Hj; symmetry; apply Hu; lia).
        rewrite tail_scal. ring. }
    split; [|split].
    - unfold u. apply upd_same.
    - exact Hrows.
    - apply singular_row0; try assumption; lia.
  Qed.
End Neumann.
