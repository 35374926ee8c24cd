(** HelmholtzProofs7.v -- several lines; right hand sides that only load the first equation. *)
From Coq Require Import Reals ZArith List Arith Bool Lia Lra.
From Verif Require Import Base Fld SparseModel SparseSpec SparseProofs RPoly StencilModel StencilModel2 LegMatrixModel LegMatrixProofs5 LegMatrixProofs6
  ChebMatrixModel ChebMatrixProofs2 HelmholtzModel HelmholtzSpec HelmholtzProofs HelmholtzProofs2 HelmholtzProofs3 HelmholtzProofs4 HelmholtzProofs5 HelmholtzProofs6.
Import ListNotations.
Local Open Scope R_scope.

Lemma norms_cheb quadrature q N : (3 <= N)%nat -> norms (cheb_norm_sq quadrature q N).
Proof.
  intros HN. pose proof PI_RGT_0. unfold norms, cheb_norm_sq, cheb_l2_norm_sq, cheb_L2_norm_sq. cbv zeta.
  repeat split.
  - replace (Nat.eqb 0 (N - 1)) with false by (symmetry; apply Nat.eqb_neq; lia). destruct quadrature; [destruct q|]; cbn [Nat.eqb]; field.
  - replace (Nat.eqb 1 (N - 1)) with false by (symmetry; apply Nat.eqb_neq; lia). destruct quadrature; [destruct q|]; cbn [Nat.eqb]; field.
  - intros i. destruct quadrature; [destruct q|]; destruct (Nat.eqb i 0); try destruct (Nat.eqb i (N - 1)); lra.
Qed.

(** the first unit vector *)
Definition e0 (k : nat) : R := if Nat.eqb k 0 then 1 else 0.
Lemma lu_e0 M D al be u0 : (4 <= M)%nat -> dBm D 0%nat = 0 ->
  let s := lu_factor M D al be in
  (forall k, (k < M)%nat -> l_d0 s k <> 0) ->
  let r := backward M s (forward M (l_L s) e0 (fun _ => 0)) u0 in
  r 0%nat = 1 / (al * dA0 D 0%nat + be * dB0 D 0%nat) /\ forall k, (1 <= k < M)%nat -> r k = 0.
Proof.
  intros HM Hm s Hp r.
  pose proof (lu_factor_ok M D al be ltac:(lia)) as ((P0 & P1) & (Q0 & Q1) & (R0 & R1) & H). fold s in P0, P1, Q0, Q1, R0, R1, H.
  destruct (forward_spec M (l_L s) e0 (fun _ => 0) ltac:(lia)) as (Y0 & Y1 & Y).
  destruct (backward_spec M s (forward M (l_L s) e0 (fun _ => 0)) u0 HM Hp) as (U & _). fold r in U.
  set (y := forward M (l_L s) e0 (fun _ => 0)) in *.
  assert (HL : l_L s 0%nat = 0).
  { destruct (H 2%nat ltac:(lia)) as (A1 & _). change (2 - 2)%nat with 0%nat in A1. rewrite A1. unfold hm. rewrite Hm. unfold Rdiv. ring. }
  assert (Yz : forall k, (1 <= k < M)%nat -> y k = 0).
  { intros k. induction k as [k IH] using lt_wf_ind. intros Hk. destruct (Nat.eq_dec k 1) as [->|N1]; [exact Y1|].
    pose proof (Y k ltac:(lia)) as Yk. unfold e0 in Yk. destruct (Nat.eqb_spec k 0); [lia|].
    destruct (Nat.eq_dec k 2) as [->|N2].
    - change (2 - 2)%nat with 0%nat in Yk. rewrite HL in Yk. lra.
    - rewrite (IH (k - 2)%nat) in Yk by lia. lra. }
  assert (Rz : forall k, (1 <= k < M)%nat -> r k = 0).
  { assert (G : forall n k, (M - k <= n)%nat -> (1 <= k < M)%nat -> r k = 0).
    { induction n as [|n IH]; intros k Hn Hk; [lia|].
      pose proof (U k ltac:(lia)) as Uk. rewrite Yz in Uk by exact Hk.
      assert (E : tail M (k + 4) r = 0).
      { apply rsum_zero. intros j Hj. destruct (Nat.leb_spec (k + 4) j); cbn [andb]; [|reflexivity].
        rewrite IH by lia. destruct (Nat.even (j - (k + 4))); reflexivity. }
      rewrite E in Uk. destruct (Nat.ltb_spec (k + 2) M).
      - rewrite (IH (k + 2)%nat) in Uk by lia. pose proof (Hp k ltac:(lia)).
        apply (Rmult_eq_reg_l (l_d0 s k)); [|assumption]. lra.
      - pose proof (Hp k ltac:(lia)). apply (Rmult_eq_reg_l (l_d0 s k)); [|assumption]. lra. }
    intros k Hk. apply (G M); lia. }
  split; [|exact Rz].
  pose proof (U 0%nat ltac:(lia)) as U0. rewrite Y0 in U0. change (e0 0) with 1 in U0.
  assert (E : tail M (0 + 4) r = 0).
  { apply rsum_zero. intros j Hj. destruct (Nat.leb_spec (0 + 4) j); cbn [andb]; [|reflexivity].
    rewrite Rz by lia. destruct (Nat.even (j - (0 + 4))); reflexivity. }
  rewrite E in U0. replace (Nat.ltb (0 + 2) M) with true in U0 by (symmetry; apply Nat.ltb_lt; lia).
  rewrite (Rz (0 + 2)%nat) in U0 by lia. pose proof (Hp 0%nat ltac:(lia)) as Hp0.
  rewrite P0 in U0, Hp0. unfold h0 in U0, Hp0. apply (Rmult_eq_reg_l (al * dA0 D 0%nat + be * dB0 D 0%nat)); [|exact Hp0].
  replace ((al * dA0 D 0%nat + be * dB0 D 0%nat) * (1 / (al * dA0 D 0%nat + be * dB0 D 0%nat))) with 1 by (field; exact Hp0). lra.
Qed.

(** ** several lines *)
Lemma map_combine3 {X Y Z W} (g : X -> Y -> Z -> W) (d : W) (dx : X) (dy : Y) (dz : Z) l f u i :
  (i < List.length l)%nat -> List.length f = List.length l -> List.length u = List.length l ->
  nth i (map (fun sfu => g (fst (fst sfu)) (snd (fst sfu)) (snd sfu)) (combine (combine l f) u)) d
  = g (nth i l dx) (nth i f dy) (nth i u dz).
Proof.
  revert f u i. induction l as [|x l IH]; intros f u i Hi Hf Hu; cbn [List.length] in *; [lia|].
  destruct f as [|y f]; [discriminate|]. destruct u as [|z u]; [discriminate|]. cbn [combine map].
  destruct i as [|i]; [reflexivity|]. cbn [nth]. apply IH; cbn [List.length] in *; lia.
Qed.

Definition dline : R * R := (0, 0).
Definition dlu : lu := mkLU (fun _ => 0) (fun _ => 0) (fun _ => 0) (fun _ => 0).
Definition dvec : nat -> R := fun _ => 0.

Lemma cython_line neumann M D l i : (i < List.length l)%nat ->
  nth i (lu_lines Cython neumann M D l) dlu = lu_line Cython neumann M D (fst (nth i l dline)) (snd (nth i l dline)).
Proof.
  intros Hi. unfold lu_lines, lu_line.
  set (F := fun ab : R * R => lu_factor M (pre_cython neumann (fst ab) (snd ab) D) (fst ab) (snd ab)).
  rewrite (nth_indep _ dlu (F dline)) by (rewrite map_length; exact Hi). apply map_nth.
Qed.
Lemma numba_line neumann M D l : forall i, (i < List.length l)%nat ->
  (neumann = true -> forall j, (j < i)%nat -> small8 (snd (nth j l dline)) = false) ->
  nth i (numba_lines neumann M D l) dlu
  = lu_factor M (numba_A0 neumann (fst (nth i l dline)) (snd (nth i l dline)) D) (fst (nth i l dline)) (snd (nth i l dline)).
Proof.
  induction l as [|[al be] l IH]; intros i Hi Hs; cbn [List.length] in Hi; [lia|].
  destruct i as [|i]; [reflexivity|]. cbn [numba_lines nth].
  assert (E : numba_A0 neumann al be D = D).
  { unfold numba_A0. destruct neumann; [|reflexivity]. pose proof (Hs eq_refl 0%nat ltac:(lia)) as H0. cbn [nth snd] in H0. rewrite H0. reflexivity. }
  rewrite E. apply IH; [lia|]. intros Hn j Hj. apply (Hs Hn (S j)). lia.
Qed.
Lemma lines_length im neumann M D l : List.length (lu_lines im neumann M D l) = List.length l.
Proof.
  unfold lu_lines. destruct im; [|apply map_length]. generalize (pre_numba neumann D). clear D.
  induction l as [|[al be] l IH]; intros D; [reflexivity|]. cbn [numba_lines List.length]. f_equal. apply IH.
Qed.

(** every line is solved as if it were alone *)
Lemma lines_alone im neumann A B l f u us : helmholtz_lines im neumann A B l f u = Some us ->
  List.length f = List.length l -> List.length u = List.length l ->
  forall i, (i < List.length l)%nat ->
  (im = Numba -> neumann = true -> forall j, (j < i)%nat -> small8 (snd (nth j l dline)) = false) ->
  helmholtz4 im neumann A B (fst (nth i l dline)) (snd (nth i l dline)) (nth i f dvec) (nth i u dvec) = Some (nth i us dvec).
Proof.
  unfold helmholtz_lines, helmholtz4. destruct (helmholtz_keys A B) as [D|]; [|discriminate].
  intros E Hf Hu i Hi Hn. injection E as <-. f_equal. symmetry.
  rewrite (map_combine3 (fun s f u => solve_helmholtz_1D neumann (sm_rows RFld A) s f u) dvec dlu dvec dvec)
    by (rewrite ?lines_length; assumption).
  f_equal. destruct im.
  - unfold lu_lines, lu_line. apply numba_line; [exact Hi|]. intros En. apply Hn; trivial.
  - apply cython_line. exact Hi.
Qed.
