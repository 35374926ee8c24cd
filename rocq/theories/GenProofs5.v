(** GenProofs5.v -- Legendre spaces; the concrete cases in which a generated matrix is wrong. *)
From Coq Require Import Reals ZArith List Bool Arith Lia Lra String.
From Verif Require Import Base Fld SparseModel SparseSpec RPoly StencilModel StencilSpec StencilProofs StencilProofs8 MatrixSpec MatrixProofs JacobiModel JacobiProofs2 JacobiProofs3 GenModel GenSpec GenProofs GenProofs2 GenProofs3 GenProofs4.
Import ListNotations.
Local Open Scope R_scope.
Notation rsum := (gsum 0 Rplus).

(** the measure as a function *)
Definition mval (m : option measure) (x : R) : R := match m with None => 1 | Some m => fold_right (fun t r => fst t * x ^ snd t + r) 0 m end.
Lemma times_val m p x : peval (times m p) x = mval m x * peval p x.
Proof. destruct m as [m|]; cbn [times mval]; [|ring]. induction m as [|t m IH]; cbn [fold_right]; [cbn; ring|]. rewrite peval_padd, peval_pscale, peval_xpow, IH. ring. Qed.
(** the value of the form is the integral *)
Lemma ip_integral m p q : leg_inner (mval m) (peval p) (peval q) (ip (times m p) q).
Proof.
  assert (forall x, peval (times m [1]) x = mval m x) as E by (intros x; rewrite times_val; cbn; ring).
  rewrite (ip_ext (times m p) (pmul (times m [1]) p) q q); [|intros x; rewrite peval_pmul, E, times_val; reflexivity|reflexivity].
  pose proof (ip_leg (times m [1]) p q) as H. unfold leg_inner, integral in *. destruct H as (prf & V).
  assert (forall x, peval (times m [1]) x * peval p x * peval q x = mval m x * peval p x * peval q x) as E2 by (intros x; rewrite E; reflexivity).
  assert (Riemann_integrable (fun x => mval m x * peval p x * peval q x) (-1) 1) as prf'.
  { eapply Riemann_integrable_ext; [intros x _; apply E2|exact prf]. }
  exists prf'. rewrite <- V. apply RiemannInt_P18; [lra|]. intros x _. rewrite E2. reflexivity.
Qed.
(** Legendre polynomials are orthogonal to derivatives of lower ones *)
Lemma leg_beyond s l n : (n < l + s)%nat -> ip (legL l) (dn s (legL n)) = 0.
Proof. intros H. apply leg_orthd, deglt_leg_dn. lia. Qed.

(** ** concrete cases *)
Lemma pattern_ge dim n a b : (-1 <= pattern_band dim n a b)%Z.
Proof. unfold pattern_band. destruct (last_nonzero n a), (last_nonzero n b); lia. Qed.
Lemma last_is n (f : nat -> R) u : (u < n)%nat -> f u <> 0 -> (forall i, (u < i)%nat -> (i < n)%nat -> f i = 0) -> last_nonzero n f = Some u.
Proof.
  induction n as [|n IH]; intros Hu Hf H; [lia|]. cbn [last_nonzero]. destruct (Nat.eq_dec u n) as [->|Hn].
  - destruct (Req_EM_T (f n) 0); [contradiction|reflexivity].
  - rewrite (H n) by lia. destruct (Req_EM_T 0 0); [|lra]. apply IH; [lia|exact Hf|intros; apply H; lia].
Qed.
Definition SD (N : nat) := space_of legendre_ShenDirichlet N.
Lemma sd_fn N j r x : (j < N - 2)%nat -> deriv_at r (fn legL (SD N) j) x = deriv_at r (legL j) x - deriv_at r (legL (j + 2)) x.
Proof.
  intros H. unfold SD. rewrite (fn_class legendre_ShenDirichlet N j r x); [|nodup|nodup|exact H].
  cbn [stencil_sum sc_stencil legendre_ShenDirichlet sval Nat.add]. rewrite (Nat.add_comm j 2). cbn [Nat.add]. ring.
Qed.
Lemma sd_deriv N j x : (j < N - 2)%nat -> peval (pderiv (fn legL (SD N) j)) x = - (2 * INR j + 3) * peval (legL (S j)) x.
Proof.
  intros H. pose proof (sd_fn N j 1 x H) as E. unfold deriv_at in E. cbn [dn] in E. rewrite E, (Nat.add_comm j 2). cbn [Nat.add].
  pose proof (leg_diff j x). lra.
Qed.
Definition leg_B (t s : nat) : mat := fun l n => ip (dn t (legL l)) (dn s (legL n)).

(** (a) test and trial differentiated, measure x *)
Definition mx : measure := [(1, 1%nat)].
Lemma sd0 x : peval (fn legL (SD 4) 0) x = peval [3/2; 0; -3/2] x.
Proof. change (peval (fn legL (SD 4) 0) x) with (deriv_at 0 (fn legL (SD 4) 0) x). rewrite sd_fn by lia. unfold deriv_at. cbn. field. Qed.
Lemma sd1 x : peval (fn legL (SD 4) 1) x = peval [0; 5/2; 0; -5/2] x.
Proof. change (peval (fn legL (SD 4) 1) x) with (deriv_at 0 (fn legL (SD 4) 1) x). rewrite sd_fn by lia. unfold deriv_at. cbn. field. Qed.
Lemma sd4_keys i k : stencil (SD 4) i k <> 0 -> (k <= i + 2)%nat.
Proof. intros H. apply key_range in H. cbn in H. lia. Qed.
Lemma code_a : product (SD 4) (SD 4) leg_Ax (Some mx) (leg_B 1 1) 0%nat 1%nat = 6.
Proof.
  rewrite (product_some ip legL legL leg_Ax (SD 4) (SD 4) (leg_B 1 1) 1 1 ip_form leg_powers).
  - cbn [dn]. rewrite (ip_ext _ [3/2; 0; -9/2] _ [5/2; 0; -15/2]).
    + unfold ip, pint. cbn. field.
    + intros x. rewrite (peq_deriv _ [0; 3/2; 0; -3/2]); [cbn; field|]. intros y. rewrite times_val, sd0. cbn. field.
    + intros x. rewrite (peq_deriv _ _ sd1). cbn. field.
  - intros l n _ _. reflexivity.
  - intros k l Hk Hs Hl Hd. apply sd4_keys in Hs. cbn in Hl, Hd. lia.
Qed.
Lemma true_a : form_entry ip (Some mx) 1 1 (fn legL (SD 4) 0) (fn legL (SD 4) 1) = 4.
Proof.
  unfold form_entry. cbn [dn]. rewrite (ip_ext _ [0; 0; -3] _ [5/2; 0; -15/2]).
  - unfold ip, pint. cbn. field.
  - intros x. rewrite times_val, (peq_deriv _ _ sd0). cbn. field.
  - intros x. rewrite (peq_deriv _ _ sd1). cbn. field.
Qed.
Lemma asm_a : assemble_stencil (SD 4) (SD 4) 1 1 leg_Ax (Some mx) (leg_B 1 1) 0%nat 1%nat = 6.
Proof.
  unfold assemble_stencil. cbn [Nat.add Nat.eqb andb]. rewrite banded_ok; [apply code_a|]. intros _.
  assert (1 <= pattern_band (g_dim (SD 4)) (g_dim (SD 4)) (product (SD 4) (SD 4) leg_Ax (Some mx) (leg_B 1 1) 0%nat) (product (SD 4) (SD 4) leg_Ax (Some mx) (leg_B 1 1) 1%nat))%Z as U.
  { apply (pattern_covers _ _ _ _ 1); [cbn; lia|left; rewrite code_a; lra|lia]. }
  pose proof (pattern_ge (g_dim (SD 4)) (g_dim (SD 4)) (fun i => product (SD 4) (SD 4) leg_Ax (Some mx) (leg_B 1 1) i 0%nat) (fun i => product (SD 4) (SD 4) leg_Ax (Some mx) (leg_B 1 1) i 1%nat)) as L.
  change (Z.of_nat 1 - Z.of_nat 0)%Z with 1%Z. split; [lia|exact U].
Qed.

(** (c) boundary functions, test function differentiated: Neumann conditions *)
Definition SNb : mat := fun j n => match j, n with 0%nat, 1%nat => 1/2 | 0%nat, 2%nat => -1/6 | 1%nat, 1%nat => 1/2 | 1%nat, 2%nat => 1/6 | _, _ => 0 end.
Lemma bc_b x : peval (bfn legL 3 SNb 1) x = peval [-1/12; 1/2; 1/4] x.
Proof. unfold bfn. rewrite peval_comb. cbn [gsum SNb]. cbn. field. Qed.
Definition SN (N : nat) := space_of legendre_ShenNeumann N.
Lemma sn5 x : peval (fn legL (SN 8) 5) x = peval (padd (legL 5) (pscale (-30/56) (legL 7))) x.
Proof.
  change (peval (fn legL (SN 8) 5) x) with (deriv_at 0 (fn legL (SN 8) 5) x). unfold SN. rewrite (fn_class legendre_ShenNeumann 8 5 0 x); [|nodup|nodup|cbn; lia].
  cbn [stencil_sum sc_stencil legendre_ShenNeumann sval Nat.add]. rewrite peval_padd, peval_pscale. unfold deriv_at. cbn [dn].
  rewrite !INR_IZR_INZ. cbn [Z.of_nat Pos.of_succ_nat Pos.succ]. set (a := peval (legL 5) x). set (b := peval (legL 7) x). field.
Qed.
Lemma code_c : assemble_stencil_bc (SN 8) 3 SNb leg_Ax None (leg_B 1 1) 5%nat 1%nat = 0.
Proof. reflexivity. Qed.
Lemma true_c : form_entry ip None 1 1 (fn legL (SN 8) 5) (bfn legL 3 SNb 1) <> 0.
Proof.
  unfold form_entry, times. cbn [dn]. rewrite (ip_ext _ (pderiv (padd (legL 5) (pscale (-30/56) (legL 7)))) _ [1/2; 1/2]).
  - rewrite ip_parts. rewrite !peval_padd, !peval_pscale, !legr, !legl.
    rewrite ip_padd_l, ip_pscale_l. rewrite !leg_orthd by (exists [1/2]; split; [cbn; lia|intros; cbn; field]). cbn. lra.
  - intros x. apply peq_deriv. exact sn5.
  - intros x. rewrite (peq_deriv _ _ bc_b). cbn. field.
Qed.

(** (d) the sparsity pattern: second derivatives vanish at the ends, measure x, trial function differentiated *)
Definition N2N2 : stencil_class := mkClass "N2N2" [(0%nat, SConst 1); (2%nat, SFun (fun n => - (n * (n - 1)) / ((n + 3) * (n + 4))))] [mkBc Left 2; mkBc Right 2].
Definition T8 := space_of N2N2 8.
Lemma n2_fn i x : (i < 6)%nat -> peval (fn legL T8 i) x = peval (legL i) x - INR i * (INR i - 1) / ((INR i + 3) * (INR i + 4)) * peval (legL (i + 2)) x.
Proof.
  intros Hi. change (peval (fn legL T8 i) x) with (deriv_at 0 (fn legL T8 i) x). unfold T8. rewrite (fn_class N2N2 8 i 0 x); [|nodup|nodup|exact Hi].
  cbn [stencil_sum sc_stencil N2N2 sval Nat.add]. rewrite (Nat.add_comm i 2). cbn [Nat.add]. unfold deriv_at. cbn [dn].
  pose proof (pos_INR i). field. split; lra.
Qed.
(** (x p, psi_j') *)
Lemma sd_entry p j : (j < 6)%nat -> ip (pX p) (pderiv (fn legL (SD 8) j)) = - ((INR j + 2) * ip p (legL (S (S j))) + (INR j + 1) * ip p (legL j)).
Proof.
  intros Hj. rewrite ip_pX. rewrite (ip_ext p p _ (pscale (- (INR j + 2)) (padd (legL (S (S j))) (pscale ((INR j + 1) / (INR j + 2)) (legL j))))).
  - rewrite ip_pscale_r, ip_padd_r, ip_pscale_r. pose proof (pos_INR j). field. lra.
  - reflexivity.
  - intros x. rewrite peval_pX, sd_deriv by lia. rewrite peval_pscale, peval_padd, peval_pscale.
    assert (peval (legL (S (S j))) x = ((2 * INR j + 3) * x * peval (legL (S j)) x - (INR j + 1) * peval (legL j) x) / (INR j + 2)) as E.
    { pose proof (leg_rec j x) as R0. pose proof (pos_INR j). apply (Rmult_eq_reg_l (INR j + 2)); [|lra]. rewrite R0. field. lra. }
    rewrite E. pose proof (pos_INR j). field. lra.
Qed.
Definition A8 : mat := product T8 (SD 8) leg_Ax (Some mx) (leg_B 0 1).
Lemma entry_d i j : (i < 6)%nat -> (j < 6)%nat -> A8 i j = form_entry ip (Some mx) 0 1 (fn legL T8 i) (fn legL (SD 8) j) /\
  A8 i j = - ((INR j + 2) * (T00 i (S (S j)) - INR i * (INR i - 1) / ((INR i + 3) * (INR i + 4)) * T00 (i + 2) (S (S j)))
      + (INR j + 1) * (T00 i j - INR i * (INR i - 1) / ((INR i + 3) * (INR i + 4)) * T00 (i + 2) j)).
Proof.
  intros Hi Hj. assert (A8 i j = form_entry ip (Some mx) 0 1 (fn legL T8 i) (fn legL (SD 8) j)) as E.
  { apply (product_ok ip legL legL leg_Ax T8 (SD 8) (leg_B 0 1) 0 1 (Some mx) ip_form leg_powers).
    - intros l n _ _. reflexivity.
    - right. split; [reflexivity|]. intros l n Hl Hn. cbn [g_N T8 SD space_of] in *. apply leg_beyond. lia. }
  split; [exact E|]. rewrite E. unfold form_entry. cbn [dn].
  rewrite (ip_ext _ (pX (fn legL T8 i)) _ (pderiv (fn legL (SD 8) j))); [|intros x; rewrite times_val, peval_pX; cbn; ring|reflexivity].
  rewrite sd_entry by exact Hj.
  assert (forall n, ip (fn legL T8 i) (legL n) = T00 i n - INR i * (INR i - 1) / ((INR i + 3) * (INR i + 4)) * T00 (i + 2) n) as V.
  { intros n. rewrite <- !t00. rewrite (ip_ext _ (padd (legL i) (pscale (- (INR i * (INR i - 1) / ((INR i + 3) * (INR i + 4)))) (legL (i + 2)))) _ (legL n)).
    - rewrite ip_padd_l, ip_pscale_l. ring.
    - intros x. rewrite n2_fn by exact Hi. rewrite peval_padd, peval_pscale. ring.
    - reflexivity. }
  rewrite !V. reflexivity.
Qed.
Lemma T00_0 n m : n <> m -> T00 n m = 0. Proof. unfold T00. destruct (Nat.eqb_spec n m); [contradiction|reflexivity]. Qed.
Lemma asm_d : assemble_stencil T8 (SD 8) 0 1 leg_Ax (Some mx) (leg_B 0 1) 2%nat 4%nat = 0 /\ form_entry ip (Some mx) 0 1 (fn legL T8 2) (fn legL (SD 8) 4) <> 0.
Proof.
  split.
  - unfold assemble_stencil. cbn [Nat.add Nat.eqb andb]. fold A8.
    assert (pattern_band (g_dim (SD 8)) (g_dim (SD 8)) (A8 0%nat) (A8 1%nat) = 0%Z) as ->.
    { unfold pattern_band. change (g_dim (SD 8)) with 6%nat. rewrite (last_is 6 (A8 0%nat) 0), (last_is 6 (A8 1%nat) 1); [reflexivity|lia| | |lia| |].
      - rewrite (proj2 (entry_d 1 1 ltac:(lia) ltac:(lia))). unfold T00. cbn [Nat.eqb Nat.add]. cbn [INR]. lra.
      - intros j H1 H2. rewrite (proj2 (entry_d 1 j ltac:(lia) H2)). rewrite (T00_0 1 (S (S j))), (T00_0 1 j) by lia. cbn [INR]. lra.
      - rewrite (proj2 (entry_d 0 0 ltac:(lia) ltac:(lia))). unfold T00. cbn [Nat.eqb Nat.add]. cbn [INR]. lra.
      - intros j H1 H2. rewrite (proj2 (entry_d 0 j ltac:(lia) H2)). rewrite (T00_0 0 (S (S j))), (T00_0 0 j) by lia. cbn [INR]. lra. }
    unfold banded. replace (Z.of_nat 4 - Z.of_nat 2 <=? 0)%Z with false by reflexivity. rewrite andb_false_r. reflexivity.
  - rewrite <- (proj1 (entry_d 2 4 ltac:(lia) ltac:(lia))), (proj2 (entry_d 2 4 ltac:(lia) ltac:(lia))). unfold T00. cbn [Nat.eqb Nat.add]. cbn [INR].
    intros H. apply Rmult_eq_compat_r with (r := -1) in H. revert H. match goal with |- ?a * _ = _ -> _ => replace a with (2 / 27) by field end. lra.
Qed.

(** (e) a trial space larger than the test space, measure x *)
Definition orth (N : nat) : gspace := mkGspace N N (mkSmat RFld N N 1 [(0%Z, Scal RFld 1)]) 0.
Lemma orth_stencil N i j : stencil (orth N) i j = if (i =? j)%nat then 1 else 0.
Proof.
  unfold stencil, orth, mat_entry. cbn [g_S sm_items sm_scale lookup]. destruct (Z.eq_dec 0 (Z.of_nat j - Z.of_nat i)), (Nat.eqb_spec i j); try lia; try reflexivity.
  all: cbn; try ring; lra.
Qed.
Lemma orth_fn N j x : (j < N)%nat -> peval (fn legL (orth N) j) x = peval (legL j) x.
Proof.
  intros H. unfold fn. rewrite peval_comb. cbn [g_N orth]. rewrite (sum_one N j); [rewrite orth_stencil, Nat.eqb_refl; ring|exact H|].
  intros i _ Hi. rewrite orth_stencil. destruct (Nat.eqb_spec j i); [lia|ring].
Qed.
Lemma asm_e : assemble_stencil (SD 4) (orth 5) 0 0 leg_Ax (Some mx) (leg_B 0 0) 1%nat 4%nat = 0 /\ form_entry ip (Some mx) 0 0 (fn legL (SD 4) 1) (fn legL (orth 5) 4) <> 0.
Proof.
  split.
  - assert (product (SD 4) (orth 5) leg_Ax (Some mx) (leg_B 0 0) 1%nat 4%nat = 0) as E.
    { unfold product, mmul at 1. apply sum_0. intros k Hk. apply Rmult_eq_0_compat_l. unfold mmul at 1. apply sum_0. intros l Hl. apply Rmult_eq_0_compat_l.
      rewrite (right_ok ip legL legL (SD 4) (orth 5) (leg_B 0 0) 0 0 ip_form (fun l n _ _ => eq_refl) l 4 Hl). cbn [dn].
      rewrite (ip_ext _ (legL l) _ (legL 4)); [|reflexivity|intros x; apply orth_fn; lia]. rewrite t00. apply T00_0. cbn in Hl. lia. }
    unfold assemble_stencil. cbn [Nat.add Nat.eqb andb g_fam SD space_of orth]. unfold banded. destruct (_ && _); [exact E|reflexivity].
  - unfold form_entry. cbn [dn]. rewrite (ip_ext _ (pX (fn legL (SD 4) 1)) _ (legL 4)); [|intros x; rewrite times_val, peval_pX; cbn; ring|intros x; apply orth_fn; lia].
    rewrite (ip_ext _ [0; 0; 5/2; 0; -5/2] _ [3/8; 0; -30/8; 0; 35/8]).
    + unfold ip, pint. cbn. intros H. revert H. match goal with |- ?a = _ -> _ => replace a with (-8 / 63) by field end. lra.
    + intros x. rewrite peval_pX, sd1. cbn. field.
    + intros x. cbn. field.
Qed.

(** (b), (f), (g): the test functions Phi_k *)
Lemma phi1_0 x : peval (fn legL (space_of legendre_Phi1 6) 0) x = peval [3/4; 0; -3/4] x.
Proof.
  change (peval (fn legL (space_of legendre_Phi1 6) 0) x) with (deriv_at 0 (fn legL (space_of legendre_Phi1 6) 0) x).
  rewrite (fn_class legendre_Phi1 6 0 0 x); [|nodup|nodup|cbn; lia]. cbn [stencil_sum sc_stencil legendre_Phi1 sval Nat.add]. unfold deriv_at. cbn. field.
Qed.
Lemma code_b : exists A, assemble_phi_orth (space_of legendre_Phi1 6) 6 1 (leg_am 1) leg_bm [(1, 0%nat)] = Some A /\ A 0%nat 1%nat = 1 /\ A 0%nat 3%nat = 0.
Proof. eexists. split; [reflexivity|]. split; cbn; lra. Qed.
Lemma true_b : ip (dn 1 (legL 1)) (dn 1 (fn legL (space_of legendre_Phi1 6) 0)) = 0.
Proof.
  cbn [dn]. rewrite (ip_ext _ [1] _ [0; -3/2]); [unfold ip, pint; cbn; field|intros x; cbn; field|]. intros x. rewrite (peq_deriv _ _ phi1_0). cbn. field.
Qed.
Lemma true_g : ip (dn 1 (chebT 3)) (fn legL (space_of legendre_Phi1 6) 0) <> 0.
Proof.
  cbn [dn]. rewrite (ip_ext _ [-3; 0; 12] _ [3/4; 0; -3/4]); [|intros x; cbn; field|exact phi1_0]. unfold ip, pint. cbn. intros H. revert H.
  match goal with |- ?a = _ -> _ => replace a with (-3 / 5) by field end. lra.
Qed.
Definition Db : mat := fun j n => match j, n with 0%nat, 0%nat => 1/2 | 0%nat, 1%nat => -1/2 | 1%nat, 0%nat => 1/2 | 1%nat, 1%nat => 1/2 | _, _ => 0 end.
Lemma code_f : exists A, assemble_phi_bc (space_of legendre_Phi3 8) 2 Db 3 (leg_am 3) leg_bm [(1, 0%nat)] = Some A /\ A 0%nat 0%nat = 1.
Proof. eexists. split; [reflexivity|]. reflexivity. Qed.
Lemma true_f : ip (dn 3 (bfn legL 2 Db 0)) (fn legL (space_of legendre_Phi3 8) 0) = 0.
Proof.
  rewrite (ip_ext _ [] _ (fn legL (space_of legendre_Phi3 8) 0)); [rewrite ip_comm; apply ip_nil_r| |reflexivity].
  intros x. assert (forall y, peval (bfn legL 2 Db 0) y = peval [1/2; -1/2] y) as E.
  { intros y. unfold bfn. rewrite peval_comb. cbn [gsum Db]. cbn. field. }
  change (peval (dn 3 (bfn legL 2 Db 0)) x) with (deriv_at 3 (bfn legL 2 Db 0) x). rewrite (peq_dn 3 _ _ E x). unfold deriv_at. cbn. ring.
Qed.
