(** GenProperties.v -- C53: matrices generated from stencils hold the bilinear form (matrixbase.py 1964-2131, jacobi/recursions.py 604-644). *)
From Coq Require Import Reals ZArith List Bool Arith Lia Lra.
From Verif Require Import Base Fld SparseModel SparseSpec RPoly StencilModel StencilSpec StencilProofs MatrixSpec MatrixProofs JacobiModel GenModel GenSpec GenProofs GenProofs2 GenProofs3 GenProofs4 GenProofs5.
Import ListNotations.
Local Open Scope R_scope.

(** f is the scalar product, P the orthogonal polynomials of the test space and P' those of the trial space; B is the matrix
    of the two orthogonal spaces (C36, C18), Ax the matrices of multiplication by x^q. *)

(** *** mass matrices of one family: measure times test function times trial function, any composite spaces, any measure *)
Theorem C53_stencil_mass : forall f P P' Ax test trial B m, is_form f -> powers P Ax -> g_fam test = g_fam trial ->
  (forall l n, (l < g_N test)%nat -> (n < g_N trial)%nat -> B l n = f (P l) (P' n)) ->
  (forall l n, l <> n -> f (P l) (P' n) = 0) -> (m = None \/ (g_N trial <= g_N test)%nat) ->
  forall i j, assemble_stencil test trial 0 0 Ax m B i j = form_entry f m 0 0 (fn P test i) (fn P' trial j).
Proof.
  intros f P P' Ax test trial B m F HA Hf HB HO HM i j.
  assert (product test trial Ax m B i j = form_entry f m 0 0 (fn P test i) (fn P' trial j)) as E.
  { apply (product_ok f P P' Ax test trial B 0 0 m F HA HB). destruct HM as [->|HN]; [left; reflexivity|right]. split; [reflexivity|].
    intros l n Hl Hn. cbn [dn]. apply HO. lia. }
  rewrite <- E. unfold assemble_stencil. rewrite Hf, (Nat.eqb_refl (g_fam trial)). cbn [Nat.add andb]. rewrite (Nat.eqb_refl 0). cbn [andb]. apply banded_ok.
  apply mass_band; [apply HA|]. intros l n Hl Hn H. rewrite HB by auto. apply HO, H.
Qed.
Print Assumptions C53_stencil_mass.

(** *** any derivatives: an entry is that of the form, or lies outside the bands read off the first two rows and columns;
    nothing is lost if every non-zero diagonal shows in one of its first two entries *)
Theorem C53_stencil_entries : forall f P P' Ax test trial B t s m, is_form f -> powers P Ax ->
  (forall l n, (l < g_N test)%nat -> (n < g_N trial)%nat -> B l n = f (dn t (P l)) (dn s (P' n))) ->
  (m = None \/ t = 0%nat /\ forall l n, (g_N test <= l)%nat -> (n < g_N trial)%nat -> f (P l) (dn s (P' n)) = 0) ->
  let entry i j := form_entry f m t s (fn P test i) (fn P' trial j) in
  (forall i j, assemble_stencil test trial t s Ax m B i j = entry i j \/ assemble_stencil test trial t s Ax m B i j = 0) /\
  ((t + s <> 0)%nat \/ g_fam test <> g_fam trial ->
   (forall i j, (i < g_dim test)%nat -> (j < g_dim trial)%nat -> (i <= j)%nat -> entry i j <> 0 ->
      entry 0%nat (j - i)%nat <> 0 \/ (S (j - i) < g_dim trial)%nat /\ entry 1%nat (S (j - i)) <> 0) ->
   (forall i j, (i < g_dim test)%nat -> (j < g_dim trial)%nat -> (j < i)%nat -> entry i j <> 0 ->
      entry (i - j)%nat 0%nat <> 0 \/ (S (i - j) < g_dim test)%nat /\ entry (S (i - j)) 1%nat <> 0) ->
   forall i j, (i < g_dim test)%nat -> (j < g_dim trial)%nat -> assemble_stencil test trial t s Ax m B i j = entry i j).
Proof.
  intros f P P' Ax test trial B t s m F HA HB HM entry.
  assert (forall i j, product test trial Ax m B i j = entry i j) as E by (intros i j; apply (product_ok f P P' Ax test trial B t s m F HA HB HM)).
  split.
  - intros i j. rewrite <- E. unfold assemble_stencil. destruct (_ && _); unfold banded; destruct (_ && _); auto.
  - intros Hc Hu Hl i j Hi Hj. rewrite <- E. unfold assemble_stencil.
    replace ((t + s =? 0)%nat && (g_fam test =? g_fam trial)%nat)%bool with false.
    2: { symmetry. apply andb_false_iff. destruct Hc; [left|right]; apply Nat.eqb_neq; assumption. }
    set (A := product test trial Ax m B) in *. apply banded_ok. intros Hn.
    pose proof (pattern_ge (g_dim trial) (g_dim trial) (A 0%nat) (A 1%nat)) as U. pose proof (pattern_ge (g_dim test) (g_dim test) (fun i => A i 0%nat) (fun i => A i 1%nat)) as L.
    destruct (Nat.le_gt_cases i j) as [H|H].
    + assert (Z.of_nat (j - i) <= pattern_band (g_dim trial) (g_dim trial) (A 0%nat) (A 1%nat))%Z as U'.
      { apply pattern_covers; [lia| |lia]. rewrite !E in *. apply Hu; auto. }
      destruct (Nat.eq_dec i j) as [->|]; [|lia]. split; [|lia].
      assert (0 <= pattern_band (g_dim test) (g_dim test) (fun i => A i 0%nat) (fun i => A i 1%nat))%Z; [|lia].
      specialize (Hu j j Hi Hj (le_n _)). rewrite Nat.sub_diag in Hu. rewrite E in Hn. specialize (Hu Hn).
      apply (pattern_covers _ _ _ _ 0); [lia| |lia]. rewrite !E. destruct Hu as [Hu|[H1 Hu]]; [left; exact Hu|].
      destruct (Nat.lt_ge_cases 1 (g_dim test)) as [Hd|Hd]; [right; split; [exact Hd|exact Hu]|]. assert (j = 0%nat) as -> by lia. left. exact Hn.
    + assert (Z.of_nat (i - j) <= pattern_band (g_dim test) (g_dim test) (fun i => A i 0%nat) (fun i => A i 1%nat))%Z as L'.
      { apply pattern_covers; [lia| |lia]. rewrite !E in *. apply Hl; auto. }
      split; lia.
Qed.
Print Assumptions C53_stencil_entries.

(** *** boundary functions (inhomogeneous conditions), test function not differentiated *)
Theorem C53_stencil_bc : forall f P P' Ax test O nb S B s m, is_form f -> powers P Ax ->
  (forall l n, (l < g_N test)%nat -> (n < O)%nat -> B l n = f (P l) (dn s (P' n))) ->
  (forall l n, (n < O)%nat -> (n < l)%nat -> f (P l) (dn s (P' n)) = 0) ->
  (O <= g_N test)%nat -> (0 <= first_key test)%Z -> (nb <= O)%nat ->
  forall i j, (j < nb)%nat -> assemble_stencil_bc test O S Ax m B i j = form_entry f m 0 s (fn P test i) (bfn P' O S j).
Proof. intros. eapply (bc_ok f P P'); eauto. Qed.
Print Assumptions C53_stencil_bc.

(** *** test functions Phi_k, dual to the k'th derivatives: any measure, up to k derivatives of the trial function; with more
    the code asserts (and SpectralMatrix falls back on quadrature) *)
Theorem C53_phi : forall f P test am bm s ms, let k := ((g_N test - g_dim test) / 2)%nat in
  is_form f -> dpowers P k am -> integrates P bm -> dual f P (fn P test) k (g_dim test) -> (s <= k)%nat ->
  (forall N, exists A, assemble_phi_orth test N s am bm ms = Some A /\
     forall i j, (i < g_dim test)%nat -> (j < N)%nat -> A i j = f (times (Some ms) (dn s (P j))) (fn P test i)) /\
  (forall trial, exists A, assemble_phi test trial s am bm ms = Some A /\
     forall i j, (i < g_dim test)%nat -> A i j = f (times (Some ms) (dn s (fn P trial j))) (fn P test i)) /\
  (forall O nb S, (k <= O)%nat -> (nb <= O)%nat -> exists A, assemble_phi_bc test O S s am bm ms = Some A /\
     forall i j, (i < g_dim test)%nat -> (j < nb)%nat -> A i j = f (times (Some ms) (dn s (bfn P O S j))) (fn P test i)).
Proof.
  intros f P test am bm s ms k F HA HB HD Hs. split; [|split].
  - intros N. apply (phi_orth_ok f P); auto.
  - intros trial. apply (phi_ok f P); auto.
  - intros O nb S HO Hnb. apply (phi_bc_ok f P); auto.
Qed.
Print Assumptions C53_phi.
Theorem C53_phi_assertion : forall test s am bm ms, ((g_N test - g_dim test) / 2 < s)%nat ->
  (forall N, assemble_phi_orth test N s am bm ms = None) /\ (forall trial, assemble_phi test trial s am bm ms = None) /\
  forall O S, assemble_phi_bc test O S s am bm ms = None.
Proof.
  intros test s am bm ms H. repeat split; intros; unfold assemble_phi_orth, assemble_phi, assemble_phi_bc; destruct (Nat.ltb_spec ((g_N test - g_dim test) / 2) s); lia || reflexivity.
Qed.
Print Assumptions C53_phi_assertion.

(** *** Jacobi polynomials meet the hypotheses, for all parameters and scalings: the matrices are those of C35 *)
Theorem C53_jacobi : forall g a b, -1 < a -> -1 < b -> (forall n, g n <> 0) ->
  powers (jacQ g a b) (fun q => scaled g (matpow (coef_a_s a b) q)) /\
  (forall k, (0 < k)%nat -> dpowers (jacQ g a b) k (fun q i j => g j / g i * coef_a_ k q a b i j)) /\
  integrates (jacQ g a b) (fun l i j => g j / g i * pmat_b a b l i j).
Proof.
  intros g a b Ha Hb Hg. split; [|split].
  - apply (jac_powers g a b); auto.
  - intros k Hk. apply (jac_dpowers g a b); auto. lia.
  - apply (jac_integrates g a b); auto.
Qed.
Print Assumptions C53_jacobi.

(** *** Legendre: the stencils of Phi1, Phi2, Phi3, Phi4 and Phi6 are dual to the derivatives *)
Theorem C53_legendre_dual : forall k cls N, In (k, cls) phi_classes -> dual ip legL (fn legL (space_of cls N)) k (N - 2 * k).
Proof.
  intros k cls N H n m Hm. rewrite (ip_ext _ (dn k (legL n)) _ (comb2 m (S k) (pc k m))); [apply pc_dual|reflexivity|].
  intros x. apply (phi_comb k cls N m x H Hm).
Qed.
Print Assumptions C53_legendre_dual.
(** so the generated matrices hold the integrals, for every size, measure and trial space *)
Theorem C53_legendre_phi : forall k cls N trial s ms, In (k, cls) phi_classes -> (2 * k <= N)%nat -> (s <= k)%nat ->
  exists A, assemble_phi (space_of cls N) trial s (leg_am k) leg_bm ms = Some A /\
    forall i j, (i < N - 2 * k)%nat -> leg_inner (mval (Some ms)) (fun x => deriv_at s (fn legL trial j) x) (fun x => peval (fn legL (space_of cls N) i) x) (A i j).
Proof.
  intros k cls N trial s ms H HN Hs.
  assert (length (sc_bcs cls) = (2 * k)%nat /\ (0 < k)%nat) as [L Hk] by (destruct H as [H|[H|[H|[H|[H|[]]]]]]; injection H as <- <-; split; (reflexivity || lia)).
  assert (g_dim (space_of cls N) = (N - 2 * k)%nat) as D by (cbn [g_dim space_of]; rewrite L; reflexivity).
  assert (((g_N (space_of cls N) - g_dim (space_of cls N)) / 2)%nat = k) as E.
  { rewrite D. cbn [g_N space_of]. replace (N - (N - 2 * k))%nat with (k * 2)%nat by lia. apply Nat.div_mul. lia. }
  pose proof (phi_ok ip legL (space_of cls N) (leg_am k) leg_bm s ms ip_form) as T. rewrite E, D in T.
  destruct (T (leg_dpowers k Hk) leg_integrates (C53_legendre_dual k cls N H) Hs trial) as (A & HA & V). exists A. split; [exact HA|].
  intros i j Hi. rewrite V by exact Hi. apply (ip_integral (Some ms) (dn s (fn legL trial j)) (fn legL (space_of cls N) i)).
Qed.
Print Assumptions C53_legendre_phi.
(** Legendre mass matrices with a measure *)
Theorem C53_legendre_mass : forall test trial m B, g_fam test = g_fam trial -> (m = None \/ (g_N trial <= g_N test)%nat) ->
  (forall l n, B l n = if Nat.eqb l n then 2 / (2 * INR l + 1) else 0) ->
  forall i j, leg_inner (mval m) (fun x => peval (fn legL test i) x) (fun x => peval (fn legL trial j) x) (assemble_stencil test trial 0 0 leg_Ax m B i j).
Proof.
  intros test trial m B Hf HN HB i j. rewrite (C53_stencil_mass ip legL legL leg_Ax test trial B m ip_form leg_powers Hf); auto.
  - apply ip_integral.
  - intros l n _ _. rewrite HB, t00. reflexivity.
  - intros l n H. rewrite t00. apply T00_0, H.
Qed.
Print Assumptions C53_legendre_mass.

(** ** where the generated matrix is wrong *)
(** a differentiated test function and a measure: the code takes the derivative of measure times test function.
    (x phi_0', phi_1') = 4 for the Dirichlet basis, the matrix holds 6 *)
Theorem C53_test_derivative_measure_refuted :
  assemble_stencil (SD 4) (SD 4) 1 1 leg_Ax (Some mx) (leg_B 1 1) 0%nat 1%nat = 6 /\
  form_entry ip (Some mx) 1 1 (fn legL (SD 4) 0) (fn legL (SD 4) 1) = 4.
Proof. split; [apply asm_a|apply true_a]. Qed.
Print Assumptions C53_test_derivative_measure_refuted.
(** in general: *)
Theorem C53_test_derivative_measure : forall f P P' Ax test trial B t s ms, is_form f -> powers P Ax ->
  (forall l n, (l < g_N test)%nat -> (n < g_N trial)%nat -> B l n = f (dn t (P l)) (dn s (P' n))) ->
  forall i j, (forall k, (k < g_N test)%nat -> stencil test i k <> 0 -> (k + degree ms < g_N test)%nat) ->
  product test trial Ax (Some ms) B i j = f (dn t (times (Some ms) (fn P test i))) (dn s (fn P' trial j)).
Proof.
  intros f P P' Ax test trial B t s ms F HA HB i j HK. apply (product_some f P P' Ax test trial B t s F HA HB).
  intros k l Hk Hs Hl Hd. specialize (HK k Hk Hs). lia.
Qed.
Print Assumptions C53_test_derivative_measure.
(** the test functions Phi_k differentiated: the derivatives of the test function are ignored *)
Theorem C53_phi_test_derivative_refuted :
  (exists A, assemble_phi_orth (space_of legendre_Phi1 6) 6 1 (leg_am 1) leg_bm [(1, 0%nat)] = Some A /\ A 0%nat 1%nat = 1) /\
  ip (dn 1 (legL 1)) (dn 1 (fn legL (space_of legendre_Phi1 6) 0)) = 0.
Proof. split; [destruct code_b as (A & H1 & H2 & _); exists A; auto|apply true_b]. Qed.
Print Assumptions C53_phi_test_derivative_refuted.
(** a trial function of another family: the recursions of the test family are used for it *)
Theorem C53_phi_other_family_refuted :
  (exists A, assemble_phi_orth (space_of legendre_Phi1 6) 6 1 (leg_am 1) leg_bm [(1, 0%nat)] = Some A /\ A 0%nat 3%nat = 0) /\
  ip (dn 1 (chebT 3)) (fn legL (space_of legendre_Phi1 6) 0) <> 0.
Proof. split; [destruct code_b as (A & H1 & _ & H2); exists A; auto|apply true_g]. Qed.
Print Assumptions C53_phi_other_family_refuted.
(** boundary functions with k > dim_ortho: the identity is returned instead of zero *)
Theorem C53_phi_bc_identity_refuted :
  (exists A, assemble_phi_bc (space_of legendre_Phi3 8) 2 Db 3 (leg_am 3) leg_bm [(1, 0%nat)] = Some A /\ A 0%nat 0%nat = 1) /\
  ip (dn 3 (bfn legL 2 Db 0)) (fn legL (space_of legendre_Phi3 8) 0) = 0.
Proof. split; [apply code_f|apply true_f]. Qed.
Print Assumptions C53_phi_bc_identity_refuted.
(** boundary functions with a differentiated test function: entries below the band O are dropped (Neumann conditions) *)
Theorem C53_bc_band_refuted : assemble_stencil_bc (SN 8) 3 SNb leg_Ax None (leg_B 1 1) 5%nat 1%nat = 0 /\
  form_entry ip None 1 1 (fn legL (SN 8) 5) (bfn legL 3 SNb 1) <> 0.
Proof. split; [apply code_c|apply true_c]. Qed.
Print Assumptions C53_bc_band_refuted.
(** the sparsity pattern of the first two rows is too narrow when stencil coefficients vanish there *)
Theorem C53_pattern_refuted : assemble_stencil T8 (SD 8) 0 1 leg_Ax (Some mx) (leg_B 0 1) 2%nat 4%nat = 0 /\
  form_entry ip (Some mx) 0 1 (fn legL T8 2) (fn legL (SD 8) 4) <> 0 /\ bcs_ok legL N2N2.
Proof.
  split; [apply asm_d|]. split; [apply asm_d|].
  apply bcs_ok_intro; [nodup|nodup|]. intros k. pose proof (pos_INR k) as Hk.
  repeat constructor; cbn [stencil_sum sc_stencil N2N2 sval bc_order bc_side end_point]; rewrite ?legL_left, ?legL_right by lia; unfold vL;
    cbn [Nat.add pow]; rewrite ?S_INR; field; split; lra.
Qed.
Print Assumptions C53_pattern_refuted.
(** a trial space larger than the test space, with a measure: the part of measure times test function beyond the test space is dropped *)
Theorem C53_larger_trial_refuted : assemble_stencil (SD 4) (orth 5) 0 0 leg_Ax (Some mx) (leg_B 0 0) 1%nat 4%nat = 0 /\
  form_entry ip (Some mx) 0 0 (fn legL (SD 4) 1) (fn legL (orth 5) 4) <> 0.
Proof. apply asm_e. Qed.
Print Assumptions C53_larger_trial_refuted.

(** non-vacuity: the hypotheses hold for the Legendre Dirichlet space with measure x and one derivative, and the entries are not all zero;
    and for Phi2 *)
Example C53_nonvacuity : is_form ip /\ powers legL leg_Ax /\
  (forall l n, (8 <= l)%nat -> (n < 8)%nat -> ip (legL l) (dn 1 (legL n)) = 0) /\
  A8 0%nat 0%nat <> 0 /\ In (2%nat, legendre_Phi2) phi_classes /\ (0 < first_key (SD 8) + 1)%Z /\
  ip (dn 2 (legL 2)) (fn legL (space_of legendre_Phi2 6) 0) = 1.
Proof.
  split; [apply ip_form|]. split; [apply leg_powers|]. split; [intros; apply leg_beyond; lia|]. split.
  - rewrite (proj2 (entry_d 0 0 ltac:(lia) ltac:(lia))). unfold T00. cbn [Nat.eqb Nat.add INR]. lra.
  - split; [right; left; reflexivity|]. split; [cbn; lia|]. rewrite (C53_legendre_dual 2 legendre_Phi2 6 ltac:(right; left; reflexivity)) by lia. reflexivity.
Qed.
