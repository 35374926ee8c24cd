(** LegMatrixProperties.v -- C36 for the Legendre family. *)
From Coq Require Import Reals Lra Lia List Arith ZArith FinFun.
From Verif Require Import Base Fld SparseModel SparseSpec RPoly StencilModel StencilModel2 StencilSpec StencilProofs StencilProofs3
  MatrixSpec MatrixProofs MatrixProofs2 LegMatrixModel LegMatrixSpec LegMatrixProofs LegMatrixProofs2 LegMatrixProofs3 LegMatrixProofs4
  LegMatrixProofs5 LegMatrixProofs6.
Import ListNotations.
Local Open Scope R_scope.

(** * C36: hard coded matrices equal their definition *)

(** every matrix of the dictionary, of every size, holds the integrals over (-1, 1) its key
    promises; with quadrature=True this is so for Gauss points *)
Theorem C36_legendre_dictionary : forall quadrature q N, (quadrature = true -> q = LG) ->
  Forall (entry_ok false N) (legendre_mat (leg_norm_sq quadrature q N) false N).
Proof.
  intros quadrature q N H. apply vals_forall; [|apply legendre_shape]. apply legendre_vals.
  intros i. unfold leg_norm_sq. destruct quadrature; [|reflexivity]. rewrite H by reflexivity. reflexivity.
Qed.
Print Assumptions C36_legendre_dictionary.
(** the classes outside the dictionary *)
Theorem C36_legendre_unused : forall N, Forall (entry_ok false N) (legendre_unused N).
Proof. intros N. apply vals_forall; [apply legendre_unused_vals|apply unused_shape]. Qed.
Print Assumptions C36_legendre_unused.

(** for any rule under which the first N Legendre polynomials are orthogonal with squared norms h
    (Gauss, or Gauss-Lobatto with its changed last norm), the mass matrices hold the quadrature sums *)
Theorem C36_legendre_mass_quadrature : forall rule h N, rule_orthogonal rule h N ->
  Forall (fun e => is_mass e = true -> entry_quad_ok rule false N e) (legendre_mat h false N).
Proof.
  intros rule h N RO. pose proof (mass_entries h N) as M. pose proof (legendre_shape h false N) as S.
  rewrite Forall_forall in *. intros e He Hm. destruct (S e He) as [S1 S2]. split; [exact S1|split; [exact S2|]].
  intros k j Hk Hj. rewrite (M e He Hm).
  pose proof Hm as Hm'. unfold is_mass in Hm'.
  destruct (Nat.eqb_spec (le_testd e) 0) as [->|]; [|discriminate]. destruct (Nat.eqb_spec (le_triald e) 0) as [->|]; [|discriminate].
  destruct (le_weight e); try discriminate. apply mass_quad; assumption.
Qed.
Print Assumptions C36_legendre_mass_quadrature.
(** Simpson's rule is the Gauss-Lobatto rule with three points *)
Definition simpson : list (R * R) := [(-1, 1 / 3); (0, 4 / 3); (1, 1 / 3)].
Example C36_legendre_simpson : rule_orthogonal simpson (leg_norm_sq true GL 3) 3.
Proof.
  intros n m Hn Hm. unfold simpson, quad_sum, leg_norm_sq, leg_l2_norm_sq.
  destruct n as [|[|[|n]]]; try lia; destruct m as [|[|[|m]]]; try lia; simpl; lra.
Qed.

(** ** shapes: every diagonal has the length of that diagonal, for sizes that hold them all *)
Lemma wf_dense rows N s g (sgn : bool) : (forall o, match g o with Scal _ _ => True | Arr _ n _ => n = (N - o)%nat end) -> rows = N -> (1 <= s)%nat ->
  wf RFld (dmat rows N (map (fun o => ((if sgn then Z.of_nat o else - Z.of_nat o)%Z, g o)) (arange2 s N))).
Proof.
  intros H -> Hs. split.
  - cbn [dmat sm_items]. rewrite map_map. cbn [fst].
    assert (ND : NoDup (arange2 s N)).
    { unfold arange2. apply FinFun.Injective_map_NoDup; [intros a b; lia|apply seq_NoDup]. }
    apply FinFun.Injective_map_NoDup; [|exact ND]. intros a b. destruct sgn; lia.
  - cbn [dmat sm_items sm_rows sm_cols]. rewrite Forall_map, Forall_forall. intros o Ho. cbn [fst snd].
    apply in_arange2 in Ho. destruct Ho as [Ho _]. specialize (H o). split; [destruct sgn; lia|]. destruct (g o); [exact I|].
    rewrite H. unfold diag_len. destruct sgn; lia.
Qed.
Theorem C36_legendre_shapes : forall h sc N, (9 <= N)%nat -> Forall (fun e => wf RFld (le_mat e)) (legendre_mat h sc N).
Proof.
  intros h sc N HN. unfold legendre_mat. repeat apply Forall_cons; try apply Forall_nil; cbn [le_mat];
  try solve [split;
    [destruct sc; cbn; repeat constructor; cbn; lia
    |destruct sc; cbn [partial_scale BLLmat CLSDmat CSDLmat CSDSDmat BSDSDmat BSBSBmat BSNSNmat BSDLmat BLSDmat ASDSDmat ASNSNmat SSBSBmat ASBSBmat
        ASDSD2rp1mat ASDSD2Trp1mat AUDUDrp1mat AUDUDrp1smat GUDUDrp1smat BUDUDmat BLDLDmat BDNDNmat ADNDNmat SBFBFmat dmat sm_items sm_rows sm_cols];
     repeat apply Forall_cons; try apply Forall_nil; cbn [fst snd arr]; unfold diag_len; split; first [exact I|lia]]].
  - unfold CLLmat. apply (wf_dense N N 1 (fun _ => Scal RFld 2) true); [intros; exact I|reflexivity|lia].
  - unfold CLLmatT. apply (wf_dense N N 1 (fun _ => Scal RFld 2) false); [intros; exact I|reflexivity|lia].
  - unfold ALLmat. cbv zeta. apply (wf_dense N N 2 _ false); [intros o; reflexivity|reflexivity|lia].
  - unfold ALLmat. cbv zeta. apply (wf_dense N N 2 _ true); [intros o; reflexivity|reflexivity|lia].
Qed.
Print Assumptions C36_legendre_shapes.

(** ** scaled bases: all entries but the ones of (SD,0)x(SD,1), (SD,1)x(SD,0) and of weight 1 + x *)
Theorem C36_legendre_scaled_partial : forall quadrature q N, (quadrature = true -> q = LG) ->
  Forall (fun e => misscaled e = true \/ entry_ok true N e) (legendre_mat (leg_norm_sq quadrature q N) true N).
Proof.
  intros quadrature q N H.
  assert (Hh : forall i, leg_norm_sq quadrature q N i = leg_L2_norm_sq i).
  { intros i. unfold leg_norm_sq. destruct quadrature; [|reflexivity]. rewrite H by reflexivity. reflexivity. }
  pose proof (legendre_scaled_vals _ N Hh) as V. pose proof (legendre_shape (leg_norm_sq quadrature q N) true N) as S.
  rewrite Forall_forall in *. intros e He. destruct (V e He) as [M|M]; [left; exact M|right].
  destruct (S e He). apply e_vals_ok; assumption.
Qed.
Print Assumptions C36_legendre_scaled_partial.
(** the first derivative of a scaled basis is divided by one norm only: the matrix is wrong *)
Theorem C36_legendre_scaled_refuted : forall h N, (4 <= N)%nat ->
  exists e, In e (legendre_mat h true N) /\ le_test e = SpSD /\ le_testd e = 0%nat /\ le_trial e = SpSD /\ le_triald e = 1%nat /\
            ~ entry_ok true N e.
Proof.
  intros h N HN. exists (mkEntry SpSD 0 SpSD 1 W1 (CSDSDmat N true)). unfold legendre_mat.
  split; [do 5 right; left; reflexivity|]. do 4 (split; [reflexivity|]). apply CSDSD_scaled_wrong, HN.
Qed.
Print Assumptions C36_legendre_scaled_refuted.
(** the matrix with weight 1 + x does not look at the scaling *)
Theorem C36_legendre_scaled_rp1_refuted : forall h N, (3 <= N)%nat ->
  exists e, In e (legendre_mat h true N) /\ le_test e = SpSD /\ le_testd e = 0%nat /\ le_trial e = SpSD /\ le_triald e = 2%nat /\
            le_weight e = W1x /\ ~ entry_ok true N e.
Proof.
  intros h N HN. exists (mkEntry SpSD 0 SpSD 2 W1x (ASDSD2rp1mat N)). unfold legendre_mat.
  split; [do 26 right; left; reflexivity|]. do 5 (split; [reflexivity|]). apply ASDSD2_scaled_wrong, HN.
Qed.
Print Assumptions C36_legendre_scaled_rp1_refuted.

(** a value: the squared norm of the first Dirichlet function P_0 - P_2 is 2 + 2/5 *)
Example C36_legendre_value : leg_inner (fun _ => 1) (deriv_at 0 (space_basis false SpSD 5 0)) (deriv_at 0 (space_basis false SpSD 5 0)) (12 / 5).
Proof.
  pose proof (C36_legendre_dictionary false LG 5 ltac:(discriminate)) as F. rewrite Forall_forall in F.
  specialize (F (mkEntry SpSD 0 SpSD 0 W1 (BSDSDmat (leg_norm_sq false LG 5) 5 false)) ltac:(do 7 right; left; reflexivity)).
  destruct F as (_ & _ & F). specialize (F 0%nat 0%nat ltac:(cbn; lia) ltac:(cbn; lia)).
  cbn [le_weight le_test le_testd le_trial le_triald le_mat] in F.
  replace (12 / 5) with (mat_entry RFld (BSDSDmat (leg_norm_sq false LG 5) 5 false) 0 0); [exact F|].
  unfold mat_entry. cbn. unfold leg_L2_norm_sq. simpl. lra.
Qed.
