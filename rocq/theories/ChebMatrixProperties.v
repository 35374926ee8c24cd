(** ChebMatrixProperties.v -- C36: the implemented matrices of the Chebyshev family hold the inner
    products they stand for. *)
From Coq Require Import Reals Lra Lia List Arith ZArith FinFun.
From Verif Require Import Base Fld SparseModel SparseSpec RPoly StencilModel StencilModel2 StencilSpec StencilProofs
  MatrixSpec LegMatrixModel LegMatrixSpec LegMatrixProofs2 ChebMatrixModel ChebMatrixSpec ChebMatrixProofs
  ChebMatrixProofs2 ChebMatrixProofs3 ChebMatrixProofs4 ChebMatrixProofs5 ChebMatrixProofs6 ChebMatrixProofs7 ChebMatrixProofs8
  ChebQuadModel ChebQuadProofs.
Import ListNotations.
Local Open Scope R_scope.

Lemma cheb_norm_mid quadrature q N i : (0 < i < N - 1)%nat -> cheb_norm_sq quadrature q N i = PI / 2.
Proof.
  intros H. unfold cheb_norm_sq, cheb_l2_norm_sq, cheb_L2_norm_sq.
  destruct (Nat.eqb_spec i 0); [lia|]. destruct (Nat.eqb_spec i (N - 1)); [lia|]. destruct quadrature, q; field.
Qed.
Lemma cheb_norm_0 quadrature q N : (2 <= N)%nat -> cheb_norm_sq quadrature q N 0 = PI.
Proof.
  intros H. unfold cheb_norm_sq, cheb_l2_norm_sq, cheb_L2_norm_sq.
  destruct (Nat.eqb_spec 0 (N - 1)); [lia|]. rewrite Nat.eqb_refl. destruct quadrature, q; field.
Qed.
Lemma cheb_norm_exact quadrature q N n : (quadrature = true -> q = LG) -> cheb_norm_sq quadrature q N n = if Nat.eqb n 0 then PI else PI / 2.
Proof.
  intros H. unfold cheb_norm_sq, cheb_l2_norm_sq, cheb_L2_norm_sq. destruct quadrature; [rewrite (H eq_refl)|]; destruct (Nat.eqb n 0); field.
Qed.

(** Every entry of the dictionary, with both scalings of the Heinrichs basis: with exact integration
    or Gauss-Chebyshev quadrature every matrix, and with Gauss-Lobatto quadrature every matrix with a
    derivative, holds the exact weighted inner products. *)
Theorem C36_chebyshev_dictionary : forall quadrature q sc N, (2 <= N)%nat ->
  Forall (fun e => (quadrature = true -> q = LG) \/ (0 < ce_triald e)%nat -> centry_ok sc N e)
    (chebyshev_mat (cheb_norm_sq quadrature q N) sc N).
Proof.
  intros quadrature q sc N HN. unfold chebyshev_mat.
  pose proof (cheb_norm_mid quadrature q N) as Hh. pose proof (cheb_norm_0 quadrature q N HN) as H0.
  assert (D0 : (quadrature = true -> q = LG) \/ (0 < 0)%nat ->
    forall n m, (n < N)%nat -> (m < N)%nat -> cD 0 n m = T00h (cheb_norm_sq quadrature q N) n m).
  { intros [H|H] n m _ _; [|lia]. unfold cD, T00h. cbn [dn]. rewrite cc00, cheb_norm_exact by exact H. reflexivity. }
  assert (D1 : forall n m, (n < N)%nat -> (m < N)%nat -> cD 1 n m = c01 n m) by (intros; apply cc01).
  assert (D2 : forall n m, (n < N)%nat -> (m < N)%nat -> cD 2 n m = c02 n m) by (intros; apply cc02).
  assert (D4 : forall n m, (n < N)%nat -> (m < N)%nat -> cD 4 n m = c04 n m) by (intros; apply cc04).
  repeat (apply Forall_cons; [cbn [ce_triald]; intros HQ|]); [..|apply Forall_nil].
  all: first [ apply (cvals_ok (T00h (cheb_norm_sq quadrature q N)) sc N); [reflexivity|reflexivity|exact (D0 HQ)|]
             | apply (cvals_ok c01 sc N); [reflexivity|reflexivity|exact D1|]
             | apply (cvals_ok c02 sc N); [reflexivity|reflexivity|exact D2|]
             | apply (cvals_ok c04 sc N); [reflexivity|reflexivity|exact D4|] ].
  - apply c_BTT_v; assumption.
  - apply c_BSDSD_v; assumption.
  - apply c_BSBSB_v; assumption.
  - apply c_BSNSN_v; assumption.
  - apply c_BSDSN_v; assumption.
  - apply c_BSNSD_v; assumption.
  - apply c_BLDLD_v; assumption.
  - apply c_BTSN_v; assumption.
  - apply c_BSBSD_v; assumption.
  - apply c_BSBT_v; assumption.
  - apply c_BTSD_v; assumption.
  - apply c_BSDT_v; assumption.
  - apply c_ASDSD_v; assumption.
  - apply c_ATT_v; assumption.
  - apply c_ATSD_v; assumption.
  - apply c_ATSN_v; assumption.
  - apply c_ASNSN_v; assumption.
  - apply c_ACNCN_v; assumption.
  - apply c_ASBSB_v; assumption.
  - apply c_ASBSD_v; assumption.
  - apply c_AHHHH_v; assumption.
  - apply c_ASDMN_v; assumption.
  - apply c_ASNCN_v; assumption.
  - apply c_ASDHH_v; assumption.
  - apply c_SSBSB_v; assumption.
  - apply c_CSDSN_v; assumption.
  - apply c_CSBSD_v; assumption.
  - apply c_ASBT_v; assumption.
  - apply c_CTSD_v; assumption.
  - apply c_CTT_v; assumption.
  - apply c_CSDSD_v; assumption.
  - apply c_CSNSD_v; assumption.
  - apply c_CSDSB_v; assumption.
  - apply c_CSDT_v; assumption.
Qed.
Print Assumptions C36_chebyshev_dictionary.

Lemma quad_ext rule f g : (forall x, f x = g x) -> quad_sum rule f = quad_sum rule g.
Proof. intros H. unfold quad_sum. induction rule as [|[x w] r IH]; cbn [fold_right]; [reflexivity|]. rewrite IH, H. reflexivity. Qed.
Lemma quad_tsumf rule l f : quad_sum rule (fun x => tsumf l (fun i => f i x)) = tsumf l (fun i => quad_sum rule (f i)).
Proof.
  induction l as [|[i c] r IH]; cbn [tsumf].
  - unfold quad_sum. induction rule as [|a rule IH]; cbn [fold_right]; [reflexivity|]. rewrite IH. ring.
  - rewrite <- IH. unfold quad_sum. clear. induction rule as [|a rule IH]; cbn [fold_right]; [ring|]. rewrite IH. ring.
Qed.
Lemma tsumf_mul_r l f y : tsumf l f * y = tsumf l (fun i => f i * y).
Proof. induction l as [|[i c] r IH]; cbn [tsumf]; [ring|]. rewrite <- IH. ring. Qed.
Lemma tsumf_mul_l l f y : y * tsumf l f = tsumf l (fun i => y * f i).
Proof. induction l as [|[i c] r IH]; cbn [tsumf]; [ring|]. rewrite <- IH. ring. Qed.
Lemma quad_csum rule h sc N s1 s2 k j : crule_orthogonal rule h N -> (k < cspace_dim s1 N)%nat -> (j < cspace_dim s2 N)%nat ->
  quad_sum rule (fun x => deriv_at 0 (cspace_basis sc s1 N k) x * deriv_at 0 (cspace_basis sc s2 N j) x) = csum (T00h h) sc s1 s2 k j.
Proof.
  intros RO Hk Hj.
  rewrite (quad_ext _ _ (fun x => tsumf (cterms sc s1 k) (fun n => tsumf (cterms sc s2 j) (fun m => peval (chebT n) x * peval (chebT m) x)))).
  - rewrite quad_tsumf. apply tsumf_ext. intros n Hn. rewrite quad_tsumf. apply tsumf_ext. intros m Hm.
    apply RO; [exact (cterms_bound sc s1 N k n Hk Hn)|exact (cterms_bound sc s2 N j m Hj Hm)].
  - intros x. rewrite !cspace_expands by assumption. rewrite tsumf_mul_r. apply tsumf_ext. intros n _. apply tsumf_mul_l.
Qed.

(** With quadrature the mass matrices hold the sums over the points and weights of the space, for
    Gauss-Chebyshev and for Gauss-Lobatto points. *)
Theorem C36_chebyshev_mass_quadrature : forall q sc N, (2 <= N)%nat ->
  Forall (fun e => ce_triald e = 0%nat -> centry_quad_ok (cheb_rule q N) sc N e) (chebyshev_mat (cheb_norm_sq true q N) sc N).
Proof.
  intros q sc N HN.
  assert (RO : crule_orthogonal (cheb_rule q N) (cheb_norm_sq true q N) N) by (destruct q; [apply GC_orthogonal|apply GL_orthogonal, HN]).
  pose proof (cheb_norm_mid true q N) as Hh. unfold chebyshev_mat.
  repeat (apply Forall_cons; [cbn [ce_triald]; intros HQ; try discriminate HQ|]); [..|apply Forall_nil].
  all: (split; [reflexivity|]); (split; [reflexivity|]); cbn [ce_test ce_trial ce_mat ce_triald]; intros k j Hk Hj;
    rewrite (quad_csum _ _ sc N _ _ k j RO Hk Hj); symmetry; revert k j Hk Hj; match goal with |- forall k j, _ -> _ -> mat_entry _ ?A k j = csum ?D ?s ?a ?b k j => change (cvals D s N a b A) end.
  - apply c_BTT_v; assumption.
  - apply c_BSDSD_v; assumption.
  - apply c_BSBSB_v; assumption.
  - apply c_BSNSN_v; assumption.
  - apply c_BSDSN_v; assumption.
  - apply c_BSNSD_v; assumption.
  - apply c_BLDLD_v; assumption.
  - apply c_BTSN_v; assumption.
  - apply c_BSBSD_v; assumption.
  - apply c_BSBT_v; assumption.
  - apply c_BTSD_v; assumption.
  - apply c_BSDT_v; assumption.
Qed.
Print Assumptions C36_chebyshev_mass_quadrature.
(** With Gauss-Lobatto points the mass matrix of the full space differs from the exact one. *)
Theorem C36_chebyshev_lobatto_differs : forall sc N, (2 <= N)%nat ->
  exists e, In e (chebyshev_mat (cheb_norm_sq true GL N) sc N) /\ ~ centry_ok sc N e.
Proof.
  intros sc N HN. exists (mkCE CT CT 0 (c_BTT (cheb_norm_sq true GL N) N)). split; [left; reflexivity|].
  intros (_ & _ & H). specialize (H (N - 1)%nat (N - 1)%nat). cbn [ce_test ce_trial ce_mat ce_triald cspace_dim] in H.
  specialize (H ltac:(lia) ltac:(lia)).
  pose proof (cheb_inner_cip 0 0 (cspace_basis sc CT N (N - 1)) (cspace_basis sc CT N (N - 1))) as H2.
  destruct H as [p1 E1]. destruct H2 as [p2 E2].
  rewrite (RiemannInt_P5 p1 p2), E2 in E1. cbn [dn cspace_basis] in E1. rewrite cc00 in E1. unfold c00 in E1. rewrite Nat.eqb_refl in E1.
  destruct (Nat.eqb_spec (N - 1) 0); [lia|].
  unfold mat_entry, c_BTT, dmat, arr in E1. cbn [sm_items sm_scale lookup] in E1.
  destruct (Z.eq_dec 0 _) in E1; [|lia]. rewrite Nat.min_id in E1. cbn [dget] in E1.
  change (PI / 2 = cheb_norm_sq true GL N (N - 1) * 1) in E1. unfold cheb_norm_sq, cheb_l2_norm_sq in E1. rewrite Nat.eqb_refl in E1.
  destruct (Nat.eqb_spec (N - 1) 0); [lia|]. pose proof PI_RGT_0. lra.
Qed.
Print Assumptions C36_chebyshev_lobatto_differs.

(** every matrix is well formed (each diagonal inside the matrix, each array with the length of its
    diagonal), except that the (ShenNeumann, ShenDirichlet') matrix has an extra empty diagonal when N is odd *)
Lemma wf_fromkeys rows cols a b g : (- Z.of_nat rows < a)%Z -> (b <= Z.of_nat cols)%Z ->
  (forall z, (a <= z < b)%Z -> Z.even (z - a) = true -> match g z with Scal _ _ => True | Arr _ n _ => n = diag_len rows cols z end) ->
  wf RFld (dmat rows cols (fromkeys (zarange a b) g)).
Proof.
  intros Ha Hb H. split; cbn [dmat sm_items sm_rows sm_cols]; unfold fromkeys.
  - rewrite map_map. cbn [fst]. rewrite map_id. unfold zarange. apply FinFun.Injective_map_NoDup; [|apply seq_NoDup]. intros x y; lia.
  - rewrite Forall_map, Forall_forall. intros z Hz. cbn [fst snd]. apply in_zarange in Hz. destruct Hz as [Hz Ez]. split; [lia|]. apply H; assumption.
Qed.
Lemma no_odd z : Z.even z = true -> exists i, z = (2 * i)%Z. Proof. intros H. apply Z.even_spec in H. exact H. Qed.
Theorem C36_chebyshev_shapes : forall h sc N, (9 <= N)%nat ->
  Forall (fun e => wf RFld (ce_mat e) \/ (Nat.odd N = true /\ ce_test e = CSN /\ ce_trial e = CSD /\ ce_triald e = 1%nat)) (chebyshev_mat h sc N).
Proof.
  intros h sc N HN. unfold chebyshev_mat. repeat apply Forall_cons; try apply Forall_nil; cbn [ce_mat].
  32:{ destruct (Nat.odd N) eqn:O; [right; tauto|left]. unfold c_CSNSD.
    assert (Hodd : (exists n, N = 2 * n)%nat) by (apply Nat.even_spec; rewrite <- Nat.negb_odd, O; reflexivity). destruct Hodd as [n Hn].
    unfold dmat. split; cbn [sm_items sm_rows sm_cols]; unfold fromkeys.
    - rewrite map_map. cbn [fst]. rewrite map_id. unfold zarange. apply FinFun.Injective_map_NoDup; [|apply seq_NoDup]. intros x y; lia.
    - rewrite Forall_map, Forall_forall. intros z Hz. cbn [fst snd]. apply in_zarange in Hz. destruct Hz as [Hz Ez]. apply no_odd in Ez. destruct Ez as [i Ez].
      split; [lia|]. unfold diag_len. destruct (Z.eqb_spec z (-1)); [|destruct (Z.eqb_spec z 1)]; cbn [arr]; lia. }
  all: left.
  all: try solve [split;
    [destruct sc; cbn; repeat constructor; cbn; lia
    |destruct sc; cbn [c_BTT c_BSDSD c_BSNSD c_BSDSN c_BLDLD c_BSNSN c_BSDT c_BTSD c_BTSN c_BSBSB c_BSBSD c_BSBT c_ASDHH c_AHHHH
        c_CSDSN c_CSDSD c_ASBT c_CSDT c_CSBSD c_CSDSB c_ASBSB c_ASBSD c_ACNCN c_ASDMN c_ASNCN dmat sm_items sm_rows sm_cols];
     repeat apply Forall_cons; try apply Forall_nil; cbn [fst snd arr]; unfold diag_len, dmax; split; first [exact I|lia]]].
  all: match goal with |- wf _ ?m => let h := eval hnf in m in idtac end.
  all: first [unfold c_ASDSD|unfold c_ATT|unfold c_ATSD|unfold c_ATSN|unfold c_ASNSN|unfold c_SSBSB|unfold c_CTSD|unfold c_CTT];
    (apply wf_fromkeys; [lia|lia|]); intros z Hz Ez; apply no_odd in Ez; destruct Ez as [i Ez]; unfold diag_len;
    repeat match goal with |- context [Z.eqb z ?a] => destruct (Z.eqb_spec z a) end; cbn [arr]; cbv zeta; try exact I; try lia.
Qed.
Print Assumptions C36_chebyshev_shapes.

(** a value: the inner product of T_0 - T_2 with itself is 3 pi / 2 *)
Example C36_chebyshev_value : cheb_inner (deriv_at 0 (cspace_basis false CSD 5 0)) (deriv_at 0 (cspace_basis false CSD 5 0)) (3 * PI / 2).
Proof.
  pose proof (C36_chebyshev_dictionary false LG false 5 ltac:(lia)) as F. rewrite Forall_forall in F.
  specialize (F (mkCE CSD CSD 0 (c_BSDSD (cheb_norm_sq false LG 5) 5)) ltac:(do 1 right; left; reflexivity) ltac:(left; discriminate)).
  destruct F as (_ & _ & F). specialize (F 0%nat 0%nat ltac:(cbn; lia) ltac:(cbn; lia)).
  cbn [ce_test ce_trial ce_mat ce_triald] in F.
  replace (3 * PI / 2) with (mat_entry RFld (c_BSDSD (cheb_norm_sq false LG 5) 5) 0 0); [exact F|].
  unfold mat_entry. cbn. unfold cheb_L2_norm_sq. cbn [Nat.eqb]. field.
Qed.
(** and a fourth derivative: (D^4 (T_0 - 4/3 T_2 + T_4 / 3), T_0 - ..) = 64 pi *)
Example C36_chebyshev_value4 : cheb_inner (deriv_at 0 (cspace_basis false CSB 6 0)) (deriv_at 4 (cspace_basis false CSB 6 0)) (64 * PI).
Proof.
  pose proof (C36_chebyshev_dictionary false LG false 6 ltac:(lia)) as F. rewrite Forall_forall in F.
  specialize (F (mkCE CSB CSB 4 (c_SSBSB 6)) ltac:(do 24 right; left; reflexivity) ltac:(left; discriminate)).
  destruct F as (_ & _ & F). specialize (F 0%nat 0%nat ltac:(cbn; lia) ltac:(cbn; lia)).
  cbn [ce_test ce_trial ce_mat ce_triald] in F.
  replace (64 * PI) with (mat_entry RFld (c_SSBSB 6) 0 0); [exact F|].
  unfold c_SSBSB. rewrite fromkeys_entry. cbv zeta. change (Z.of_nat 0 - Z.of_nat 0)%Z with 0%Z. cbn [Z.leb Z.ltb Z.eqb Z.even Z.sub Z.compare andb Z.of_nat Pos.of_succ_nat Pos.succ Z.pos_sub Z.opp Z.add Nat.min arr dget].
  change (PI * 8 * (INR 0 + 1) ^ 2 * (INR 0 + 2) * (INR 0 + 4) = 64 * PI). cbn [INR]. ring.
Qed.
