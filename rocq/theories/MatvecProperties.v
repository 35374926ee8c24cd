(** MatvecProperties.v -- C45: the special matrix-vector products.

    A matrix object is [smul (scaled c X) s]: the class X assembled with the constant c (power of the
    domain factor, measure, constructor scale), and multiplied by s afterwards.  [None] is an access
    outside the arrays or an exception. *)
From Coq Require Import Reals ZArith List Arith Bool Lia Lra.
From Verif Require Import Base Fld SparseModel SparseSpec SparseProofs RPoly StencilModel StencilModel2 LegMatrixModel
  LegMatrixProofs5 LegMatrixProofs6 ChebMatrixModel ChebMatrixProofs2 HelmholtzModel HelmholtzProofs HelmholtzProofs3 HelmholtzProofs4 HelmholtzProofs5 HelmholtzProofs7
  BiharmonicModel BiharmonicProofs3 MatvecModel MatvecSpec MatvecProofs MatvecProofs2 MatvecProofs3 MatvecProofs4 MatvecProofs5 MatvecProofs6 MatvecProofs7 MatvecProofs8.
Import ListNotations.
Local Open Scope R_scope.
Notation obj c s X := (smul RFld (scaled c X) s).

Lemma nonzero_mult_PI x : x <> 0 -> x * PI <> 0.
Proof. intros H. apply Rmult_integral_contrapositive_currified; [exact H|]. pose proof PI_RGT_0. lra. Qed.

(** ** banded matrices, for every array h of norms *)
Theorem C45_BSDSD h N c s v : proper_scale s -> (6 <= N)%nat ->
  returns_product (BSDSD_cython (obj c s (c_BSDSD h N)) v) (obj c s (c_BSDSD h N)) v /\
  returns_product (BSDSD_self (obj c s (c_BSDSD h N)) v) (obj c s (c_BSDSD h N)) v.
Proof. intros Hs HN. split; [apply BSDSD_ok|apply BSDSD_self_ok]; auto; lia. Qed.
Theorem C45_BSDSN h N c s v : proper_scale s -> (6 <= N)%nat ->
  returns_product (BSDSN_cython (obj c s (c_BSDSN h N)) v) (obj c s (c_BSDSN h N)) v.
Proof. intros Hs HN. apply BSDSN_ok; auto. Qed.
Theorem C45_BSBSB h N c s v : proper_scale s -> (12 <= N)%nat ->
  returns_product (BSBSB_cython (obj c s (c_BSBSB h N)) v) (obj c s (c_BSBSB h N)) v /\
  returns_product (BSBSB_self N (obj c s (c_BSBSB h N)) v) (obj c s (c_BSBSB h N)) v.
Proof. intros Hs HN. split; [apply BSBSB_ok|apply BSBSB_self_ok]; auto; lia. Qed.
Theorem C45_BSBSD h N c s v : proper_scale s -> (8 <= N)%nat ->
  returns_product (BSBSD_cython (obj c s (c_BSBSD h N)) v) (obj c s (c_BSBSD h N)) v /\
  returns_product (BSBSD_self N (obj c s (c_BSBSD h N)) v) (obj c s (c_BSBSD h N)) v.
Proof. intros Hs HN. split; [apply BSBSD_ok|apply BSBSD_self_ok]; auto; lia. Qed.
Theorem C45_CSDSN N c s v : proper_scale s -> (4 <= N)%nat ->
  returns_product (CSD_cython (obj c s (c_CSDSN N)) v) (obj c s (c_CSDSN N)) v.
Proof. intros Hs HN. apply CSDSN_ok; auto. Qed.
Theorem C45_CSDSD N c s v : proper_scale s -> (4 <= N)%nat ->
  returns_product (CSD_cython (obj c s (c_CSDSD N)) v) (obj c s (c_CSDSD N)) v /\
  returns_product (CSDSD_self (obj c s (c_CSDSD N)) v) (obj c s (c_CSDSD N)) v.
Proof. intros Hs HN. split; [apply CSDSD_ok|apply CSDSD_self_ok]; auto; lia. Qed.
Theorem C45_CSBSD N c s v : proper_scale s -> (6 <= N)%nat ->
  returns_product (CSBSD_cython (obj c s (c_CSBSD N)) v) (obj c s (c_CSBSD N)) v /\
  returns_product (CSBSD_self (obj c s (c_CSBSD N)) v) (obj c s (c_CSBSD N)) v.
Proof. intros Hs HN. split; [apply CSBSD_ok|apply CSBSD_self_ok]; auto; lia. Qed.
Theorem C45_CSDSB N c s v : proper_scale s -> (8 <= N)%nat ->
  returns_product (CSDSB_cython (obj c s (c_CSDSB N)) v) (obj c s (c_CSDSB N)) v /\
  returns_product (CSDSB_self (obj c s (c_CSDSB N)) v) (obj c s (c_CSDSB N)) v.
Proof. intros Hs HN. split; [apply CSDSB_ok|apply CSDSB_self_ok]; auto; lia. Qed.
Theorem C45_ASBSB N c s v : proper_scale s -> (8 <= N)%nat ->
  returns_product (ASBSB_cython (obj c s (c_ASBSB N)) v) (obj c s (c_ASBSB N)) v /\
  returns_product (ASBSB_self (obj c s (c_ASBSB N)) v) (obj c s (c_ASBSB N)) v.
Proof. intros Hs HN. split; [apply ASBSB_ok|apply ASBSB_self_ok]; auto; lia. Qed.

(** ** dense matrices, by running sums; the constant c is the keyscale of the object *)
Theorem C45_ASDSD N c s v : c <> 0 -> proper_scale (s * c) -> (4 <= N)%nat ->
  returns_product (ASDSD_cython c (obj c s (c_ASDSD N)) v) (obj c s (c_ASDSD N)) v.
Proof. apply ASDSD_ok. Qed.
Theorem C45_CTT N c s v : proper_scale (s * c) -> (1 <= N)%nat ->
  returns_product (CTT_cython N c (obj c s (c_CTT N)) v) (obj c s (c_CTT N)) v.
Proof. apply CTT_ok. Qed.
Theorem C45_CLL N c s v : proper_scale (s * c) -> (1 <= N)%nat ->
  returns_product (CLL_cython N c (obj c s (CLLmat N)) v) (obj c s (CLLmat N)) v /\
  returns_product (CLL_self N c (obj c s (CLLmat N)) v) (obj c s (CLLmat N)) v.
Proof. intros Hs HN. split; [apply CLL_ok|apply CLL_self_ok]; auto. Qed.
Theorem C45_CTSD_partial N s v : proper_scale s -> (4 <= N)%nat ->
  returns_product (CTSD_cython N (obj 1 s (c_CTSD N)) v) (obj 1 s (c_CTSD N)) v.
Proof. apply CTSD_ok. reflexivity. Qed.
Theorem C45_ATT_partial N c s v : proper_scale (s * c) -> (2 <= Z.of_nat N <= 1291)%Z ->
  returns_product (ATT_cython N c (obj c s (c_ATT N)) v) (obj c s (c_ATT N)) v.
Proof. apply ATT_ok. Qed.
Theorem C45_SSBSB_partial N c s v : c <> 0 -> proper_scale (s * c) -> (6 <= Z.of_nat N <= 9464)%Z ->
  returns_product (SSBSB_cython c (obj c s (c_SSBSB N)) v) (obj c s (c_SSBSB N)) v.
Proof. apply SSBSB_ok. Qed.

(** ** the Neumann matrices.  The array c given by the caller is not cleared *)
Theorem C45_BSNSN_partial h N c s v c0 : (6 <= N)%nat ->
  let A := obj c s (c_BSNSN h N) in
  exists b, BSNSN_matvec N A v c0 = Some b /\ (forall k, (k < N - 2)%nat -> b k = product A v k) /\ (forall k, (N - 2 <= k < N)%nat -> b k = c0 k * s).
Proof. apply BSNSN_mv_ok. Qed.
Theorem C45_BSNSN_refuted h N c s v : (6 <= N)%nat -> s <> 0 ->
  let A := obj c s (c_BSNSN h N) in exists c0 b, BSNSN_matvec N A v c0 = Some b /\ ~ is_product A v b.
Proof.
  intros HN Hs A. destruct (BSNSN_mv_ok h N c s v (fun _ => 1) HN) as (b & E & _ & H2). exists (fun _ => 1), b. split; [exact E|].
  intros [_ H]. specialize (H (N - 2)%nat ltac:(cbn; lia)). rewrite H2 in H by lia. lra.
Qed.
Theorem C45_ASNSN_partial N c v c0 : (5 <= N)%nat ->
  let A := obj c 1 (c_ASNSN N) in
  (exists b, ann_matvec_numba (N - 2) A v c0 = Some b /\ forall k, (k < N - 2)%nat -> b k = product A v k) /\
  (forall k, (k < N - 2)%nat -> ann_matvec_py N c 1 v c0 k = product A v k).
Proof.
  intros HN A. split.
  - destruct (ann_numba_value N c 1 v c0 HN) as (b & E & H). exists b. split; [exact E|]. intros k Hk. rewrite H by exact Hk.
    unfold A. rewrite product_obj. change (sm_cols RFld (c_ASNSN N)) with (N - 2)%nat. destruct (Req_EM_T 1 1); [ring|congruence].
  - intros k Hk. rewrite ann_py_value by (try exact HN; exact Hk). unfold A. rewrite product_obj. change (sm_cols RFld (c_ASNSN N)) with (N - 2)%nat. ring.
Qed.
(** the scale: the numba product divides by it, the Python product multiplies by it twice *)
Lemma ASNSN_e1 N : (5 <= N)%nat -> rsum (N - 2) (fun j => mat_entry RFld (c_ASNSN N) 1 j * unit_vec 1 j) <> 0.
Proof.
  intros HN. rewrite ASNSN_sum by lia. rewrite (tail_ext _ _ _ (fun _ => 0)).
  - replace (tail (N - 2) (1 + 2) (fun _ => 0)) with 0 by (symmetry; apply rsum_zero; intros; destruct (_ && _)%bool; reflexivity).
    unfold unit_vec, sqn. cbn. pose proof PI_RGT_0. lra.
  - intros j Hj. unfold unit_vec. destruct (Nat.eqb_spec j 1); [lia|]. ring.
Qed.
Theorem C45_ASNSN_scale_refuted N c s c0 : (5 <= N)%nat -> c <> 0 -> s <> 0 -> s <> 1 ->
  let A := obj c s (c_ASNSN N) in
  (s <> -1 -> exists b, ann_matvec_numba (N - 2) A (unit_vec 1) c0 = Some b /\ b 1%nat <> product A (unit_vec 1) 1) /\
  ann_matvec_py N c s (unit_vec 1) c0 1%nat <> product A (unit_vec 1) 1.
Proof.
  intros HN Hc Hs H1 A. pose proof (ASNSN_e1 N HN) as Hr. set (r := rsum _ _) in Hr.
  assert (Hp : product A (unit_vec 1) 1 = s * c * r) by (unfold A; rewrite product_obj; reflexivity).
  rewrite Hp. split.
  - intros Hm. destruct (ann_numba_value N c s (unit_vec 1) c0 HN) as (b & E & H). exists b. split; [exact E|]. rewrite H by lia. fold r.
    destruct (Req_EM_T s 1); [congruence|]. intros E2.
    assert (E3 : (s - 1) * (s + 1) * (c * r) = 0) by (replace ((s - 1) * (s + 1) * (c * r)) with (s * (s * c * r) - c * r) by ring; rewrite <- E2; field; exact Hs).
    assert (c * r <> 0) by (apply Rmult_integral_contrapositive_currified; assumption).
    assert (s - 1 <> 0) by lra. assert (s + 1 <> 0) by lra.
    revert E3. apply Rmult_integral_contrapositive_currified; [apply Rmult_integral_contrapositive_currified|]; assumption.
  - rewrite ann_py_value by lia. fold r. intros E2. assert (E3 : s * (s - 1) * (c * r) = 0) by (replace (s * (s - 1) * (c * r)) with (s ^ 2 * c * r - s * c * r) by ring; rewrite E2; ring).
    assert (c * r <> 0) by (apply Rmult_integral_contrapositive_currified; assumption). assert (s - 1 <> 0) by lra.
    revert E3. apply Rmult_integral_contrapositive_currified; [apply Rmult_integral_contrapositive_currified|]; assumption.
Qed.

(** ** Helmholtz(A, B, alfa, beta).matvec *)
Definition combination2 (al be : R) (A B : smat RFld) (k j : nat) : R := al * mat_entry RFld A k j + be * mat_entry RFld B k j.
Definition returns_rows (n : nat) (o : option (nat -> R)) (A : nat -> nat -> R) (v : nat -> R) : Prop :=
  exists b, o = Some b /\ rows_product n A v b /\ forall k, (n <= k)%nat -> b k = 0.
Theorem C45_helmholtz_dirichlet_partial quadrature q N ca al be v : (6 <= N)%nat ->
  let A := scaled ca (c_ASDSD N) in let B := scaled 1 (c_BSDSD (cheb_norm_sq quadrature q N) N) in
  returns_rows (N - 2) (helmholtz_matvec A B al be v) (combination2 al be A B) v.
Proof.
  intros HN A B. destruct (hmv_value (cheb_norm_sq quadrature q N) N ca 1 al be v (norms_cheb quadrature q N ltac:(lia)) HN) as (b & E & H0 & H).
  exists b. split; [exact E|]. split; [|exact H0]. intros k Hk. rewrite H by exact Hk. unfold combination2. fold A B. unfold Rdiv. ring.
Qed.
Theorem C45_helmholtz_dirichlet_refuted quadrature q N ca cb al be : (6 <= N)%nat -> be <> 0 -> cb <> 1 ->
  let A := scaled ca (c_ASDSD N) in let B := scaled cb (c_BSDSD (cheb_norm_sq quadrature q N) N) in
  exists v b, helmholtz_matvec A B al be v = Some b /\ ~ rows_product (N - 2) (combination2 al be A B) v b.
Proof.
  intros HN Hb Hc A B. exists (unit_vec 0).
  destruct (hmv_value (cheb_norm_sq quadrature q N) N ca cb al be (unit_vec 0) (norms_cheb quadrature q N ltac:(lia)) HN) as (b & E & H0 & H).
  exists b. split; [exact E|]. intros Hr. specialize (Hr 2%nat ltac:(lia)). rewrite H in Hr by lia. unfold combination2 in Hr. fold A B in Hr.
  unfold below, above, unit_vec in Hr. destruct (Nat.ltb_spec (2 - 2) (N - 2)); [|lia]. cbn [Nat.leb andb Nat.eqb Nat.sub Nat.add] in Hr.
  assert (E2 : be * (cb - 1) * PI / 2 = 0) by (destruct (Nat.ltb 4 (N - 2)); lra).
  assert (Hn : be * (cb - 1) <> 0) by (apply Rmult_integral_contrapositive_currified; lra).
  apply (nonzero_mult_PI _ Hn). lra.
Qed.
Theorem C45_helmholtz_neumann_numba h N ca cb al be v : (8 <= N)%nat ->
  let A := scaled ca (c_ASNSN N) in let B := scaled cb (c_BSNSN h N) in
  returns_rows (N - 2) (helmholtz_neumann_matvec Numba A B al be v) (combination2 al be A B) v.
Proof.
  intros HN A B. destruct (hnmv_value h N ca cb al be v HN) as (b & E & H0 & H). exists b. split; [exact E|]. split; [exact H|exact H0].
Qed.
(** the cython version rounds 1/k^2 to an integer: with beta = 0 row 2 of the product with the third basis
    function is always 0 *)
Lemma hnmv_cython M al be dd ud bl bd bu v : (6 <= M)%nat -> 
  helmholtz_neumann_matvec_1D Cython M al be dd ud bl bd bu v 2 = (dd 2%nat * al + bd 2%nat * be) * (v 2%nat * sqn 2) + ud 2%nat * al * tail M 4 (fun j => v j * sqn j)
     + be * (bl 0%nat * (v 0%nat * sqn 0)) + be * (bu 2%nat * (v 4%nat * sqn 4)) + bl 0%nat * v 0%nat * be.
Proof.
  intros HM. set (w := fun j => v j * sqn j). unfold helmholtz_neumann_matvec_1D. cbv zeta.
  set (b0 := upd (upd (fun _ => 0) _ _) _ _).
  pose proof (loop1o (fun k => negb (Nat.even (k + 2))) (fun k => w (k + 4)%nat)
     (fun k t => (dd (k + 2)%nat * al + bd (k + 2)%nat * be) * w (k + 2)%nat + be * (bl (k + 2 - 2)%nat * w (k + 2 - 2)%nat + bu (k + 2)%nat * w (k + 2 + 2)%nat) + ud (k + 2)%nat * al * t) 2
     ltac:(intros; cbv beta; rewrite !even_2, even_S; reflexivity) (hnmv_step al be dd ud bl bd bu v) (M - 4)) as L.
  assert (St : forall i b s1 s2, (i < M - 4)%nat -> exists b', (forall j, b' j = upd b (i + 2)
      ((dd (i + 2)%nat * al + bd (i + 2)%nat * be) * w (i + 2)%nat + be * (bl (i + 2 - 2)%nat * w (i + 2 - 2)%nat + bu (i + 2)%nat * w (i + 2 + 2)%nat) + ud (i + 2)%nat * al * (if negb (Nat.even (i + 2)) then s1 + w (i + 4)%nat else s2 + w (i + 4)%nat)) j) /\
      hnmv_step al be dd ud bl bd bu v i (b, s1, s2) = if negb (Nat.even (i + 2)) then (b', s1 + w (i + 4)%nat, s2) else (b', s1, s2 + w (i + 4)%nat)).
  { intros i b s1 s2 Hi. unfold hnmv_step. replace (i + 4)%nat with (i + 2 + 2)%nat by lia. unfold w.
    destruct (Nat.even (i + 2)); cbn [negb]; eexists; (split; [|reflexivity]); intros j; (destruct (Nat.eq_dec j (i + 2)) as [->|]; upds; [ring|reflexivity]). }
  specialize (L St b0).
  destruct (for_down (M - 4) (hnmv_step al be dd ud bl bd bu v) (b0, 0, 0)) as [[b s1] s2]. destruct L as (L & _ & _).
  specialize (L 2%nat). rewrite (tail_shift 4) in L. replace (M - 4 + 4)%nat with M in L by lia.
  unfold upd. cbn [Nat.eqb]. rewrite L. destruct (Nat.leb_spec 2 2); [|lia]. destruct (Nat.ltb_spec 2 (M - 4 + 2)); [|lia]. cbn [andb Nat.sub Nat.add]. unfold w. ring.
Qed.
Theorem C45_helmholtz_neumann_cython_refuted h N ca cb al : (8 <= N)%nat -> ca <> 0 -> al <> 0 ->
  let A := scaled ca (c_ASNSN N) in let B := scaled cb (c_BSNSN h N) in
  exists b, helmholtz_neumann_matvec Cython A B al 0 (unit_vec 2) = Some b /\ b 2%nat = 0 /\
    ~ rows_product (N - 2) (combination2 al 0 A B) (unit_vec 2) b.
Proof.
  intros HN Hc Ha A B. unfold helmholtz_neumann_matvec. destruct (hn_keys h N ca cb HN) as (D & E & H0 & _). unfold A, B. rewrite E.
  eexists. split; [reflexivity|]. change (sm_rows RFld (scaled ca (c_ASNSN N))) with (N - 2)%nat.
  assert (Z : helmholtz_neumann_matvec_1D Cython (N - 2) al 0 (dA0 (pre_cython_matvec D)) (dA2 (pre_cython_matvec D)) (dBm (pre_cython_matvec D))
     (dB0 (pre_cython_matvec D)) (dB2 (pre_cython_matvec D)) (unit_vec 2) 2%nat = 0).
  { rewrite hnmv_cython by lia. cbn [pre_cython_matvec dA0 dA2 dBm dB0 dB2]. change (int_j2 2) with 0. change (unit_vec 2 0) with 0. cbn [Nat.eqb].
    rewrite (tail_ext _ _ _ (fun _ => 0)).
    - replace (tail (N - 2) 4 (fun _ => 0)) with 0 by (symmetry; apply rsum_zero; intros; destruct (_ && _)%bool; reflexivity). ring.
    - intros j Hj. unfold unit_vec. destruct (Nat.eqb_spec j 2); [lia|]. ring. }
  split; [exact Z|]. intros H. specialize (H 2%nat ltac:(lia)). cbv beta in H. rewrite Z in H. clear Z.
  rewrite (rsum_ext _ _ (fun j => al * ca * (mat_entry RFld (c_ASNSN N) 2 j * unit_vec 2 j))) in H by (intros; unfold combination2; rewrite !scaled_entry; ring).
  rewrite rsum_scal, ASNSN_sum in H by lia.
  rewrite (tail_ext _ _ (fun j => unit_vec 2 j * sqn j) (fun _ => 0)) in H by (intros j Hj; unfold unit_vec; destruct (Nat.eqb_spec j 2); [lia|]; ring).
  replace (tail (N - 2) (2 + 2) (fun _ => 0)) with 0 in H by (symmetry; apply rsum_zero; intros; destruct (_ && _)%bool; reflexivity).
  assert (Hn : al * ca <> 0) by (apply Rmult_integral_contrapositive_currified; assumption).
  apply (nonzero_mult_PI _ Hn). unfold unit_vec, sqn in H. cbn in H. lra.
Qed.

(** ** Biharmonic(S, A, B, a0, alfa, beta).matvec *)
Definition combination3 (a al be : R) (S A B : smat RFld) (k j : nat) : R :=
  a * mat_entry RFld S k j + al * mat_entry RFld A k j + be * mat_entry RFld B k j.
Theorem C45_biharmonic_partial im h N da db a0 al be v : (14 <= N)%nat -> (im = Cython -> (Z.of_nat N <= 9468)%Z) ->
  let S := scaled 1 (c_SSBSB N) in let A := scaled da (c_ASBSB N) in let B := scaled db (c_BSBSB h N) in
  returns_rows (N - 4) (Biharmonic_matvec im S A B a0 al be v) (combination3 a0 al be S A B) v.
Proof.
  intros HN Hi S A B. destruct (bmv_value h N 1 da db v im a0 al be HN) as (b & E & H0 & H). exists b. split; [exact E|]. split; [|exact H0].
  intros k Hk. rewrite H by exact Hk. rewrite far_ok by assumption.
  rewrite (rsum_ext _ (fun j => combination3 a0 al be S A B k j * v j)
    (fun j => (al * mat_entry RFld A k j + be * mat_entry RFld B k j) * v j + a0 * (mat_entry RFld (c_SSBSB N) k j * v j))).
  - rewrite rsum_add, (rsum_scal _ a0), S_near by exact Hk. fold A B. ring.
  - intros j Hj. unfold combination3, S. rewrite scaled_entry. ring.
Qed.

(** ** where they go wrong *)
Lemma tail_unit M a j g : (a <= j < M)%nat -> Nat.even (j - a) = true -> tail M a (fun i => g i * unit_vec j i) = g j.
Proof.
  intros Hj He. unfold tail. rewrite (rsum_ext _ _ (fun i => if Nat.eqb i j then g i else 0)).
  - rewrite rsum_one. destruct (Nat.ltb_spec j M); [reflexivity|lia].
  - intros i Hi. unfold unit_vec. destruct (Nat.eqb_spec i j) as [->|].
    + rewrite He. destruct (Nat.leb_spec a j); [cbn [andb]; ring|lia].
    + destruct (_ && _)%bool; ring.
Qed.
Lemma tail_unit' M a j g : (a <= j < M)%nat -> Nat.even (j - a) = true -> tail M a (fun i => unit_vec j i * g i) = g j.
Proof. intros Hj He. rewrite <- (tail_unit M a j g Hj He). apply tail_ext. intros. ring. Qed.
Lemma scaled_value sc r c k : proper_scale sc -> with_scale sc (Some r) = Some c -> c k = sc * r k.
Proof.
  intros Hs E. cbn in E. injection E as <-. unfold scale_array. destruct (Rlt_dec _ _); [ring|]. destruct Hs as [->|Hs]; [ring|lra].
Qed.
(** CTSDmat: the kernel has pi built in, the assembled matrix pi*c *)
Theorem C45_CTSD_refuted N c s : (4 <= N)%nat -> c <> 1 -> s <> 0 -> proper_scale s ->
  exists v b, CTSD_cython N (obj c s (c_CTSD N)) v = Some b /\ ~ is_product (obj c s (c_CTSD N)) v b.
Proof.
  intros HN Hc Hs Hp. exists (unit_vec 0). unfold CTSD_cython. destruct (CTSD_spec N (unit_vec 0) HN) as (r & -> & Hr).
  change (sm_scale RFld (obj c s (c_CTSD N))) with (1 * s). rewrite Rmult_1_l.
  destruct (with_scale s (Some r)) as [b|] eqn:E; [|discriminate]. exists b. split; [reflexivity|]. intros [H _].
  specialize (H 1%nat ltac:(cbn; lia)). rewrite (scaled_value _ _ _ _ Hp E), Hr, product_obj in H. change (sm_cols RFld (c_CTSD N)) with (N - 2)%nat in H.
  rewrite CTSD_row in H by lia. destruct (Nat.ltb_spec 1 (N - 1)); [|lia]. destruct (Nat.ltb_spec 0 1); [|lia]. cbn [andb] in H.
  rewrite (tail_ext _ _ _ (fun _ => 0)) in H by (intros j Hj; unfold unit_vec; destruct (Nat.eqb_spec j 0); [lia|reflexivity]).
  replace (tail (N - 2) (1 + 1) (fun _ => 0)) with 0 in H by (symmetry; apply rsum_zero; intros; destruct (_ && _)%bool; reflexivity).
  unfold unit_vec in H. cbn in H.
  assert (Hn : s * (c - 1) <> 0) by (apply Rmult_integral_contrapositive_currified; lra). apply (nonzero_mult_PI _ Hn). lra.
Qed.
(** ATTmat: j**3 is a C int, and wraps around from j = 1291 on *)
Theorem C45_ATT_overflow_refuted N c s : (1292 <= Z.of_nat N)%Z -> s * c <> 0 -> proper_scale (s * c) ->
  exists v b, ATT_cython N c (obj c s (c_ATT N)) v = Some b /\ ~ is_product (obj c s (c_ATT N)) v b.
Proof.
  intros HN Hc Hp. exists (unit_vec (Z.to_nat 1291)). set (j := Z.to_nat 1291). set (k := Z.to_nat 1289).
  assert (Ej : Z.of_nat j = 1291%Z) by reflexivity. assert (Ek : Z.of_nat k = 1289%Z) by reflexivity. assert (Ekj : (j = k + 2)%nat) by lia.
  assert (Ej' : INR j = 1291) by (rewrite INR_IZR_INZ, Ej; reflexivity). assert (Ek' : INR k = 1289) by (rewrite INR_IZR_INZ, Ek; reflexivity).
  clearbody j k.
  unfold ATT_cython. destruct (ATT_spec N (unit_vec j) ltac:(lia)) as (r & -> & Hr).
  change (sm_scale RFld (obj c s (c_ATT N))) with (1 * s). rewrite Rmult_1_l.
  destruct (with_scale (s * c) (Some r)) as [b|] eqn:E; [|discriminate]. exists b. split; [reflexivity|]. intros [H _].
  specialize (H k ltac:(cbn; lia)). rewrite (scaled_value _ _ _ _ Hp E), Hr, product_obj in H. change (sm_cols RFld (c_ATT N)) with N in H.
  rewrite ATT_row in H by lia. destruct (Nat.ltb_spec k N); [|lia]. unfold att_tail in H.
  assert (He : Nat.even (j - (k + 2)) = true) by (replace (j - (k + 2))%nat with 0%nat by lia; reflexivity).
  rewrite (tail_unit N (k + 2) j (fun j => IZR (wrap32 (Z.of_nat j ^ 3)))), (tail_unit N (k + 2) j INR), (tail_unit N (k + 2) j (fun j => INR j ^ 3)) in H by (try lia; exact He).
  rewrite Ej, Ek, Ej', Ek' in H. change (wrap32 (1291 ^ 3)) with (-2143282125)%Z in H. change (wrap32 (1289 ^ 2)) with 1661521%Z in H.
  apply (nonzero_mult_PI _ Hc). lra.
Qed.
(** SSBSBmat: 24*(k+1)*(k+2) is a C int, and wraps around from k = 9458 on *)
Theorem C45_SSBSB_overflow_refuted N c s : (9465 <= Z.of_nat N)%Z -> c <> 0 -> s <> 0 -> proper_scale (s * c) ->
  exists v b, SSBSB_cython c (obj c s (c_SSBSB N)) v = Some b /\ ~ is_product (obj c s (c_SSBSB N)) v b.
Proof.
  intros HN Hc Hs Hp. exists (unit_vec (Z.to_nat 9460)). set (j := Z.to_nat 9460). set (k := Z.to_nat 9458).
  assert (Ej : Z.of_nat j = 9460%Z) by (apply Z2Nat.id; lia). assert (Ek : Z.of_nat k = 9458%Z) by (apply Z2Nat.id; lia). assert (Ekj : (j = k + 2)%nat) by lia.
  assert (Ej' : INR j = 9460) by (rewrite INR_IZR_INZ, Ej; reflexivity). assert (Ek' : INR k = 9458) by (rewrite INR_IZR_INZ, Ek; reflexivity).
  clearbody j k. unfold SSBSB_cython.
  assert (E : akey (obj c s (c_SSBSB N)) 0 = Some ((N - 4)%nat, fun i => PI * 8 * (INR i + 1) ^ 2 * (INR i + 2) * (INR i + 4) * c)).
  { unfold akey. cbn [smul scaled sm_items]. rewrite dict_get_lookup, lookup_scaled. unfold c_SSBSB, dmat, fromkeys. cbn [sm_items].
    rewrite (lookup_map_in (fun z => z)); [|trivial|apply zin; [lia|reflexivity]]. reflexivity. }
  rewrite E. clear E. cbn [obind fst snd].
  match goal with |- context [SBB_matvec _ ?d (unit_vec j)] => destruct (SBB_spec (N - 4) d (unit_vec j) ltac:(lia)) as (r & -> & Hr) end.
  change (sm_scale RFld (obj c s (c_SSBSB N))) with (1 * s). rewrite Rmult_1_l.
  destruct (with_scale (s * c) (Some r)) as [b|] eqn:E; [|discriminate]. exists b. split; [reflexivity|]. intros [H _].
  specialize (H k ltac:(cbn; lia)). rewrite (scaled_value _ _ _ _ Hp E), Hr, product_obj in H. change (sm_cols RFld (c_SSBSB N)) with (N - 4)%nat in H.
  rewrite SSBSB_row in H by lia. destruct (Nat.ltb_spec k (N - 4)); [|lia]. unfold sbb_tail in H.
  assert (He : Nat.even (j - (k + 2)) = true) by (replace (j - (k + 2))%nat with 0%nat by lia; reflexivity).
  assert (T : forall g, tail (N - 4) (k + 2) (fun i => g i * (unit_vec j i / (INR i + 3))) = g j / (INR j + 3)).
  { intros g. rewrite <- (tail_unit (N - 4) (k + 2) j (fun i => g i / (INR i + 3))) by (try lia; exact He). apply tail_ext. intros. unfold Rdiv. ring. }
  assert (T1 : tail (N - 4) (k + 2) (fun i => unit_vec j i / (INR i + 3)) = / (INR j + 3)).
  { rewrite <- (tail_unit (N - 4) (k + 2) j (fun i => / (INR i + 3))) by (try lia; exact He). apply tail_ext. intros. unfold Rdiv. ring. }
  rewrite T1, (T (fun i => IZR (wrap32 ((Z.of_nat i + 2) * (Z.of_nat i + 2))))), (T (fun i => (INR i + 2) ^ 2)) in H.
  assert (Hz : unit_vec j k = 0) by (unfold unit_vec; destruct (Nat.eqb_spec k j); [lia|reflexivity]).
  rewrite Hz, plus_INR, Ej, Ek, Ej', Ek' in H. cbn [INR] in H.
  change (wrap32 (24 * (9458 + 1) * (9458 + 2))) with (-2147395936)%Z in H. change (wrap32 ((9460 + 2) * (9460 + 2))) with 89529444%Z in H.
  assert (Hn : s * c <> 0) by (apply Rmult_integral_contrapositive_currified; assumption). apply (nonzero_mult_PI _ Hn).
  replace (9458 * (PI * 8 * (9458 + 1) ^ 2 * (9458 + 2) * (9458 + 4) * c / c) / (9458 + 1)) with (8 * (9458 + 1) * (9458 + 2) * PI * (9458 * (9458 + 4))) in H by (field; exact Hc).
  lra.
Qed.
(** Biharmonic: the sums of S beyond its third diagonal ignore the domain factor of S (row 0), and
    overflow in cython (row 9458) *)
Lemma far_unit im M k sk j : (k + 6 <= j < M)%nat -> Nat.even (j - (k + 6)) = true -> far im M k sk (unit_vec j)
  = INR k * sk / (INR k + 1) * (/ (INR j + 3)) + IZR (iw im (24 * (Z.of_nat k + 1) * (Z.of_nat k + 2))) * PI * (IZR (iw im ((Z.of_nat j + 2) * (Z.of_nat j + 2))) * / (INR j + 3)).
Proof.
  intros Hj He. unfold far. rewrite <- (tail_unit M (k + 6) j (fun i => / (INR i + 3)) Hj He) at 1.
  rewrite <- (tail_unit M (k + 6) j (fun i => IZR (iw im ((Z.of_nat i + 2) * (Z.of_nat i + 2))) * / (INR i + 3)) Hj He).
  f_equal; f_equal; apply tail_ext; intros; unfold Rdiv; ring.
Qed.
(** the difference between the returned row and the product, for a unit vector beyond the third diagonal *)
Lemma bmv_diff im h N ds da db a0 al be k j : (14 <= N)%nat -> (k + 6 <= j < N - 4)%nat -> Nat.even (j - (k + 6)) = true ->
  let S := scaled ds (c_SSBSB N) in let A := scaled da (c_ASBSB N) in let B := scaled db (c_BSBSB h N) in
  exists b, Biharmonic_matvec im S A B a0 al be (unit_vec j) = Some b /\
    (rows_product (N - 4) (combination3 a0 al be S A B) (unit_vec j) b ->
     a0 * (IZR (iw im (24 * (Z.of_nat k + 1) * (Z.of_nat k + 2))) * (IZR (iw im ((Z.of_nat j + 2) * (Z.of_nat j + 2)))) - ds * 24 * (INR k + 1) * (INR k + 2) * (INR j + 2) ^ 2) = 0).
Proof.
  intros HN Hj He S A B. destruct (bmv_value h N ds da db (unit_vec j) im a0 al be HN) as (b & E & _ & H). exists b. split; [exact E|]. intros Hr.
  specialize (Hr k ltac:(lia)). rewrite H in Hr by lia.
  rewrite (rsum_ext _ (fun i => combination3 a0 al be S A B k i * unit_vec j i)
    (fun i => (al * mat_entry RFld A k i + be * mat_entry RFld B k i) * unit_vec j i + a0 * ds * (mat_entry RFld (c_SSBSB N) k i * unit_vec j i))) in Hr
    by (intros; unfold combination3, S; rewrite (scaled_entry ds); ring).
  rewrite rsum_add, (rsum_scal _ (a0 * ds)) in Hr. fold A B in Hr. rewrite S_near in Hr by lia.
  rewrite far_unit in Hr by (try lia; exact He).
  assert (T : tail (N - 4) (k + 6) (fun i => (INR i + 2) ^ 2 * (unit_vec j i / (INR i + 3))) = (INR j + 2) ^ 2 / (INR j + 3)).
  { rewrite <- (tail_unit (N - 4) (k + 6) j (fun i => (INR i + 2) ^ 2 / (INR i + 3))) by (try lia; exact He). apply tail_ext. intros. unfold Rdiv. ring. }
  assert (T1 : tail (N - 4) (k + 6) (fun i => unit_vec j i / (INR i + 3)) = / (INR j + 3)).
  { rewrite <- (tail_unit (N - 4) (k + 6) j (fun i => / (INR i + 3))) by (try lia; exact He). apply tail_ext. intros. unfold Rdiv. ring. }
  rewrite T, T1 in Hr. set (rs := rsum _ _) in Hr. set (u := above _ _ _ _ _) in Hr. set (w := above _ _ _ _ _) in Hr.
  clearbody rs u w. clear T T1 H E. pose proof (pos_INR k). pose proof (pos_INR j). pose proof PI_RGT_0.
  set (W := IZR (iw im (24 * _ * _))) in *. set (J := IZR (iw im ((Z.of_nat j + 2) * _))) in *. clearbody W J.
  set (x := INR k) in *. set (y := INR j) in *. set (z := unit_vec j k) in *. clearbody x y z.
  assert (P : a0 * (W * J - ds * 24 * (x + 1) * (x + 2) * (y + 2) ^ 2) * (PI * / (y + 3)) = 0).
  { match type of Hr with ?l = ?r => transitivity (l - r); [field; lra|rewrite Hr; ring] end. }
  apply Rmult_integral in P. destruct P as [P|P]; [exact P|]. exfalso. apply Rmult_integral in P. destruct P as [P|P]; [lra|].
  revert P. apply Rinv_neq_0_compat. lra.
Qed.
Theorem C45_biharmonic_refuted im h N ds da db a0 al be : (14 <= N)%nat -> ds <> 1 -> a0 <> 0 ->
  let S := scaled ds (c_SSBSB N) in let A := scaled da (c_ASBSB N) in let B := scaled db (c_BSBSB h N) in
  exists v b, Biharmonic_matvec im S A B a0 al be v = Some b /\ ~ rows_product (N - 4) (combination3 a0 al be S A B) v b.
Proof.
  intros HN Hd Ha S A B. exists (unit_vec 6). destruct (bmv_diff im h N ds da db a0 al be 0 6 HN ltac:(lia) eq_refl) as (b & E & H).
  exists b. split; [exact E|]. intros Hr. specialize (H Hr). revert H. apply Rmult_integral_contrapositive_currified; [exact Ha|].
  replace (iw im (24 * (Z.of_nat 0 + 1) * (Z.of_nat 0 + 2))) with 48%Z by (destruct im; reflexivity).
  replace (iw im ((Z.of_nat 6 + 2) * (Z.of_nat 6 + 2))) with 64%Z by (destruct im; reflexivity). cbn [INR]. lra.
Qed.
Theorem C45_biharmonic_overflow_refuted h N da db a0 al be : (9469 <= Z.of_nat N)%Z -> a0 <> 0 ->
  let S := scaled 1 (c_SSBSB N) in let A := scaled da (c_ASBSB N) in let B := scaled db (c_BSBSB h N) in
  exists v b, Biharmonic_matvec Cython S A B a0 al be v = Some b /\ ~ rows_product (N - 4) (combination3 a0 al be S A B) v b.
Proof.
  intros HN Ha S A B. exists (unit_vec (Z.to_nat 9464)). set (j := Z.to_nat 9464). set (k := Z.to_nat 9458).
  assert (Ej : Z.of_nat j = 9464%Z) by (apply Z2Nat.id; lia). assert (Ek : Z.of_nat k = 9458%Z) by (apply Z2Nat.id; lia). assert (Ekj : (j = k + 6)%nat) by lia.
  assert (Ej' : INR j = 9464) by (rewrite INR_IZR_INZ, Ej; reflexivity). assert (Ek' : INR k = 9458) by (rewrite INR_IZR_INZ, Ek; reflexivity).
  clearbody j k. destruct (bmv_diff Cython h N 1 da db a0 al be k j ltac:(lia) ltac:(lia)) as (b & E & H).
  { replace (j - (k + 6))%nat with 0%nat by lia. reflexivity. }
  exists b. split; [exact E|]. intros Hr. specialize (H Hr). revert H. apply Rmult_integral_contrapositive_currified; [exact Ha|].
  rewrite Ej, Ek, Ej', Ek'. change (iw Cython (24 * (9458 + 1) * (9458 + 2))) with (-2147395936)%Z. change (iw Cython ((9464 + 2) * (9464 + 2))) with 89605156%Z. lra.
Qed.
(** small sizes: the unrolled rows at the two ends overlap *)
Theorem C45_small_sizes_refuted h N c s v :
  ((3 <= N < 6)%nat -> BSDSD_cython (obj c s (c_BSDSD h N)) v = None) /\
  ((5 <= N < 12)%nat -> BSBSB_cython (obj c s (c_BSBSB h N)) v = None) /\
  ((8 <= N)%nat -> proper_scale s -> returns_product (BSBSB_self N (obj c s (c_BSBSB h N)) v) (obj c s (c_BSBSB h N)) v).
Proof.
  split; [|split]; intros HN.
  - assert (HC : (N = 3 \/ N = 4 \/ N = 5)%nat) by lia. destruct HC as [-> |[-> | ->]]; reflexivity.
  - assert (HC : (N = 5 \/ N = 6 \/ N = 7 \/ N = 8 \/ N = 9 \/ N = 10 \/ N = 11)%nat) by lia.
    destruct HC as [-> |[-> |[-> |[-> |[-> |[-> | ->]]]]]]; reflexivity.
  - intros Hs. apply BSBSB_self_ok; assumption.
Qed.

(** ** non-vacuity *)
Example proper_scale_2 : proper_scale 2.
Proof. right. rewrite Rabs_right; lra. Qed.
Example C45_BSDSD_used v : returns_product (BSDSD_cython (obj 1 2 (c_BSDSD (cheb_norm_sq true GL 8) 8)) v) (obj 1 2 (c_BSDSD (cheb_norm_sq true GL 8) 8)) v.
Proof. apply C45_BSDSD; [apply proper_scale_2|lia]. Qed.
Example C45_ATT_used : exists b, ATT_cython 6 1 (obj 1 2 (c_ATT 6)) (unit_vec 2) = Some b /\ b 0%nat = 8 * PI.
Proof.
  destruct (C45_ATT_partial 6 1 2 (unit_vec 2)) as (b & E & H & _); [rewrite Rmult_1_r; apply proper_scale_2|lia|]. exists b. split; [exact E|].
  rewrite H by (cbn; lia). rewrite product_obj. change (sm_cols RFld (c_ATT 6)) with 6%nat. rewrite ATT_row by lia.
  rewrite (tail_unit 6 (0 + 2) 2 (fun j => INR j ^ 3)), (tail_unit 6 (0 + 2) 2 INR) by (reflexivity || lia). cbn [INR]. lra.
Qed.
Example C45_biharmonic_used v : returns_rows 12 (Biharmonic_matvec Cython (scaled 1 (c_SSBSB 16)) (scaled 1 (c_ASBSB 16)) (scaled 1 (c_BSBSB (cheb_norm_sq true GL 16) 16)) 1 2 3 v)
  (combination3 1 2 3 (scaled 1 (c_SSBSB 16)) (scaled 1 (c_ASBSB 16)) (scaled 1 (c_BSBSB (cheb_norm_sq true GL 16) 16))) v.
Proof. apply (C45_biharmonic_partial Cython); [lia|intros _; lia]. Qed.
Example C45_ATT_overflow_used : exists v b, ATT_cython (Z.to_nat 1500) 1 (obj 1 2 (c_ATT (Z.to_nat 1500))) v = Some b /\ ~ is_product (obj 1 2 (c_ATT (Z.to_nat 1500))) v b.
Proof. apply C45_ATT_overflow_refuted; [rewrite Z2Nat.id; lia|lra|rewrite Rmult_1_r; apply proper_scale_2]. Qed.

Print Assumptions C45_BSDSD.
Print Assumptions C45_BSDSN.
Print Assumptions C45_BSBSB.
Print Assumptions C45_BSBSD.
Print Assumptions C45_CSDSN.
Print Assumptions C45_CSDSD.
Print Assumptions C45_CSBSD.
Print Assumptions C45_CSDSB.
Print Assumptions C45_ASBSB.
Print Assumptions C45_ASDSD.
Print Assumptions C45_CTT.
Print Assumptions C45_CLL.
Print Assumptions C45_CTSD_partial.
Print Assumptions C45_ATT_partial.
Print Assumptions C45_SSBSB_partial.
Print Assumptions C45_BSNSN_partial.
Print Assumptions C45_BSNSN_refuted.
Print Assumptions C45_ASNSN_partial.
Print Assumptions C45_ASNSN_scale_refuted.
Print Assumptions C45_helmholtz_dirichlet_partial.
Print Assumptions C45_helmholtz_dirichlet_refuted.
Print Assumptions C45_helmholtz_neumann_numba.
Print Assumptions C45_helmholtz_neumann_cython_refuted.
Print Assumptions C45_biharmonic_partial.
Print Assumptions C45_CTSD_refuted.
Print Assumptions C45_ATT_overflow_refuted.
Print Assumptions C45_SSBSB_overflow_refuted.
Print Assumptions C45_biharmonic_refuted.
Print Assumptions C45_biharmonic_overflow_refuted.
Print Assumptions C45_small_sizes_refuted.
