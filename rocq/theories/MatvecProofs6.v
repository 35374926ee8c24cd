(** MatvecProofs6.v -- BSNSNmat.matvec, ASNSNmat.matvec and the Helmholtz products. *)
From Coq Require Import Reals ZArith List Arith Bool Lia Lra.
From Verif Require Import Base Fld SparseModel SparseSpec SparseProofs RPoly StencilModel StencilModel2 LegMatrixModel
  LegMatrixProofs5 LegMatrixProofs6 ChebMatrixModel ChebMatrixProofs2 HelmholtzModel HelmholtzProofs HelmholtzProofs3 HelmholtzProofs4 HelmholtzProofs5
  BiharmonicModel BiharmonicProofs3 MatvecModel MatvecSpec MatvecProofs MatvecProofs2 MatvecProofs4 MatvecProofs5.
Import ListNotations.
Local Open Scope R_scope.

(** ** a running sum per parity, written with an offset; the sums that are left *)
Section Loop1o.
  Variables (p : nat -> bool) (w : nat -> R) (g : nat -> R -> R) (o : nat).
  Hypothesis Hp : forall k, p (S k) = negb (p k).
  Variable step : nat -> (nat -> R) * R * R -> (nat -> R) * R * R.
  Variable n : nat.
  Hypothesis Hstep : forall k b s1 s2, (k < n)%nat -> exists b', (forall j, b' j = upd b (k + o) (g k (if p k then s1 + w k else s2 + w k)) j) /\
    step k (b, s1, s2) = if p k then (b', s1 + w k, s2) else (b', s1, s2 + w k).
  Lemma loop1o b0 : let '(b, s1, s2) := for_down n step (b0, 0, 0) in
    (forall k, b k = if (Nat.leb o k && Nat.ltb k (n + o))%bool then g (k - o)%nat (tail n (k - o) w) else b0 k) /\
    s1 = tail n (if p 0%nat then 0 else 1)%nat w /\ s2 = tail n (if p 0%nat then 1 else 0)%nat w.
  Proof.
    set (P := fun (i : nat) (st : (nat -> R) * R * R) => let '(b, s1, s2) := st in
      (forall k, b k = if (Nat.leb (i + o) k && Nat.ltb k (n + o))%bool then g (k - o)%nat (tail n (k - o) w) else b0 k) /\
      s1 = tail n (if p i then i else i + 1)%nat w /\ s2 = tail n (if p i then i + 1 else i)%nat w).
    assert (H : P 0%nat (for_down n step (b0, 0, 0))).
    { apply for_down_inv.
      - unfold P. repeat split.
        + intros k. destruct (Nat.leb_spec (n + o) k); destruct (Nat.ltb_spec k (n + o)); cbn [andb]; try reflexivity; lia.
        + destruct (p n); rewrite tail_ge by lia; reflexivity.
        + destruct (p n); rewrite tail_ge by lia; reflexivity.
      - intros i [[b s1] s2] Hi (H1 & H3 & H4). destruct (Hstep i b s1 s2 Hi) as (b' & Hb & ->).
        rewrite Hp in H3, H4. unfold P.
        assert (Hw : (if p i then s1 + w i else s2 + w i) = tail n i w).
        { destruct (p i); cbn [negb] in H3, H4.
          - replace (S i + 1)%nat with (i + 2)%nat in H3 by lia. rewrite H3, (tail_step n i) by lia. ring.
          - replace (S i + 1)%nat with (i + 2)%nat in H4 by lia. rewrite H4, (tail_step n i) by lia. ring. }
        assert (Hb2 : forall k, b' k = if (Nat.leb (i + o) k && Nat.ltb k (n + o))%bool then g (k - o)%nat (tail n (k - o) w) else b0 k).
        { intros k. rewrite Hb. destruct (Nat.eq_dec k (i + o)) as [->|Hne].
          - upds. rewrite Hw. destruct (Nat.leb_spec (i + o) (i + o)); [|lia]. destruct (Nat.ltb_spec (i + o) (n + o)); [|lia]. cbn [andb].
            now replace (i + o - o)%nat with i by lia.
          - upds. rewrite H1. destruct (Nat.leb_spec (S i + o) k); destruct (Nat.leb_spec (i + o) k); try lia; reflexivity. }
        destruct (p i) eqn:Ep; cbn [negb] in H3, H4; (split; [exact Hb2|]).
        + split; [exact Hw|]. rewrite H4. f_equal; lia.
        + split; [|exact Hw]. rewrite H3. f_equal; lia. }
    destruct (for_down n step (b0, 0, 0)) as [[b s1] s2]. exact H.
  Qed.
End Loop1o.

(** ** the Dirichlet product *)
Lemma hmv_spec M al be dd ud bd v : (4 <= M)%nat ->
  forall k, helmholtz_matvec_1D M al be dd ud bd v k
  = if Nat.ltb k M then (dd k * al + bd k * be) * v k + ud k * al * tail M (k + 2) v
      + below M k 2 (fun _ => - (PI / 2 * be)) v + above M k 2 (fun _ => - (PI / 2 * be)) v else 0.
Proof.
  intros HM k. unfold helmholtz_matvec_1D. cbv zeta.
  set (b0 := upd (upd (fun _ => 0) _ _) _ _).
  pose proof (loop1o (fun k => negb (Nat.even (k + 2))) (fun k => v (k + 4)%nat)
     (fun k t => (dd (k + 2)%nat * al + bd (k + 2)%nat * be) * v (k + 2)%nat - PI / 2 * be * (v (k + 2 - 2)%nat + v (k + 2 + 2)%nat) + ud (k + 2)%nat * al * t) 2
     ltac:(intros; cbv beta; rewrite !even_2, even_S; reflexivity) (hmv_step al be dd ud bd v) (M - 4)) as L.
  specialize (L ltac:(intros i b s1 s2 Hi; cbv beta; unfold hmv_step; replace (i + 4)%nat with (i + 2 + 2)%nat by lia;
      destruct (Nat.even (i + 2)); cbn [negb]; eexists; (split; [|reflexivity]; reflexivity)) b0).
  destruct (for_down (M - 4) (hmv_step al be dd ud bd v) (b0, 0, 0)) as [[b s1] s2]. destruct L as (L & E1 & E2).
  cbn in E1, E2. rewrite (tail_shift 4) in E1, E2. replace (M - 4 + 4)%nat with M in * by lia. replace (M - 4 + 2)%nat with (M - 2)%nat in L by lia.
  unfold upd at 1 2. rewrite L. rewrite (tail_shift 4). replace (M - 4 + 4)%nat with M by lia. unfold b0, upd, below, above. rewrite E1, E2. cbn [Nat.add].
  cases; try ring.
  - subst k. rewrite (tail_step M (0 + 2)) by lia. cbn [Nat.add]. ring.
  - subst k. rewrite (tail_step M (1 + 2)) by lia. cbn [Nat.add]. ring.
  - subst k. rewrite tail_ge by lia. idx. ring.
  - subst k. rewrite tail_ge by lia. idx. ring.
  - replace (k - 2 + 2)%nat with k by lia. replace (k - 2 + 4)%nat with (k + 2)%nat by lia. ring.
Qed.

(** ** the Neumann product, numba *)
Lemma hnmv_spec M al be dd ud bl bd bu v : (4 <= M)%nat -> let w := fun j => v j * sqn j in
  forall k, helmholtz_neumann_matvec_1D Numba M al be dd ud bl bd bu v k
  = if Nat.ltb k M then (dd k * al + bd k * be) * w k + ud k * al * tail M (k + 2) w + be * below M k 2 bl w + be * above M k 2 bu w
      + (if Nat.eqb k 0 then bd 0%nat * v 0%nat * be else 0) + (if Nat.eqb k 2 then bl 0%nat * v 0%nat * be else 0) else 0.
Proof.
  intros HM w k. unfold helmholtz_neumann_matvec_1D. cbv zeta.
  set (b0 := upd (upd (fun _ => 0) _ _) _ _).
  pose proof (loop1o (fun k => negb (Nat.even (k + 2))) (fun k => w (k + 4)%nat)
     (fun k t => (dd (k + 2)%nat * al + bd (k + 2)%nat * be) * w (k + 2)%nat + be * (bl (k + 2 - 2)%nat * w (k + 2 - 2)%nat + bu (k + 2)%nat * w (k + 2 + 2)%nat) + ud (k + 2)%nat * al * t) 2
     ltac:(intros; cbv beta; rewrite !even_2, even_S; reflexivity) (hnmv_step al be dd ud bl bd bu v) (M - 4)) as L.
  assert (St : forall i b s1 s2, (i < M - 4)%nat -> exists b', (forall j, b' j = upd b (i + 2)
      ((dd (i + 2)%nat * al + bd (i + 2)%nat * be) * w (i + 2)%nat + be * (bl (i + 2 - 2)%nat * w (i + 2 - 2)%nat + bu (i + 2)%nat * w (i + 2 + 2)%nat) + ud (i + 2)%nat * al * (if negb (Nat.even (i + 2)) then s1 + w (i + 4)%nat else s2 + w (i + 4)%nat)) j) /\
      hnmv_step al be dd ud bl bd bu v i (b, s1, s2) = if negb (Nat.even (i + 2)) then (b', s1 + w (i + 4)%nat, s2) else (b', s1, s2 + w (i + 4)%nat)).
  { intros i b s1 s2 Hi. unfold hnmv_step. replace (i + 4)%nat with (i + 2 + 2)%nat by lia. unfold w.
    destruct (Nat.even (i + 2)); cbn [negb]; eexists; (split; [|reflexivity]); intros j; (destruct (Nat.eq_dec j (i + 2)) as [->|]; upds; [ring|reflexivity]). }
  specialize (L St b0).
  destruct (for_down (M - 4) (hnmv_step al be dd ud bl bd bu v) (b0, 0, 0)) as [[b s1] s2]. destruct L as (L & E1 & E2).
  cbn [negb Nat.even Nat.add] in E1, E2. rewrite (tail_shift 4) in E1, E2. replace (M - 4 + 4)%nat with M in * by lia. replace (M - 4 + 2)%nat with (M - 2)%nat in L by lia.
  unfold upd. rewrite !L. rewrite !(tail_shift 4). replace (M - 4 + 4)%nat with M by lia. unfold b0, upd, below, above. rewrite E1, E2. cbn [Nat.add].
  cases; try ring; subst.
  all: repeat match goal with H : ?x = ?x |- _ => clear H end.
  all: try (rewrite (tail_step M (0 + 2)) by lia); try (rewrite (tail_step M (1 + 2)) by lia).
  - assert (M = 4)%nat by lia. subst M. rewrite tail_ge by lia. unfold w. cbn [Nat.sub Nat.add]. ring.
  - cbn [Nat.sub Nat.add]. unfold w. ring.
  - cbn [Nat.add]. unfold w. ring.
  - cbn [Nat.add]. unfold w. ring.
  - rewrite tail_ge by lia. unfold w. ring.
  - rewrite tail_ge by lia. unfold w. ring.
  - replace (k - 2 + 2)%nat with k by lia. replace (k - 2 + 4)%nat with (k + 2)%nat by lia. ring.
Qed.

(** ** the products with the Neumann stiffness matrix *)
Lemma annmv_spec M d0 d2 v c : (2 <= M)%nat ->
  let c1 := upd (upd c (M - 1) (d0 (M - 1)%nat * v (M - 1)%nat)) (M - 2) (d0 (M - 2)%nat * v (M - 2)%nat) in
  forall k, fst (fst (for_down (M - 2) (annmv_step d0 d2 v) (c1, 0, 0))) k
  = if Nat.ltb k M then d0 k * v k + tail M (k + 2) (fun j => v j * sqn j) * d2 k / sqn (k + 2) else c k.
Proof.
  intros HM c1 k.
  rewrite (loop1 Nat.even (fun k => v (k + 2)%nat * sqn (k + 2)) (fun k t => d0 k * v k + t * d2 k / sqn (k + 2)) even_S (annmv_step d0 d2 v)).
  - rewrite (tail_shift 2 (M - 2) k (fun j => v j * sqn j)). replace (M - 2 + 2)%nat with M by lia. unfold c1, upd.
    cases; try reflexivity; subst; rewrite tail_ge by lia; unfold Rdiv; ring.
  - intros i b s1 s2 Hi. unfold annmv_step. destruct (Nat.even i); eexists; (split; [|reflexivity]); intros j; (destruct (Nat.eq_dec j i) as [->|]; upds; reflexivity).
Qed.
Lemma annpy_spec M d0 d2 vc c : (2 <= M)%nat ->
  let c1 := upd (upd c (M - 1) (d0 (M - 1)%nat * vc (M - 1)%nat)) (M - 2) (d0 (M - 2)%nat * vc (M - 2)%nat) in
  forall k, fst (fst (for_down (M - 2) (ann_matvec_step d0 d2 vc) (c1, 0, 0))) k
  = if Nat.ltb k M then d0 k * vc k + tail M (k + 2) vc * d2 k else c k.
Proof.
  intros HM c1 k.
  rewrite (loop1 Nat.even (fun k => vc (k + 2)%nat) (fun k t => d0 k * vc k + t * d2 k) even_S (ann_matvec_step d0 d2 vc)).
  - rewrite (tail_shift 2 (M - 2) k vc). replace (M - 2 + 2)%nat with M by lia. unfold c1, upd.
    cases; try reflexivity; subst; rewrite tail_ge by lia; ring.
  - intros i b s1 s2 Hi. unfold ann_matvec_step. destruct (Nat.even i); eexists; (split; [|reflexivity]); intros j; (destruct (Nat.eq_dec j i) as [->|]; upds; reflexivity).
Qed.
Lemma sqn_pow k : sqn k = INR k ^ 2.
Proof. unfold sqn. apply pow_INR. Qed.
Lemma row_two' M di up k u : (k < M)%nat -> rsum M (fun j => brow 0 di up up k j * u j) = di * u k + up * tail M (k + 2) u.
Proof. apply row_two. Qed.
Lemma ASNSN_sum N k v : (k < N - 2)%nat -> rsum (N - 2) (fun j => mat_entry RFld (c_ASNSN N) k j * v j)
  = -2 * PI * (INR k + 1) / (INR k + 2) * (v k * sqn k) + -4 * PI * (INR k + 1) / (INR k + 2) ^ 2 * tail (N - 2) (k + 2) (fun j => v j * sqn j).
Proof.
  intros Hk. transitivity (rsum (N - 2) (fun j => brow 0 (-2 * PI * (INR k + 1) / (INR k + 2)) (-4 * PI * (INR k + 1) / (INR k + 2) ^ 2) (-4 * PI * (INR k + 1) / (INR k + 2) ^ 2) k j * (v j * sqn j))).
  - apply rsum_ext. intros j Hj. rewrite ASNSN_row by assumption. rewrite sqn_pow. ring.
  - exact (row_two' (N - 2) _ _ k (fun j => v j * sqn j) Hk).
Qed.

Section Ann.
  Variables (N : nat) (c s : R) (v cc : nat -> R).
  Notation obj X := (smul RFld (scaled c X) s).
  Notation A := (obj (c_ASNSN N)).
  Lemma ASNSN_keys : (5 <= N)%nat -> key A 0 = Some (fun i => -2 * PI * INR i ^ 2 * (INR i + 1) / (INR i + 2) * c) /\
    exists d2, key A 2 = Some d2 /\ forall i, d2 i = -4 * PI * (INR i + 2) ^ 2 * (INR i + 1) / (INR i + 2) ^ 2 * c.
  Proof.
    intros HN. rewrite !smul_key. unfold c_ASNSN. rewrite !key_fromkeys by (apply zin; [lia|reflexivity]). split; [reflexivity|].
    eexists. split; [reflexivity|]. reflexivity.
  Qed.
  Lemma ann_numba_value : (5 <= N)%nat -> exists b, ann_matvec_numba (N - 2) A v cc = Some b /\
    (forall k, (k < N - 2)%nat -> b k = (if Req_EM_T s 1 then 1 else / s) * (c * rsum (N - 2) (fun j => mat_entry RFld (c_ASNSN N) k j * v j))).
  Proof.
    intros HN. unfold ann_matvec_numba. destruct (ASNSN_keys HN) as (-> & d2 & -> & Hd2). cbv zeta.
    match goal with |- context [for_down ?n (annmv_step ?d0 d2 v) ?st] =>
      assert (L : forall k, fst (fst (for_down n (annmv_step d0 d2 v) st)) k = if Nat.ltb k (N - 2) then d0 k * v k + tail (N - 2) (k + 2) (fun j => v j * sqn j) * d2 k / sqn (k + 2) else cc k)
        by (exact (annmv_spec (N - 2) d0 d2 v cc ltac:(lia)));
      destruct (for_down n (annmv_step d0 d2 v) st) as [[b t1] t2] end. cbn [fst] in L.
    assert (Hb : forall k, (k < N - 2)%nat -> b k = c * rsum (N - 2) (fun j => mat_entry RFld (c_ASNSN N) k j * v j)).
    { intros k Hk. rewrite L, ASNSN_sum by exact Hk. destruct (Nat.ltb_spec k (N - 2)); [|lia]. rewrite Hd2, !sqn_pow, plus_INR. cbn [INR].
      pose proof (pos_INR k). field. lra. }
    change (sm_scale RFld A) with (1 * s). rewrite Rmult_1_l.
    eexists. split; [reflexivity|]. intros k Hk. destruct (Req_EM_T s 1) as [E|E].
    - rewrite Hb by exact Hk. ring.
    - rewrite (for_up_pointwise _ _ (fun _ x => x / s)). cbn [Nat.leb andb Nat.add].
      destruct (Nat.ltb_spec k (N - 2 + 2)); [|lia]. rewrite Hb by exact Hk. unfold Rdiv. ring.
  Qed.
  Lemma ann_py_value : (5 <= N)%nat -> forall k, (k < N - 2)%nat -> ann_matvec_py N c s v cc k = s ^ 2 * c * rsum (N - 2) (fun j => mat_entry RFld (c_ASNSN N) k j * v j).
  Proof.
    intros HN k Hk. unfold ann_matvec_py. cbv zeta.
    match goal with |- context [for_down ?n (ann_matvec_step ?d0 ?d2 ?vc) ?st] =>
      assert (L : forall k, fst (fst (for_down n (ann_matvec_step d0 d2 vc) st)) k = if Nat.ltb k (N - 2) then d0 k * vc k + tail (N - 2) (k + 2) vc * d2 k else cc k)
        by (exact (annpy_spec (N - 2) d0 d2 vc cc ltac:(lia)));
      destruct (for_down n (ann_matvec_step d0 d2 vc) st) as [[b t1] t2] end. cbn [fst] in L.
    rewrite (for_up_pointwise _ _ (fun _ x => x * s)). cbn [Nat.leb andb Nat.add]. destruct (Nat.ltb_spec k N); [|lia].
    rewrite L, ASNSN_sum by exact Hk. destruct (Nat.ltb_spec k (N - 2)); [|lia]. pose proof (pos_INR k). field. lra.
  Qed.
End Ann.

(** ** the Neumann mass matrix *)
Lemma BSNSN_mv_ok h N c s v cc : (6 <= N)%nat ->
  let A := smul RFld (scaled c (c_BSNSN h N)) s in
  exists b, BSNSN_matvec N A v cc = Some b /\ (forall k, (k < N - 2)%nat -> b k = product A v k) /\ (forall k, (N - 2 <= k < N)%nat -> b k = cc k * s).
Proof.
  intros HN A. unfold BSNSN_matvec.
  assert (E0 : akey A 0 = Some ((N - 2)%nat, fun i => (h i + ((INR i / (INR i + 2)) ^ 2) ^ 2 * h (i + 2)%nat) * c)) by reflexivity.
  assert (E2 : akey A 2 = Some (dmax (N - 2) (N - 2) 2, fun i => - (INR i / (INR i + 2)) ^ 2 * h (i + 2)%nat * c)) by reflexivity.
  rewrite E0, E2. cbn [obind fst snd]. change (sm_rows RFld A) with (N - 2)%nat. destruct (Nat.ltb_spec (N - 2) 4); [lia|]. cbv zeta.
  change (sm_scale RFld A) with (1 * s). rewrite Rmult_1_l.
  set (d0 := fun i => (h i + ((INR i / (INR i + 2)) ^ 2) ^ 2 * h (i + 2)%nat) * c).
  set (d2 := fun i => - (INR i / (INR i + 2)) ^ 2 * h (i + 2)%nat * c).
  eexists. split; [reflexivity|].
  assert (Hv : forall k, (k < N)%nat -> for_up N 0 (fun k c => upd c k (c k * s))
     (upd (upd (for_up (N - 2 - 2 - 2) 2 (fun k c => upd c k (d2 (k - 2)%nat * v (k - 2)%nat + d0 k * v k + d2 k * v (k + 2)%nat))
        (upd (upd cc 0 (d0 0%nat * v 0%nat + d2 0%nat * v 2%nat)) 1 (d0 1%nat * v 1%nat + d2 1%nat * v 3%nat)))
        (N - 2 - 2) (d2 (N - 2 - 4)%nat * v (N - 2 - 4)%nat + d0 (N - 2 - 2)%nat * v (N - 2 - 2)%nat))
        (N - 2 - 1) (d2 (N - 2 - 3)%nat * v (N - 2 - 3)%nat + d0 (N - 2 - 1)%nat * v (N - 2 - 1)%nat)) k
     = (if Nat.ltb k (N - 2) then below (N - 2) k 2 d2 v + d0 k * v k + above (N - 2) k 2 d2 v else cc k) * s).
  { intros k Hk. rewrite (for_up_pointwise _ _ (fun _ x => x * s)). cbn [Nat.leb andb Nat.add]. destruct (Nat.ltb_spec k N); [|lia]. f_equal.
    unfold upd at 1 2. rewrite (for_up_pointwise _ _ (fun k _ => d2 (k - 2)%nat * v (k - 2)%nat + d0 k * v k + d2 k * v (k + 2)%nat)).
    clearbody d0 d2. unfold below, above, upd. cases; try ring; subst; idx; ring. }
  split; intros k Hk; rewrite Hv by lia.
  - destruct (Nat.ltb_spec k (N - 2)); [|lia]. unfold A. rewrite product_terms by (nodup c_BSNSN).
    unfold c_BSNSN. cbv zeta. cbn [terms fold_right dmat sm_items sm_cols sm_scale]. term_rw. rewrite ?term_diag by lia. rewrite ?dget_sc, ?dget_ar.
    unfold d2 at 1 2. rewrite below_scal, above_scal. unfold d0. rn. ring.
  - destruct (Nat.ltb_spec k (N - 2)); [lia|]. reflexivity.
Qed.
