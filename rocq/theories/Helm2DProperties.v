(** Helm2DProperties.v -- C66: the Legendre Helmholtz solver for two Dirichlet axes. *)
From Coq Require Import Arith ZArith List Lia Bool QArith Qcanon.
From Verif Require Import Base Fld Witness SolversModel SolversSpec SolversProofs5 Dominant SolversProperties SparseModel SparseSpec SparseProperties TPSpec
  MDSolveModel MDSolveSpec MDSolveProperties NDSolveProperties Helm2DModel Helm2DSpec Helm2DProofs.
Import ListNotations.
Local Open Scope nat_scope.

(** solver 1: with B pentadiagonal and unscaled, A a multiple 1/sAUB of the identity and
    equal coefficients of AUB and BUA the result solves the system *)
Theorem C66_banded : forall (K : Fld) (small16 near1 is0 : K -> bool) deq lu_solve re
    (H : helm2 K) n0 n1 l V sA,
  (forall x, is0 x = true <-> x = f0) -> lu_contract K lu_solve -> 0 < n0 ->
  h2_shape K H n0 n1 ->
  (forall i j, i < n0 -> j < n0 -> mat_entry K (h_B K H) i j = band K (h_B K H) i j) ->
  (forall i j, i < n0 -> j < n0 -> mat_entry K (h_A K H) i j = if i =? j then sA else f0) ->
  eigen K n0 (band K (h_B K H)) l V -> (forall i, i < n0 -> l i <> f0) ->
  fmul (h_sAUB K H) sA = f1 -> h_sBUA K H = h_sAUB K H ->
  let ts := h2_terms K H (padl K n0 l) in
  terms_ok K small16 near1 n0 1 n1 ts ->
  (forall i, i < n0 -> line_regular K n1 (line_kind K small16 near1 is0 deq ts i 0) (md_mat K ts i 0)) ->
  forall b, exists U,
    h2_call1 K small16 near1 is0 deq lu_solve re H n0 n1 l V b = Some U /\ h2_solves K H n0 n1 U b.
Proof.
  intros K small16 near1 is0 deq lu_solve re H n0 n1 l V sA H0 HLU Hn Hsh HB HA HE Hl H1 H2 ts Hok HR b.
  destruct (C64_solves K small16 near1 is0 deq lu_solve re n0 1 n1 true 0 0 false ts H0 HLU Hn ltac:(lia) Hok
    ltac:(intros i j Hi Hj; assert (j = 0) by lia; subst j; apply HR; auto) ltac:(discriminate)
    [] None (fun i _ r => fdiv (fsum (n0 + 2) (fun k => fmul (padV K n0 V k i) (b k r))) (padl K n0 l i))
    (Forall_nil _) (or_introl eq_refl)) as (w & EW & HW).
  exists (fun i j => fsum (n0 + 2) (fun k => fmul (padV K n0 V i k) (w k 0 j))). split.
  - unfold h2_call1. fold ts. cbv zeta. rewrite EW. reflexivity.
  - eapply banded_core; eauto.
Qed.
Print Assumptions C66_banded.

(** the matrix handed to eig_banded is B for every symmetric matrix with the keys -2, 0, 2 *)
Theorem C66_band : forall (K : Fld) n (d0 d2 : dval K),
  let B := mkSmat K n n f1 [((-2)%Z, d2); (0%Z, d0); (2%Z, d2)] in
  forall i j, mat_entry K B i j = band K B i j.
Proof.
  intros K n d0 d2 B i j. unfold mat_entry, band, B. cbn [sm_items sm_scale lookup dict_get Z.eqb Pos.eqb].
  assert (M1 : forall x : K, fmul x f1 = x) by (intros x; rewrite (Ring_theory.Rmul_comm (fringlaws K)); apply (Ring_theory.Rmul_1_l (fringlaws K))).
  destruct (Nat.eqb_spec i j) as [->|H0].
  { rewrite Z.sub_diag. cbn. rewrite Nat.min_id. apply M1. }
  destruct (Nat.eqb_spec i (j + 2)) as [E|H1].
  { replace (Z.of_nat j - Z.of_nat i)%Z with (-2)%Z by lia. cbn. rewrite Nat.min_r by lia. apply M1. }
  destruct (Nat.eqb_spec j (i + 2)) as [E|H2].
  { replace (Z.of_nat j - Z.of_nat i)%Z with 2%Z by lia. cbn. rewrite Nat.min_l by lia. apply M1. }
  destruct (Z.eq_dec (-2) (Z.of_nat j - Z.of_nat i)); [lia|].
  destruct (Z.eq_dec 0 (Z.of_nat j - Z.of_nat i)); [lia|].
  destruct (Z.eq_dec 2 (Z.of_nat j - Z.of_nat i)); [lia|]. reflexivity.
Qed.
Print Assumptions C66_band.

(** solver 0: with coefficient 1 of AUB and BUA, and the same matrices along both axes if
    these have the same number of points *)
Theorem C66_generalized : forall (K : Fld) (H : helm2 K) n0 n1 lx Vx ly Vy,
  h2_shape K H n0 n1 ->
  gen_eigen K n0 (mat_entry K (h_A K H)) (mat_entry K (h_B K H)) lx Vx ->
  gen_eigen K n1 (mat_entry K (h_A1 K H)) (mat_entry K (h_B1 K H)) ly Vy ->
  (n0 = n1 -> forall i j, i < n0 -> j < n0 -> ly i = lx i /\ Vy i j = Vx i j) ->
  h_sAUB K H = f1 -> h_sBUA K H = f1 ->
  (forall m p, m < n0 -> p < n1 -> fadd (fadd (h_sBUB K H) (lx m)) (ly p) <> f0) ->
  forall b, h2_solves K H n0 n1 (h2_call0 K H n0 n1 lx Vx ly Vy b) b.
Proof.
  intros K H n0 n1 lx Vx ly Vy Hsh Ex Ey HS H1 H2 Hd b.
  apply (general_core K H n0 n1 lx ly Vx Vy Hsh Ex Ey H1 H2 Hd).
  intros i j Hi Hj.
  assert (HV1 : forall c p, c < n1 -> p < n1 -> (if n0 + 2 =? n1 + 2 then padV K n0 Vx else padV K n1 Vy) c p = Vy c p).
  { intros c p Hc Hp. destruct (Nat.eqb_spec (n0 + 2) (n1 + 2)) as [E|E].
    - assert (n0 = n1) by lia. subst n1. rewrite padV_in by auto. symmetry. apply HS; auto.
    - apply padV_in; auto. }
  assert (HV1o : forall c p, n1 <= c \/ n1 <= p -> (if n0 + 2 =? n1 + 2 then padV K n0 Vx else padV K n1 Vy) c p = f0).
  { intros c p Hc. destruct (Nat.eqb_spec (n0 + 2) (n1 + 2)) as [E|E].
    - apply padV_out. lia.
    - apply padV_out; auto. }
  assert (HL1 : forall p, p < n1 -> (if n0 + 2 =? n1 + 2 then padl K n0 lx else padl K n1 ly) p = ly p).
  { intros p Hp. destruct (Nat.eqb_spec (n0 + 2) (n1 + 2)) as [E|E].
    - assert (n0 = n1) by lia. subst n1. rewrite padl_in by auto. symmetry. apply (HS eq_refl p p); auto.
    - apply padl_in; auto. }
  unfold h2_call0. cbv zeta.
  assert (z_r : forall x : K, fmul x f0 = f0).
  { intros x. rewrite (Ring_theory.Rmul_comm (fringlaws K)). apply z_l. }
  rewrite fsum_trunc.
  2:{ intros p Hp. rewrite HV1o by auto. apply z_r. }
  transitivity (fsum n1 (fun p => fsum n0 (fun m => fmul (fmul (Vx i m) (h2_W K H n0 n1 lx ly Vx Vy b m p)) (Vy j p)))).
  - apply fsum_ext. intros p Hp. rewrite HV1 by auto. rewrite fsum_scal_r. f_equal.
    rewrite fsum_trunc.
    2:{ intros m Hm. rewrite padV_out by auto. apply z_l. }
    apply fsum_ext. intros m Hm. rewrite padV_in by auto. f_equal.
    unfold h2_W. rewrite HL1 by auto. rewrite padl_in by auto. f_equal.
    rewrite fsum_trunc.
    2:{ intros c Hc. rewrite HV1o by auto. apply z_r. }
    apply fsum_ext. intros c Hc. rewrite HV1 by auto. f_equal.
    rewrite fsum_trunc.
    2:{ intros k Hk. rewrite padV_out by auto. apply z_l. }
    apply fsum_ext. intros k Hk. rewrite padV_in by auto. reflexivity.
  - rewrite fsum_swap. apply fsum_ext. intros m Hm. rewrite <- fsum_scal. apply fsum_ext. intros p Hp.
    symmetry. apply (Ring_theory.Rmul_assoc (fringlaws K)).
Qed.
Print Assumptions C66_generalized.

(** ** examples *)
(** B = V diag(50, 3, 25) V^T with V a rotation by (3/5, 4/5) of unknowns 0 and 2 *)
Definition h2_Bq : smat QcFld := mkSmat QcFld 3 3 (qc 1)
  [((-2)%Z, Arr QcFld 1 (fun _ => qc 12));
   (0%Z, Arr QcFld 3 (fun t => match t with 0 => qc 34 | 1 => qc 3 | _ => qc 41 end));
   (2%Z, Arr QcFld 1 (fun _ => qc 12))].
Definition h2_Iq (n : nat) (s : Z) : smat QcFld := mkSmat QcFld n n (qc 1) [(0%Z, Scal QcFld (qc s))].
Definition h2_Vq : nat -> nat -> QcFld := mat_of [[qcf (-4) 5; qc 0; qcf 3 5]; [qc 0; qc 1; qc 0]; [qcf 3 5; qc 0; qcf 4 5]].
Definition h2_lq : nat -> QcFld := fun i => match i with 0 => qc 25 | 1 => qc 3 | _ => qc 50 end.
Definition h2_ex : helm2 QcFld := mkH2 QcFld h2_Bq (md_tri 5) (h2_Iq 3 1) (md_diag 5) (qc 7) (qc 1) (qc 1).

Definition chk (n m : nat) (f g : nat -> nat -> QcFld) : bool := all2 n m (fun i j => qeqb (f i j) (g i j)).
Lemma chk_spec n m f g : chk n m f g = true -> forall i j, i < n -> j < m -> f i j = g i j.
Proof. intros H i j Hi Hj. apply qeqb_true. apply (all2_spec n m _ H); auto. Qed.
Definition deltaq : nat -> nat -> QcFld := delta QcFld.
Lemma eigen_chk n M l V :
  chk n n (fun i j => fsum n (fun k => fmul (M i k) (V k j))) (fun i j => fmul (V i j) (l j)) = true ->
  chk n n (fun i j => fsum n (fun k => fmul (V k i) (V k j))) deltaq = true ->
  chk n n (fun i j => fsum n (fun k => fmul (V i k) (V j k))) deltaq = true -> eigen QcFld n M l V.
Proof.
  intros H1 H2 H3 i j Hi Hj. split; [exact (chk_spec _ _ _ _ H1 i j Hi Hj)|].
  split; [exact (chk_spec _ _ _ _ H2 i j Hi Hj) | exact (chk_spec _ _ _ _ H3 i j Hi Hj)].
Qed.
Lemma gen_eigen_chk n A B l V :
  chk n n (fun i j => fsum n (fun k => fmul (A i k) (V k j)))
          (fun i j => fmul (fsum n (fun k => fmul (B i k) (V k j))) (l j)) = true ->
  chk n n (fun i j => fsum n (fun m => fmul (fsum n (fun k => fmul (B i k) (V k m))) (V j m))) deltaq = true ->
  gen_eigen QcFld n A B l V.
Proof.
  intros H1 H2 i j Hi Hj. split; [exact (chk_spec _ _ _ _ H1 i j Hi Hj) | exact (chk_spec _ _ _ _ H2 i j Hi Hj)].
Qed.

Definition h2_tsq (H : helm2 QcFld) := h2_terms QcFld H (padl QcFld 3 h2_lq).
Lemma h2_tsq_ok (H : helm2 QcFld) : h_A1 QcFld H = md_diag 5 -> h_B1 QcFld H = md_tri 5 ->
  all2 3 1 (fun i j => cleanb (fmul (qc 2) (h_sAUB QcFld H)) &&
     cleanb (fmul (qc 1) (fadd (h_sBUB QcFld H) (fdiv f1 (padl QcFld 3 h2_lq i))))) = true ->
  terms_ok QcFld SparseProperties.small16 SparseProperties.near1 3 1 5 (h2_tsq H).
Proof.
  intros EA EB HC. assert (M := md_terms_ok 5 1 0 3 1 ltac:(lia) ltac:(vm_compute; reflexivity)).
  destruct M as (_ & M1 & M2). split; [discriminate|]. split; [exact M1|].
  intros t [<-|[<-|[]]]; cbn [t_mat t_scale]; rewrite ?EA, ?EB.
  - destruct (M2 _ (or_introl eq_refl)) as (W & R & C & _). cbn [t_mat] in W, R, C. split; [exact W|]. split; [exact R|]. split; [exact C|].
    intros i j Hi Hj. cbv zeta. assert (X := all2_spec _ _ _ HC i j Hi Hj). cbv beta in X. apply andb_true_iff in X as [X _].
    apply cleanb_spec. exact X.
  - destruct (M2 _ (or_intror (or_introl eq_refl))) as (W & R & C & _). cbn [t_mat] in W, R, C. split; [exact W|]. split; [exact R|]. split; [exact C|].
    intros i j Hi Hj. cbv zeta. assert (X := all2_spec _ _ _ HC i j Hi Hj). cbv beta in X. apply andb_true_iff in X as [_ X].
    apply cleanb_spec. exact X.
Qed.

Example C66_banded_inhabited :
  h2_shape QcFld h2_ex 3 5 /\
  (forall i j, i < 3 -> j < 3 -> mat_entry QcFld (h_B QcFld h2_ex) i j = band QcFld (h_B QcFld h2_ex) i j) /\
  (forall i j, i < 3 -> j < 3 -> mat_entry QcFld (h_A QcFld h2_ex) i j = if i =? j then qc 1 else f0) /\
  eigen QcFld 3 (band QcFld (h_B QcFld h2_ex)) h2_lq h2_Vq /\ (forall i, i < 3 -> h2_lq i <> f0) /\
  fmul (h_sAUB QcFld h2_ex) (qc 1) = f1 /\ h_sBUA QcFld h2_ex = h_sAUB QcFld h2_ex /\
  terms_ok QcFld SparseProperties.small16 SparseProperties.near1 3 1 5 (h2_tsq h2_ex) /\
  (forall i, i < 3 -> line_regular QcFld 5 (kindq (h2_tsq h2_ex) i 0) (md_mat QcFld (h2_tsq h2_ex) i 0)).
Proof.
  split; [repeat split|].
  split; [apply chk_spec; vm_compute; reflexivity|].
  split; [apply (chk_spec 3 3 _ deltaq); vm_compute; reflexivity|].
  split; [apply eigen_chk; vm_compute; reflexivity|].
  split; [intros [|[|[|]]] ?; try lia; apply qeqb_false; vm_compute; reflexivity|].
  split; [apply qeqb_true; vm_compute; reflexivity|].
  split; [reflexivity|].
  split; [apply h2_tsq_ok; [reflexivity|reflexivity|vm_compute; reflexivity]|].
  intros i Hi. assert (E : kindq (h2_tsq h2_ex) i 0 = Some KTDMA) by (destruct i as [|[|[|]]]; try lia; vm_compute; reflexivity).
  rewrite E. split; [discriminate|]. apply dominantb_spec.
  apply (all2_spec 3 1 (fun i j => dominantb 5 (md_mat QcFld (h2_tsq h2_ex) i j))); [vm_compute; reflexivity|lia|lia].
Qed.

(** solver 0: three unknowns along axis 0, two along axis 1 *)
Definition h2_B2 : smat QcFld := mkSmat QcFld 3 3 (qc 1)
  [((-2)%Z, Arr QcFld 1 (fun _ => qc 36));
   (0%Z, Arr QcFld 3 (fun t => match t with 0 => qc 52 | 1 => qc 4 | _ => qc 73 end));
   (2%Z, Arr QcFld 1 (fun _ => qc 36))].
Definition h2_dg (n : nat) (l : list Z) : smat QcFld := mkSmat QcFld n n (qc 1) [(0%Z, Arr QcFld n (fun t => qc (nth t l 0%Z)))].
Definition h2_gen (s0 s1 s2 : Z) : helm2 QcFld :=
  mkH2 QcFld h2_B2 (h2_dg 2 [4; 9]%Z) (h2_Iq 3 1) (h2_dg 2 [4; 18]%Z) (qc s0) (qc s1) (qc s2).
Definition h2_lx : nat -> QcFld := fun i => match i with 0 => qcf 1 25 | 1 => qcf 1 4 | _ => qcf 1 100 end.
Definition h2_Vx : nat -> nat -> QcFld :=
  mat_of [[qcf (-4) 25; qc 0; qcf 3 50]; [qc 0; qcf 1 2; qc 0]; [qcf 3 25; qc 0; qcf 4 50]].
Definition h2_ly : nat -> QcFld := fun i => match i with 0 => qc 1 | _ => qc 2 end.
Definition h2_Vy : nat -> nat -> QcFld := mat_of [[qcf 1 2; qc 0]; [qc 0; qcf 1 3]].

Lemma h2_gen_eigen s0 s1 s2 :
  gen_eigen QcFld 3 (mat_entry QcFld (h_A QcFld (h2_gen s0 s1 s2))) (mat_entry QcFld (h_B QcFld (h2_gen s0 s1 s2))) h2_lx h2_Vx /\
  gen_eigen QcFld 2 (mat_entry QcFld (h_A1 QcFld (h2_gen s0 s1 s2))) (mat_entry QcFld (h_B1 QcFld (h2_gen s0 s1 s2))) h2_ly h2_Vy.
Proof.
  unfold h2_gen. cbn [h_A h_B h_A1 h_B1].
  split; apply gen_eigen_chk; vm_compute; reflexivity.
Qed.

Example C66_generalized_inhabited : let H := h2_gen 7 1 1 in
  h2_shape QcFld H 3 2 /\
  gen_eigen QcFld 3 (mat_entry QcFld (h_A QcFld H)) (mat_entry QcFld (h_B QcFld H)) h2_lx h2_Vx /\
  gen_eigen QcFld 2 (mat_entry QcFld (h_A1 QcFld H)) (mat_entry QcFld (h_B1 QcFld H)) h2_ly h2_Vy /\
  (forall m p, m < 3 -> p < 2 -> fadd (fadd (h_sBUB QcFld H) (h2_lx m)) (h2_ly p) <> f0).
Proof.
  cbv zeta. split; [repeat split|]. split; [apply h2_gen_eigen|]. split; [apply h2_gen_eigen|].
  intros m p Hm Hp. apply qeqb_false.
  assert (X : all2 3 2 (fun m p => negb (qeqb (fadd (fadd (qc 7) (h2_lx m)) (h2_ly p)) (qc 0))) = true) by (vm_compute; reflexivity).
  apply negb_true_iff. apply (all2_spec 3 2 _ X m p Hm Hp).
Qed.

(** ** the coefficients *)
Lemma not_solves (H : helm2 QcFld) n0 n1 U b :
  chk n0 n1 (h2_op QcFld H U) b = false -> ~ h2_solves QcFld H n0 n1 U b.
Proof.
  intros HC HS. assert (X : chk n0 n1 (h2_op QcFld H U) b = true); [|congruence].
  unfold chk, all2. apply forallb_forall. intros [i j] Hin. apply in_prod_iff in Hin as [Hi Hj].
  apply in_seq in Hi, Hj. cbn [fst snd]. rewrite HS by lia. destruct (qeqb (b i j) (b i j)) eqn:E; auto.
  apply qeqb_false in E. congruence.
Qed.
Definition h2_rhs : nat -> nat -> QcFld := fun i j => qc (1 + Z.of_nat (i + 2 * j)).

(** solver 0 uses the coefficient of BUB only: with the others equal to 2 the system that is
    solved has them equal to 1 *)
Theorem C66_generalized_coefficients_refuted : exists (H : helm2 QcFld) n0 n1 lx Vx ly Vy b,
  h2_shape QcFld H n0 n1 /\ n0 <> n1 /\
  gen_eigen QcFld n0 (mat_entry QcFld (h_A QcFld H)) (mat_entry QcFld (h_B QcFld H)) lx Vx /\
  gen_eigen QcFld n1 (mat_entry QcFld (h_A1 QcFld H)) (mat_entry QcFld (h_B1 QcFld H)) ly Vy /\
  h_sAUB QcFld H = h_sBUA QcFld H /\
  ~ h2_solves QcFld H n0 n1 (h2_call0 QcFld H n0 n1 lx Vx ly Vy b) b.
Proof.
  exists (h2_gen 7 2 2), 3, 2, h2_lx, h2_Vx, h2_ly, h2_Vy, h2_rhs.
  split; [repeat split|]. split; [discriminate|]. split; [apply h2_gen_eigen|]. split; [apply h2_gen_eigen|].
  split; [reflexivity|]. apply not_solves. vm_compute. reflexivity.
Qed.
Print Assumptions C66_generalized_coefficients_refuted.

(** solver 0, equal numbers of points: the eigenvectors of the first axis are used for the
    second one, whose matrices may differ (another domain, quadrature or scaling) *)
Theorem C66_generalized_same_points_refuted : exists (H : helm2 QcFld) n lx Vx ly Vy b,
  h2_shape QcFld H n n /\
  gen_eigen QcFld n (mat_entry QcFld (h_A QcFld H)) (mat_entry QcFld (h_B QcFld H)) lx Vx /\
  gen_eigen QcFld n (mat_entry QcFld (h_A1 QcFld H)) (mat_entry QcFld (h_B1 QcFld H)) ly Vy /\
  h_sAUB QcFld H = f1 /\ h_sBUA QcFld H = f1 /\
  (forall m p, m < n -> p < n -> fadd (fadd (h_sBUB QcFld H) (lx m)) (ly p) <> f0) /\
  ~ h2_solves QcFld H n n (h2_call0 QcFld H n n lx Vx ly Vy b) b.
Proof.
  exists (mkH2 QcFld (h2_dg 2 [1; 4]%Z) (h2_dg 2 [4; 9]%Z) (h2_Iq 2 1) (h2_dg 2 [4; 18]%Z) (qc 7) (qc 1) (qc 1)), 2,
    (fun i => match i with 0 => qc 1 | _ => qcf 1 4 end), (mat_of [[qc 1; qc 0]; [qc 0; qcf 1 2]]), h2_ly, h2_Vy, h2_rhs.
  split; [repeat split|].
  split; [apply gen_eigen_chk; vm_compute; reflexivity|]. split; [apply gen_eigen_chk; vm_compute; reflexivity|].
  split; [reflexivity|]. split; [reflexivity|]. split.
  - intros m p Hm Hp. apply qeqb_false. apply negb_true_iff.
    apply (all2_spec 2 2 (fun m p => negb (qeqb (fadd (fadd (qc 7) (match m with 0 => qc 1 | _ => qcf 1 4 end)) (h2_ly p)) f0))); [vm_compute; reflexivity | exact Hm | exact Hp].
  - apply not_solves. vm_compute. reflexivity.
Qed.
Print Assumptions C66_generalized_same_points_refuted.

(** solver 1: the coefficient of AUB does not multiply 1/lmbda, the one of BUA is not used *)
Notation hcall := (h2_call1 QcFld SparseProperties.small16 SparseProperties.near1 qis0' qdeq qlu (fun x : QcFld => x)).
Definition got2 (o : option (nat -> nat -> QcFld)) : nat -> nat -> QcFld := match o with Some U => U | None => fun _ _ => qc 0 end.
Lemma got2_some o : match o with Some _ => true | None => false end = true -> o = Some (got2 o).
Proof. destruct o; [reflexivity|discriminate]. Qed.
Definition h2_coef (s0 s1 s2 : Z) : helm2 QcFld :=
  mkH2 QcFld h2_Bq (md_tri 3) (h2_Iq 3 1) (md_diag 3) (qc s0) (qc s1) (qc s2).
Theorem C66_banded_coefficients_refuted : forall s1 s2, (s1, s2) = (2, 2)%Z \/ (s1, s2) = (1, 2)%Z ->
  exists U, hcall (h2_coef 7 s1 s2) 3 3 h2_lq h2_Vq h2_rhs = Some U /\
    eigen QcFld 3 (band QcFld (h_B QcFld (h2_coef 7 s1 s2))) h2_lq h2_Vq /\
    ~ h2_solves QcFld (h2_coef 7 s1 s2) 3 3 U h2_rhs.
Proof.
  intros s1 s2 [E|E]; injection E as -> ->; (eexists; split; [apply got2_some; vm_compute; reflexivity|]);
    (split; [apply eigen_chk; vm_compute; reflexivity|]);
    intros HS; specialize (HS 1 1 ltac:(lia) ltac:(lia)); revert HS; apply qeqb_false; vm_compute; reflexivity.
Qed.
Print Assumptions C66_banded_coefficients_refuted.
(** the same data with coefficients one: the row is solved *)
Example C66_banded_ones :
  h2_op QcFld (h2_coef 7 1 1) (got2 (hcall (h2_coef 7 1 1) 3 3 h2_lq h2_Vq h2_rhs)) 1 1 = h2_rhs 1 1.
Proof. apply qeqb_true. vm_compute. reflexivity. Qed.
