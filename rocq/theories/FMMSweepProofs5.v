(** FMMSweepProofs5.v -- the conversion matrices are exact; FMMcheb. *)
From Coq Require Import Reals List Arith Bool Lia Lra.
From Verif Require Import Base RPoly StencilModel MatrixSpec LegMatrixModel HelmholtzProofs StencilProofs8 ChebMatrixModel ChebMatrixProofs ChebQuadModel ChebTransModel ChebTransProofs Leg2ChebModel Leg2ChebProofs Leg2ChebProofs2 Leg2ChebProofs3
  FMMModel FMMProofs FMMSweepModel FMMSweepSpec FMMSweepProofs FMMSweepProofs2 FMMSweepProofs3 FMMSweepProofs4.
Import ListNotations.
Local Open Scope R_scope.

(** ** functions that are combinations of T_0, ..., T_k *)
Definition in_span (k : nat) (f : R -> R) : Prop := exists a, forall y, f y = rsum (S k) (fun l => a l * peval (chebT l) y).
Lemma span_ext k f g : (forall y, f y = g y) -> in_span k f -> in_span k g.
Proof. intros H (a & Ha). exists a. intros y. rewrite <- H. apply Ha. Qed.
Lemma span_up k m f : (k <= m)%nat -> in_span k f -> in_span m f.
Proof.
  intros H (a & Ha). exists (fun l => if Nat.leb l k then a l else 0). intros y. rewrite Ha. rewrite (rsum_more (S k) (S m)); [|lia|].
  - apply rsum_ext. intros l Hl. destruct (Nat.leb_spec l k); [reflexivity|lia].
  - intros l Hl. destruct (Nat.leb_spec l k); [lia|ring].
Qed.
Lemma span_lin k f g c d : in_span k f -> in_span k g -> in_span k (fun y => c * f y + d * g y).
Proof.
  intros (a & Ha) (b & Hb). exists (fun l => c * a l + d * b l). intros y. rewrite Ha, Hb, <- !rsum_scal, <- rsum_add. apply rsum_ext. intros l Hl. ring.
Qed.
Lemma span_T l k : (l <= k)%nat -> in_span k (fun y => peval (chebT l) y).
Proof.
  intros H. exists (fun m => if Nat.eqb m l then 1 else 0). intros y. rewrite (Leg2ChebProofs3.rsum_at (S k) l); [rewrite Nat.eqb_refl; ring|lia|]. intros m _ Hne. destruct (Nat.eqb_spec m l); [contradiction|ring].
Qed.
Lemma cheb_rec l y : peval (chebT (S (S l))) y = 2 * y * peval (chebT (S l)) y - peval (chebT l) y.
Proof. apply chebT_SS. Qed.
Lemma span_mul_T l k : (l <= k)%nat -> in_span (S k) (fun y => y * peval (chebT l) y).
Proof.
  intros H. destruct l as [|l].
  - apply (span_ext (S k) (fun y => peval (chebT 1) y)); [intros y; cbn; ring|]. apply span_T. lia.
  - apply (span_ext (S k) (fun y => / 2 * peval (chebT (S (S l))) y + / 2 * peval (chebT l) y)); [intros y; rewrite cheb_rec; field|]. apply span_lin; apply span_T; lia.
Qed.
Lemma span_sum k n (f : nat -> R -> R) (a : nat -> R) : (forall l, (l < n)%nat -> in_span k (f l)) -> in_span k (fun y => rsum n (fun l => a l * f l y)).
Proof.
  intros H. induction n as [|n IH].
  - exists (fun _ => 0). intros y. transitivity 0; [reflexivity|]. symmetry. apply rsum_zero. intros; ring.
  - apply (span_ext k (fun y => 1 * rsum n (fun l => a l * f l y) + a n * f n y)); [intros y; rewrite rsum_last; ring|]. apply span_lin; [apply IH; intros; apply H; lia|apply H; lia].
Qed.
Lemma span_mul k f : in_span k f -> in_span (S k) (fun y => y * f y).
Proof.
  intros (a & Ha). apply (span_ext (S k) (fun y => rsum (S k) (fun l => a l * (y * peval (chebT l) y)))).
  - intros y. rewrite Ha, <- rsum_scal. apply rsum_ext. intros l Hl. ring.
  - apply (span_sum (S k) (S k) (fun l y => y * peval (chebT l) y)). intros l Hl. apply span_mul_T. lia.
Qed.
Lemma span_shift al be k : in_span k (fun y => peval (chebT k) (al * y + be)) /\ in_span (S k) (fun y => peval (chebT (S k)) (al * y + be)).
Proof.
  induction k as [|k (IH0 & IH1)].
  - split.
    + exists (fun _ => 1). intros y. cbn. ring.
    + apply (span_ext 1 (fun y => al * peval (chebT 1) y + be * peval (chebT 0) y)); [intros y; cbn; ring|]. apply span_lin; apply span_T; lia.
  - split; [exact IH1|]. apply (span_ext (S (S k)) (fun y => 1 * (2 * al * (y * peval (chebT (S k)) (al * y + be)) + 2 * be * peval (chebT (S k)) (al * y + be)) + -1 * peval (chebT k) (al * y + be))).
    + intros y. rewrite cheb_rec. ring.
    + apply span_lin; [|apply (span_up k); [lia|exact IH0]]. apply span_lin; [apply span_mul; exact IH1|apply (span_up (S k)); [lia|exact IH1]].
Qed.

(** ** conversionmatrix *)
Lemma dct_coeffs M c l : (1 <= M)%nat -> (l < M)%nat ->
  (let t := dct2 M (fun j => rsum M (fun k => c k * peval (chebT k) (cheb_point LG M j))) l / INR M in if Nat.eqb l 0 then t / 2 else t) = c l.
Proof.
  intros HM Hl. cbv zeta. pose proof (scalar_of_expansion LG M 1 c l HM ltac:(lra) Hl) as H. unfold scalar_product_fast, xfftn_fwd in H. pose proof PI_RGT_0. pose proof (lt_0_INR M ltac:(lia)).
  assert (E : dct2 M (evaluate_expansion_fast LG M c) l = dct2 M (fun j => rsum M (fun k => c k * peval (chebT k) (cheb_point LG M j))) l).
  { unfold dct2. f_equal. apply rsum_ext. intros j Hj. rewrite expansion_values by assumption. reflexivity. }
  rewrite E in H. set (X := dct2 M _ l) in *. clearbody X. unfold cheb_norm_sq, cheb_l2_norm_sq in H.
  assert (EX : X = (if Nat.eqb l 0 then 2 else 1) * INR M * c l).
  { replace X with (X * (PI / (2 * 1 * INR M)) * (2 * INR M / PI)) at 1 by (field; repeat split; lra). rewrite H. destruct (Nat.eqb l 0); field; repeat split; lra. }
  rewrite EX. destruct (Nat.eqb l 0); field; lra.
Qed.
Lemma conversion_exact d M q k y : (q < d)%nat -> (k < M)%nat ->
  rsum (k + 1) (fun l => conversionmatrix d M q k l * peval (chebT l) y) = peval (chebT k) ((y + 1 + 2 * INR q - INR d) / INR d).
Proof.
  intros Hq Hk. pose proof (lt_0_INR d ltac:(lia)) as Hd. destruct (span_shift (/ INR d) ((1 + 2 * INR q - INR d) / INR d) k) as ((a & Ha) & _).
  assert (E : forall l, (l < S k)%nat -> conversionmatrix d M q k l = a l).
  { intros l Hl. pose proof (dct_coeffs M (fun l => if Nat.leb l k then a l else 0) l ltac:(lia) ltac:(lia)) as H. cbv beta in H. destruct (Nat.leb_spec l k) as [_|]; [|lia]. rewrite <- H. clear H.
    unfold conversionmatrix. cbv zeta.
    assert (EQ : forall f g, (forall j, (j < M)%nat -> f j = g j) -> dct2 M f l = dct2 M g l) by (intros f g Hfg; unfold dct2; f_equal; apply rsum_ext; intros j Hj; rewrite Hfg by exact Hj; reflexivity).
    rewrite (EQ _ (fun j => rsum M (fun k0 => (if Nat.leb k0 k then a k0 else 0) * peval (chebT k0) (cheb_point LG M j)))); [reflexivity|]. intros j Hj.
    set (X := cos ((INR j + / 2) * PI / INR M)). assert (EX : cheb_point LG M j = X).
    { rewrite point_cos by lia. unfold theta, X. f_equal. pose proof (lt_0_INR M ltac:(lia)). field. lra. }
    rewrite EX. pose proof (COS_bound ((INR j + / 2) * PI / INR M)) as HX. fold X in HX. clearbody X.
    assert (Hq2 : INR q + 1 <= INR d) by (rewrite <- S_INR; apply le_INR; lia). pose proof (pos_INR q) as Hq0.
    set (z := (X + 1 + 2 * INR q - INR d) / INR d). assert (Hz : -1 <= z <= 1).
    { unfold z. split; [apply (Rmult_le_reg_r (INR d)); [exact Hd|]|apply (Rmult_le_reg_r (INR d)); [exact Hd|]]; unfold Rdiv; rewrite Rmult_assoc, Rinv_l by lra; lra. }
    rewrite <- chebT_cos, cos_acos by exact Hz. replace z with (/ INR d * X + (1 + 2 * INR q - INR d) / INR d) by (unfold z; field; lra). rewrite Ha. rewrite (rsum_more (S k) M); [|lia|].
    - apply rsum_ext. intros m Hm. destruct (Nat.leb_spec m k); [reflexivity|lia].
    - intros m Hm. destruct (Nat.leb_spec m k); [lia|ring]. }
  rewrite Nat.add_1_r. rewrite (rsum_ext (S k) _ (fun l => a l * peval (chebT l) y)) by (intros l Hl; rewrite E by exact Hl; reflexivity). rewrite <- Ha. f_equal. field. lra.
Qed.

(** ** the list of conversion matrices *)
Lemma in_np_insert d l : In d (np_insert d l).
Proof. induction l as [|e r IH]; cbn [np_insert]; [left; reflexivity|]. destruct (Nat.ltb d e); [left; reflexivity|]. destruct (Nat.eqb_spec d e) as [->|]; [left; reflexivity|right; exact IH]. Qed.
Lemma in_np_insert_other d e l : In d l -> In d (np_insert e l).
Proof.
  induction l as [|x r IH]; [intros []|]; cbn [np_insert]. intros H. destruct (Nat.ltb e x); [right; exact H|]. destruct (Nat.eqb e x); [exact H|]. destruct H as [->|H]; [left; reflexivity|right; apply IH; exact H].
Qed.
Lemma in_np_unique d D : In d D -> In d (np_unique D).
Proof. induction D as [|e r IH]; [intros []|]. cbn [np_unique fold_right]. change (fold_right np_insert [] r) with (np_unique r). intros [->|H]; [apply in_np_insert|apply in_np_insert_other, IH; exact H]. Qed.
Lemma nth_blocks {X} (g : nat -> nat -> X) U d q z : In d U -> (q < d)%nat ->
  nth (list_sum (firstn (find_index U d) U) + q) (flat_map (fun d => map (g d) (seq 0 d)) U) z = g d q.
Proof.
  intros HI Hq. induction U as [|e r IH]; [destruct HI|]. cbn [find_index flat_map]. destruct (Nat.eqb_spec e d) as [->|Hne].
  - cbn [firstn list_sum fold_right Nat.add]. rewrite app_nth1 by (rewrite map_length, seq_length; exact Hq).
    rewrite (nth_indep _ z (g d 0%nat)) by (rewrite map_length, seq_length; exact Hq). rewrite map_nth, seq_nth by exact Hq. reflexivity.
  - destruct HI as [E|HI]; [contradiction|]. cbn [firstn list_sum fold_right]. change (fold_right Nat.add 0%nat) with list_sum. rewrite app_nth2; rewrite map_length, seq_length; [|lia].
    replace (e + list_sum (firstn (find_index r d) r) + q - e)%nat with (list_sum (firstn (find_index r d) r) + q)%nat by lia. apply IH. exact HI.
Qed.
Lemma Th_at_eq D M d q : In d D -> (q < d)%nat -> Th_at D M d q = conversionmatrix d M q.
Proof.
  intros HI Hq. unfold Th_at. cbn [find_index]. destruct (Nat.eqb_spec 0 d); [lia|]. replace (S (find_index (np_unique D) d) - 1)%nat with (find_index (np_unique D) d) by lia.
  rewrite Nat.add_1_r. cbn [firstn list_sum fold_right Nat.add]. change (fold_right Nat.add 0%nat) with list_sum. apply (nth_blocks (fun d q => conversionmatrix d M q)); [apply in_np_unique; exact HI|exact Hq].
Qed.

(** ** FMMcheb *)
Lemma max_ge (f : nat -> nat) n l : (l < n)%nat -> (f l <= fold_right Nat.max 0 (map f (seq 0 n)))%nat.
Proof.
  intros H. assert (HI : In (f l) (map f (seq 0 n))) by (apply in_map, in_seq; lia). revert HI. generalize (map f (seq 0 n)). intros m. induction m as [|x m IH]; [intros []|]. cbn [In fold_right]. intros [->|HI]; [lia|]. specialize (IH HI). lia.
Qed.
Lemma node_child odd d h q x : (0 < d)%nat -> (0 < h)%nat -> node odd (d * h) (q * h + x) = (node odd h x + 1 + 2 * INR q - INR d) / INR d.
Proof.
  intros Hd Hh. unfold node. rewrite !plus_INR, !mult_INR, !plus_INR, !mult_INR. cbn [INR]. pose proof (lt_0_INR d Hd). pose proof (lt_0_INR h Hh). field. split; lra.
Qed.
(** the assumptions on the sizes: the number of coefficients does not decrease towards the finest level; no matrix is larger than the number of its level *)
Definition sizes_ok (D : list nat) (Mmin Nk : nat -> nat) : Prop :=
  (forall l, (S l < List.length D)%nat -> (Mmin l <= Mmin (S l))%nat) /\
  (forall l b q p, (l < List.length D)%nat -> (b < nb D l)%nat -> (q < dl D l)%nat -> (p <= q)%nat -> (Nk (off D (S l) + b * tr (dl D l) + tr q + p) <= Mmin l)%nat).
Section Whole.
  Variables (D : list nat) (s diags : nat) (Mmin Nk : nat -> nat) (A : nat -> nat -> nat -> R).
  Hypothesis HD : Forall (fun d => (0 < d)%nat) D.
  Hypothesis HL : D <> [].
  Hypothesis Hs : (0 < s)%nat.
  Hypothesis Hok : sizes_ok D Mmin Nk.
  Let Mmax := fold_right Nat.max 0%nat (map Mmin (seq 0 (List.length D))).
  Variable odd : nat.
  Let Phi h x k := peval (chebT k) (node odd h x).
  Lemma HL' : (0 < nL D)%nat. Proof. unfold nL. destruct D; [contradiction|cbn; lia]. Qed.
  Lemma HTh' : forall l q x k, (S l < nL D)%nat -> (q < dl D (S l))%nat -> (x < hh D s (S l))%nat -> (k < Mmin l)%nat ->
    Phi (hh D s l) (q * hh D s (S l) + x)%nat k = rsum (k + 1) (fun j => Th_at D Mmax (dl D (S l)) q k j * Phi (hh D s (S l)) x j).
  Proof.
    intros l q x k Hl Hq Hx Hk. unfold Phi. rewrite Th_at_eq; [|apply nth_In; exact Hl|exact Hq]. rewrite conversion_exact.
    - f_equal. rewrite (hh_step D s Hs l Hl). apply node_child; [lia|apply hh_pos; assumption].
    - exact Hq.
    - eapply Nat.lt_le_trans; [exact Hk|]. apply max_ge. unfold nL in Hl. lia.
  Qed.
  Lemma sweep_low_rank cia i : sweep D s diags Mmin Nk A (TT_at s odd) (Th_at D Mmax) cia i
    = product (fun ik h => low_rank odd h (Nk ik) (A ik)) (submatrices D s diags) cia i.
  Proof. exact (sweep_product D s diags HD Hs Mmin Nk A (TT_at s odd) (Th_at D Mmax) cia Phi HL' (fun x k _ _ => eq_refl) HTh' (proj1 Hok) (proj2 Hok) i). Qed.
End Whole.
