(** StencilProofs.v -- boundary values of the orthogonal polynomials and of basis functions. *)
From Coq Require Import Reals Lra Lia ZArith String List Arith.
From Verif Require Import Base Fld SparseModel SparseSpec RPoly StencilModel StencilSpec.
Import ListNotations.
Local Open Scope R_scope.

(** ** boundary values of derivatives, in closed form *)
Definition vQ (a : R) (k : nat) (x : R) : R :=
  match k with
  | 0%nat => 1
  | 1%nat => x * (x + 2 * a + 1) / (2 * (a + 1))
  | 2%nat => x * (x - 1) * (x + 2 * a + 1) * (x + 2 * a + 2) / (4 * (a + 1) * (a + 2))
  | 3%nat => x * (x - 1) * (x - 2) * (x + 2 * a + 1) * (x + 2 * a + 2) * (x + 2 * a + 3) / (8 * (a + 1) * (a + 2) * (a + 3))
  | 4%nat => x * (x - 1) * (x - 2) * (x - 3) * (x + 2 * a + 1) * (x + 2 * a + 2) * (x + 2 * a + 3) * (x + 2 * a + 4)
         / (16 * (a + 1) * (a + 2) * (a + 3) * (a + 4))
  | 5%nat => x * (x - 1) * (x - 2) * (x - 3) * (x - 4) * (x + 2 * a + 1) * (x + 2 * a + 2) * (x + 2 * a + 3)
         * (x + 2 * a + 4) * (x + 2 * a + 5) / (32 * (a + 1) * (a + 2) * (a + 3) * (a + 4) * (a + 5))
  | _ => 0
  end.
Definition vT (k : nat) (x : R) : R :=
  match k with
  | 0%nat => 1
  | 1%nat => x ^ 2
  | 2%nat => x ^ 2 * (x ^ 2 - 1) / 3
  | 3%nat => x ^ 2 * (x ^ 2 - 1) * (x ^ 2 - 4) / 15
  | 4%nat => x ^ 2 * (x ^ 2 - 1) * (x ^ 2 - 4) * (x ^ 2 - 9) / 105
  | 5%nat => x ^ 2 * (x ^ 2 - 1) * (x ^ 2 - 4) * (x ^ 2 - 9) * (x ^ 2 - 16) / 945
  | _ => 0
  end.
Definition vL (k : nat) (x : R) : R :=
  match k with
  | 0%nat => 1
  | 1%nat => x * (x + 1) / 2
  | 2%nat => x * (x - 1) * (x + 1) * (x + 2) / 8
  | 3%nat => x * (x - 1) * (x - 2) * (x + 1) * (x + 2) * (x + 3) / 48
  | 4%nat => x * (x - 1) * (x - 2) * (x - 3) * (x + 1) * (x + 2) * (x + 3) * (x + 4) / 384
  | 5%nat => x * (x - 1) * (x - 2) * (x - 3) * (x - 4) * (x + 1) * (x + 2) * (x + 3) * (x + 4) * (x + 5) / 3840
  | _ => 0
  end.
Definition vU (k : nat) (x : R) : R :=
  (x + 1) *
  match k with
  | 0%nat => 1
  | 1%nat => x * (x + 2) / 3
  | 2%nat => x * (x - 1) * (x + 2) * (x + 3) / 15
  | 3%nat => x * (x - 1) * (x - 2) * (x + 2) * (x + 3) * (x + 4) / 105
  | 4%nat => x * (x - 1) * (x - 2) * (x - 3) * (x + 2) * (x + 3) * (x + 4) * (x + 5) / 945
  | 5%nat => x * (x - 1) * (x - 2) * (x - 3) * (x - 4) * (x + 2) * (x + 3) * (x + 4) * (x + 5) * (x + 6) / 10395
  | _ => 0
  end.

Ltac cases6 k := destruct k as [|[|[|[|[|[|k]]]]]]; [| | | | | |exfalso; lia].
Lemma INR_pos n : 0 <= INR n. Proof. apply pos_INR. Qed.
Ltac inr q := rewrite ?S_INR; cbn [INR pred]; let x := fresh "x" in let H := fresh "Hx" in
  pose proof (INR_pos q) as H; set (x := INR q) in *; clearbody x.

Lemma chebT_right n k : (k <= 5)%nat -> deriv_at k (chebT n) 1 = vT k (INR n).
Proof.
  apply three_term_values with (v := fun k n => vT k (INR n)).
  - intros j Hj. cases6 j; unfold deriv_at, vT; simpl; lra.
  - intros j q Hj. rewrite !S_INR. inr q. cases6 j; cbn [vT pred INR]; field.
Qed.
Lemma chebT_left n k : (k <= 5)%nat -> deriv_at k (chebT n) (-1) = (-1) ^ n * ((-1) ^ k * vT k (INR n)).
Proof.
  apply three_term_values with (v := fun k n => (-1) ^ n * ((-1) ^ k * vT k (INR n))).
  - intros j Hj. cases6 j; unfold deriv_at, vT; simpl; lra.
  - intros j q Hj. rewrite !S_INR. inr q. rewrite <- !tech_pow_Rmult. set (z := (-1) ^ q). clearbody z.
    cases6 j; cbn [vT pred INR pow]; field.
Qed.
Lemma chebU_right n k : (k <= 5)%nat -> deriv_at k (chebU n) 1 = vU k (INR n).
Proof.
  apply three_term_values with (v := fun k n => vU k (INR n)).
  - intros j Hj. cases6 j; unfold deriv_at, vU; simpl; lra.
  - intros j q Hj. rewrite !S_INR. inr q. cases6 j; unfold vU; cbn [pred INR]; field.
Qed.
Lemma chebU_left n k : (k <= 5)%nat -> deriv_at k (chebU n) (-1) = (-1) ^ n * ((-1) ^ k * vU k (INR n)).
Proof.
  apply three_term_values with (v := fun k n => (-1) ^ n * ((-1) ^ k * vU k (INR n))).
  - intros j Hj. cases6 j; unfold deriv_at, vU; simpl; lra.
  - intros j q Hj. rewrite !S_INR. inr q. rewrite <- !tech_pow_Rmult. set (z := (-1) ^ q). clearbody z.
    cases6 j; unfold vU; cbn [pred INR pow]; field.
Qed.
Lemma legL_right n k : (k <= 5)%nat -> deriv_at k (legL n) 1 = vL k (INR n).
Proof.
  apply three_term_values with (v := fun k n => vL k (INR n)).
  - intros j Hj. cases6 j; unfold deriv_at, vL; simpl; lra.
  - intros j q Hj. rewrite !S_INR. inr q. cases6 j; cbn [vL pred INR]; field; lra.
Qed.
Lemma legL_left n k : (k <= 5)%nat -> deriv_at k (legL n) (-1) = (-1) ^ n * ((-1) ^ k * vL k (INR n)).
Proof.
  apply three_term_values with (v := fun k n => (-1) ^ n * ((-1) ^ k * vL k (INR n))).
  - intros j Hj. cases6 j; unfold deriv_at, vL; simpl; lra.
  - intros j q Hj. rewrite !S_INR. inr q. rewrite <- !tech_pow_Rmult. set (z := (-1) ^ q). clearbody z.
    cases6 j; cbn [vL pred INR pow]; field; lra.
Qed.
Lemma ultraQ_right a n k : -1 < a -> (k <= 5)%nat -> deriv_at k (ultraQ a n) 1 = vQ a k (INR n).
Proof.
  intros Ha. apply three_term_values with (v := fun k n => vQ a k (INR n)).
  - intros j Hj. cases6 j; unfold deriv_at, vQ; simpl; (split; field; lra).
  - intros j q Hj. rewrite !S_INR. inr q. cases6 j; cbn [vQ pred INR]; field; lra.
Qed.
Lemma ultraQ_left a n k : -1 < a -> (k <= 5)%nat -> deriv_at k (ultraQ a n) (-1) = (-1) ^ n * ((-1) ^ k * vQ a k (INR n)).
Proof.
  intros Ha. apply three_term_values with (v := fun k n => (-1) ^ n * ((-1) ^ k * vQ a k (INR n))).
  - intros j Hj. cases6 j; unfold deriv_at, vQ; simpl; (split; field; lra).
  - intros j q Hj. rewrite !S_INR. inr q. rewrite <- !tech_pow_Rmult. set (z := (-1) ^ q). clearbody z.
    cases6 j; cbn [vQ pred INR pow]; field; lra.
Qed.

(** ** derivatives of a basis function in terms of the stencil *)
Definition sval (s : sitem) (x : R) : R := match s with SConst c => c | SFun f => f x end.
Fixpoint stencil_sum (st : list (nat * sitem)) (x : R) (d : nat -> R) : R :=
  match st with [] => 0 | (o, s) :: r => sval s x * d o + stencil_sum r x d end.

Lemma gsum_zero n (f : nat -> R) : (forall i, (i < n)%nat -> f i = 0) -> gsum 0 Rplus n f = 0.
Proof. induction n; simpl; intros H; [reflexivity|]. rewrite IHn, H by auto. ring. Qed.
Lemma gsum_add n (f g : nat -> R) : gsum 0 Rplus n (fun i => f i + g i) = gsum 0 Rplus n f + gsum 0 Rplus n g.
Proof. induction n; simpl; [ring|]. rewrite IHn. ring. Qed.
Lemma gsum_ext_R n (f g : nat -> R) : (forall i, (i < n)%nat -> f i = g i) -> gsum 0 Rplus n f = gsum 0 Rplus n g.
Proof. induction n; simpl; intros H; [reflexivity|]. rewrite IHn, H by auto. reflexivity. Qed.
Lemma gsum_one n j (c : R) : (j < n)%nat -> gsum 0 Rplus n (fun i => if Nat.eqb i j then c else 0) = c.
Proof.
  induction n; intros H; [lia|]. simpl. destruct (Nat.eqb_spec n j) as [->|Hn].
  - rewrite gsum_zero; [ring|]. intros i Hi. destruct (Nat.eqb_spec i j); [lia|reflexivity].
  - rewrite IHn by lia. ring.
Qed.

Fixpoint row_value (N nbc : nat) (st : list (nat * sitem)) (k j : nat) : R :=
  match st with
  | [] => 0
  | (o, s) :: r => if Nat.eqb j (k + o) then sval s (INR k) else row_value N nbc r k j
  end.
Lemma entry_row cls N k j : (k < N - length (sc_bcs cls))%nat ->
  mat_entry RFld (stencil_matrix cls N) k j = row_value N (length (sc_bcs cls)) (sc_stencil cls) k j.
Proof.
  intros Hk. unfold mat_entry, stencil_matrix. cbn [sm_items sm_scale].
  induction (sc_stencil cls) as [|[o s] r IH]; [reflexivity|].
  cbn [map lookup stencil_item fst snd row_value].
  destruct (Z.eq_dec (Z.of_nat o) (Z.of_nat j - Z.of_nat k)) as [E|E]; destruct (Nat.eqb_spec j (k + o)) as [E'|E']; try lia.
  - replace (Nat.min k j) with k by lia. destruct s as [c|f]; cbn [dget sval].
    + cbn. ring.
    + destruct (Nat.ltb_spec k (N - length (sc_bcs cls))); [|lia]. cbn. ring.
  - apply IH.
Qed.
Lemma row_sum N nbc st k d : NoDup (map fst st) -> Forall (fun it => (fst it <= nbc)%nat) st -> (k < N - nbc)%nat ->
  gsum 0 Rplus N (fun j => row_value N nbc st k j * d j) = stencil_sum st (INR k) (fun o => d (k + o)%nat).
Proof.
  intros Hnd Hle Hk. induction st as [|[o s] r IH]; cbn [stencil_sum row_value].
  - apply gsum_zero. intros. ring.
  - inversion Hnd as [|? ? Hni Hnd']; inversion Hle as [|? ? Ho Hle']; subst. cbn [fst] in *.
    rewrite <- IH by auto.
    rewrite (gsum_ext_R N _ (fun j => (if Nat.eqb j (k + o) then sval s (INR k) * d (k + o)%nat else 0) + row_value N nbc r k j * d j)).
    + rewrite gsum_add, gsum_one by lia. reflexivity.
    + intros j Hj. destruct (Nat.eqb_spec j (k + o)) as [->|]; [|ring].
      assert (row_value N nbc r k (k + o) = 0) as ->; [|ring].
      clear - Hni. induction r as [|[o' s'] r IH]; [reflexivity|]. cbn [row_value map fst] in *.
      destruct (Nat.eqb_spec (k + o) (k + o')); [exfalso; apply Hni; left; lia|]. apply IH. intros H; apply Hni; right; exact H.
Qed.
Lemma basis_deriv P cls N k m x :
  NoDup (map fst (sc_stencil cls)) -> Forall (fun it => (fst it <= length (sc_bcs cls))%nat) (sc_stencil cls) ->
  (k < N - length (sc_bcs cls))%nat ->
  deriv_at m (basis_function P (stencil_matrix cls N) k) x =
  stencil_sum (sc_stencil cls) (INR k) (fun o => deriv_at m (P (o + k)%nat) x).
Proof.
  intros H1 H2 H3. unfold basis_function. cbn [sm_cols stencil_matrix]. rewrite deriv_at_pcomb.
  rewrite (gsum_ext_R N _ (fun j => row_value N (length (sc_bcs cls)) (sc_stencil cls) k j * deriv_at m (P j) x)).
  - rewrite row_sum by auto. clear.
    induction (sc_stencil cls) as [|[o s] r IH]; cbn [stencil_sum]; [reflexivity|]. rewrite IH, Nat.add_comm. reflexivity.
  - intros j _. rewrite entry_row by auto. reflexivity.
Qed.

Lemma bcs_ok_intro P cls :
  NoDup (map fst (sc_stencil cls)) -> Forall (fun it => (fst it <= length (sc_bcs cls))%nat) (sc_stencil cls) ->
  (forall k, Forall (fun c => stencil_sum (sc_stencil cls) (INR k)
       (fun o => deriv_at (bc_order c) (P (o + k)%nat) (end_point (bc_side c))) = 0) (sc_bcs cls)) ->
  bcs_ok P cls.
Proof.
  intros H1 H2 H3 N k Hk. specialize (H3 k). rewrite Forall_forall in H3. apply Forall_forall. intros c Hc.
  unfold satisfies. rewrite basis_deriv; auto.
Qed.

Ltac nodup := cbn; repeat constructor; cbn; lia.
Ltac pos := solve [lra | assumption
  | match goal with
    | |- 0 < _ + _ => apply Rplus_lt_le_0_compat; [pos | nonneg]
    | |- 0 < _ + _ => apply Rplus_le_lt_0_compat; [nonneg | pos]
    | |- 0 < _ * _ => apply Rmult_lt_0_compat; pos
    | |- 0 < _ ^ _ => apply pow_lt; pos
    | |- 0 < _ / _ => apply Rdiv_lt_0_compat; pos
    | |- 0 < sqrt _ => apply sqrt_lt_R0; pos
    end ]
with nonneg := solve [lra | assumption
  | match goal with
    | |- 0 <= _ + _ => apply Rplus_le_le_0_compat; nonneg
    | |- 0 <= _ * _ => apply Rmult_le_pos; nonneg
    | |- 0 <= _ ^ _ => apply pow_le; nonneg
    end ].
Ltac neq0 := repeat split; (apply Rgt_not_eq, Rlt_gt; pos).
Ltac unf := match goal with |- bcs_ok _ ?c => let h := eval hnf in c in change c with h end.

Ltac stencil_values R L q :=
  cbn [stencil_sum sval sc_stencil sc_bcs bc_order bc_side end_point];
  cbn [Nat.add]; rewrite ?R, ?L by lia;
  rewrite ?S_INR; rewrite <- ?tech_pow_Rmult.
Ltac solve_class R L :=
  unf; apply bcs_ok_intro; [nodup | nodup | ];
  let k := fresh "k" in intros k; pose proof PI_RGT_0;
  let x := fresh "x" in let Hx := fresh "Hx" in pose proof (pos_INR k) as Hx;
  let z := fresh "z" in
  cbn [sc_bcs];
  repeat (apply Forall_cons; [ stencil_values R L k;
     set (x := INR k) in *; try set (z := (-1) ^ k); clearbody x; try clearbody z;
     cbn [pow]; unfold vT, vU, vL, vQ; field; neq0 | ]); apply Forall_nil.
