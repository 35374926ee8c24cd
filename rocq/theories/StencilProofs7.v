(** StencilProofs7.v -- the explicit stencil matrices. *)
From Coq Require Import Reals Lra Lia ZArith String List Arith.
From Verif Require Import Base Fld SparseModel SparseSpec RPoly StencilModel StencilModel2 StencilSpec StencilProofs StencilProofs6.
Import ListNotations.
Local Open Scope R_scope.
Local Open Scope bool_scope.

(** the sum along row k, one term per stored diagonal *)
Definition item_term (M k : nat) (s : R) (d : nat -> R) (kv : Z * dval RFld) : R :=
  let c := (Z.of_nat k + fst kv)%Z in
  if (0 <=? c)%Z && (c <? Z.of_nat M)%Z
  then dget RFld (snd kv) (Nat.min k (Z.to_nat c)) * s * d (Z.to_nat c) else 0.
Fixpoint item_sum (l : list (Z * dval RFld)) (M k : nat) (s : R) (d : nat -> R) : R :=
  match l with [] => 0 | kv :: r => item_term M k s d kv + item_sum r M k s d end.

Lemma lookup_none (l : list (Z * dval RFld)) o : ~ In o (map fst l) -> lookup RFld l o = None.
Proof.
  induction l as [|[k v] l IH]; intros H; [reflexivity|]. cbn [lookup map fst] in *.
  destruct (Z.eq_dec k o) as [->|]; [exfalso; apply H; left; reflexivity|]. apply IH. intros C. apply H. right. exact C.
Qed.
Lemma row_items l M k s d : NoDup (map fst l) ->
  gsum 0 Rplus M (fun j => match lookup RFld l (Z.of_nat j - Z.of_nat k)%Z with
                           | None => 0 | Some v => dget RFld v (Nat.min k j) * s end * d j) = item_sum l M k s d.
Proof.
  induction l as [|[o v] l IH]; intros Hn; cbn [lookup item_sum].
  - apply gsum_zero. intros. ring.
  - inversion Hn as [|? ? Hni Hn']; subst. rewrite <- IH by auto.
    rewrite (gsum_ext_R M _ (fun j => (if Nat.eqb j (Z.to_nat (Z.of_nat k + o)) then item_term M k s d (o, v) else 0)
      + match lookup RFld l (Z.of_nat j - Z.of_nat k)%Z with
        | None => 0 | Some v => dget RFld v (Nat.min k j) * s end * d j)).
    + rewrite gsum_add. f_equal.
      destruct ((0 <=? Z.of_nat k + o)%Z && (Z.of_nat k + o <? Z.of_nat M)%Z) eqn:E.
      * apply andb_prop in E. destruct E as [E1 E2]. apply Z.leb_le in E1. apply Z.ltb_lt in E2. rewrite gsum_one by lia.
        reflexivity.
      * assert (item_term M k s d (o, v) = 0) as -> by (unfold item_term; cbn [fst snd]; rewrite E; reflexivity).
        apply gsum_zero. intros i Hi. destruct (Nat.eqb _ _); reflexivity.
    + intros j Hj. destruct (Z.eq_dec o (Z.of_nat j - Z.of_nat k)) as [->|Hne].
      * rewrite lookup_none by auto. replace (Z.of_nat k + (Z.of_nat j - Z.of_nat k))%Z with (Z.of_nat j) by lia.
        rewrite Nat2Z.id, Nat.eqb_refl. unfold item_term. cbn [fst snd].
        replace (Z.of_nat k + (Z.of_nat j - Z.of_nat k))%Z with (Z.of_nat j) by lia.
        destruct (Z.leb_spec 0 (Z.of_nat j)); [|lia]. destruct (Z.ltb_spec (Z.of_nat j) (Z.of_nat M)); [|lia].
        rewrite Nat2Z.id. cbn [andb]. ring.
      * unfold item_term. cbn [fst snd]. destruct (Nat.eqb_spec j (Z.to_nat (Z.of_nat k + o))) as [E|E]; [|ring].
        destruct (Z.leb_spec 0 (Z.of_nat k + o)); cbn [andb]; [lia|]. ring.
Qed.
Lemma basis_items P A k m x : NoDup (map fst (sm_items RFld A)) ->
  deriv_at m (basis_function P A k) x =
  item_sum (sm_items RFld A) (sm_cols RFld A) k (sm_scale RFld A) (fun j => deriv_at m (P j) x).
Proof.
  intros Hn. unfold basis_function. rewrite deriv_at_pcomb. rewrite <- row_items by auto. reflexivity.
Qed.

Ltac nodupZ := cbn; repeat constructor; cbn; lia.
(** decide the boundary tests of one term *)
Ltac tests := repeat match goal with
  | |- context [(?a <=? ?b)%nat] => destruct (Nat.leb_spec a b); [try (exfalso; lia)|try (exfalso; lia)]
  | |- context [(?a <? ?b)%nat] => destruct (Nat.ltb_spec a b); [try (exfalso; lia)|try (exfalso; lia)]
  | |- context [(?a =? ?b)%nat] => destruct (Nat.eqb_spec a b); [try (exfalso; lia)|try (exfalso; lia)]
  end.
Lemma term_in M k s d o v : (0 <= Z.of_nat k + o < Z.of_nat M)%Z ->
  item_term M k s d (o, v) = dget RFld v (Nat.min k (Z.to_nat (Z.of_nat k + o))) * s * d (Z.to_nat (Z.of_nat k + o)).
Proof.
  intros H. unfold item_term. cbn [fst snd]. destruct (Z.leb_spec 0 (Z.of_nat k + o)); [|lia].
  destruct (Z.ltb_spec (Z.of_nat k + o) (Z.of_nat M)); [|lia]. reflexivity.
Qed.
Lemma term_out M k s d o v : (Z.of_nat k + o < 0)%Z -> item_term M k s d (o, v) = 0.
Proof. intros H. unfold item_term. cbn [fst snd]. destruct (Z.leb_spec 0 (Z.of_nat k + o)); [lia|]. reflexivity. Qed.

(** row k of a matrix with diagonals -2, 0, 2 *)
Lemma tri_row_low N vm v0 v2 k d : (k < 2)%nat -> (k + 2 < N)%nat ->
  item_sum [(-2, vm); (0, v0); (2, v2)]%Z N k 1 d = dget RFld v0 k * d k + dget RFld v2 k * d (S (S k)).
Proof.
  intros H1 H2. cbn [item_sum]. rewrite term_out, !term_in by lia.
  replace (Z.to_nat (Z.of_nat k + 0)) with k by lia. replace (Z.to_nat (Z.of_nat k + 2)) with (S (S k)) by lia.
  rewrite Nat.min_id, Nat.min_l by lia. simpl. ring.
Qed.
Lemma tri_row N vm v0 v2 k d : (k + 4 < N)%nat ->
  item_sum [(-2, vm); (0, v0); (2, v2)]%Z N (S (S k)) 1 d =
  dget RFld vm k * d k + dget RFld v0 (S (S k)) * d (S (S k)) + dget RFld v2 (S (S k)) * d (S (S (S (S k)))).
Proof.
  intros H2. cbn [item_sum]. rewrite !term_in by lia.
  replace (Z.to_nat (Z.of_nat (S (S k)) + -2)) with k by lia.
  replace (Z.to_nat (Z.of_nat (S (S k)) + 0)) with (S (S k)) by lia.
  replace (Z.to_nat (Z.of_nat (S (S k)) + 2)) with (S (S (S (S k)))) by lia.
  rewrite Nat.min_id, Nat.min_r, Nat.min_l by lia. simpl. ring.
Qed.
Lemma quad_row_low N vm v0 v2 v4 k d : (k < 2)%nat -> (k + 4 < N)%nat ->
  item_sum [(-2, vm); (0, v0); (2, v2); (4, v4)]%Z N k 1 d =
  dget RFld v0 k * d k + dget RFld v2 k * d (S (S k)) + dget RFld v4 k * d (S (S (S (S k)))).
Proof.
  intros H1 H2. cbn [item_sum]. rewrite term_out, !term_in by lia.
  replace (Z.to_nat (Z.of_nat k + 0)) with k by lia. replace (Z.to_nat (Z.of_nat k + 2)) with (S (S k)) by lia.
  replace (Z.to_nat (Z.of_nat k + 4)) with (S (S (S (S k)))) by lia.
  rewrite Nat.min_id, !Nat.min_l by lia. simpl. ring.
Qed.
Lemma quad_row N vm v0 v2 v4 k d : (k + 6 < N)%nat ->
  item_sum [(-2, vm); (0, v0); (2, v2); (4, v4)]%Z N (S (S k)) 1 d =
  dget RFld vm k * d k + dget RFld v0 (S (S k)) * d (S (S k)) + dget RFld v2 (S (S k)) * d (S (S (S (S k))))
  + dget RFld v4 (S (S k)) * d (S (S (S (S (S (S k)))))).
Proof.
  intros H2. cbn [item_sum]. rewrite !term_in by lia.
  replace (Z.to_nat (Z.of_nat (S (S k)) + -2)) with k by lia.
  replace (Z.to_nat (Z.of_nat (S (S k)) + 0)) with (S (S k)) by lia.
  replace (Z.to_nat (Z.of_nat (S (S k)) + 2)) with (S (S (S (S k)))) by lia.
  replace (Z.to_nat (Z.of_nat (S (S k)) + 4)) with (S (S (S (S (S (S k)))))) by lia.
  rewrite Nat.min_id, Nat.min_r, !Nat.min_l by lia. simpl. ring.
Qed.

Ltac tri D R L N k c vv :=
  unfold satisfies; rewrite basis_items by nodupZ; unfold D; cbn [sm_items sm_cols sm_scale];
  destruct k as [|[|k]]; [rewrite tri_row_low by lia | rewrite tri_row_low by lia | rewrite tri_row by lia];
  unfold arr; cbn [dget]; cbv beta zeta; unfold k1; tests;
  destruct c as [[] [|[|j]]]; cbn [bc_order bc_side end_point];
  try (exfalso; simpl in *; intuition congruence);
  rewrite ?R, ?L by lia; unfold vv; rewrite ?plus_INR, ?S_INR; rewrite <- ?tech_pow_Rmult; cbn [INR pow].

Definition dirichlet2 := [mkBc Left 0; mkBc Right 0].
Definition neumann2 := [mkBc Left 1; mkBc Right 1].
Definition biharmonic4 := [mkBc Left 0; mkBc Left 1; mkBc Right 0; mkBc Right 1].
Ltac fin k := let x := fresh "x" in let H := fresh "Hx" in pose proof (pos_INR k) as H; set (x := INR k) in *; clearbody x;
  let z := fresh "z" in try set (z := (-1) ^ k); try clearbody z; field; neq0.

Lemma heinrichs_ok s N k c : (4 <= N)%nat -> (k < N - 2)%nat -> In c dirichlet2 ->
  satisfies (basis_function chebT (heinrichs_matrix s N) k) c.
Proof.
  intros HN Hk Hc. tri heinrichs_matrix chebT_right chebT_left N k c vT; destruct s; try lra.
  all: try fin k.
Qed.
Lemma combined_ok N k c : (4 <= N)%nat -> (k < N - 2)%nat -> In c neumann2 ->
  satisfies (basis_function chebT (combined_shen_neumann_matrix N) k) c.
Proof.
  intros HN Hk Hc. tri combined_shen_neumann_matrix chebT_right chebT_left N k c vT; subst; cbn [INR pow] in *; try lra.
  all: assert (0 < INR k) by (apply lt_0_INR; lia); fin k.
Qed.
Lemma mik_ok N k c : (4 <= N)%nat -> (k < N - 2)%nat -> In c neumann2 ->
  satisfies (basis_function chebT (mik_neumann_matrix N) k) c.
Proof.
  intros HN Hk Hc. tri mik_neumann_matrix chebT_right chebT_left N k c vT; subst; cbn [INR pow] in *; try lra.
  all: assert (0 < INR k) by (apply lt_0_INR; lia).
  all: try fin k.
Qed.

Ltac quad D R L N k c vv :=
  unfold satisfies; rewrite basis_items by nodupZ; unfold D; cbn [sm_items sm_cols sm_scale];
  destruct k as [|[|k]]; [rewrite quad_row_low by lia | rewrite quad_row_low by lia | rewrite quad_row by lia];
  unfold arr; cbn [dget]; cbv beta zeta; tests;
  destruct c as [[] [|[|j]]]; cbn [bc_order bc_side end_point];
  try (exfalso; simpl in *; intuition congruence);
  rewrite ?R, ?L by lia; unfold vv; rewrite ?plus_INR, ?S_INR; rewrite <- ?tech_pow_Rmult; cbn [INR pow].
Lemma cheb_bipolar_ok N k c : (7 <= N)%nat -> (1 <= k < N - 4)%nat -> In c biharmonic4 ->
  satisfies (basis_function chebT (cheb_bipolar_matrix N) k) c.
Proof.
  intros HN Hk Hc. quad cheb_bipolar_matrix chebT_right chebT_left N k c vT; try (exfalso; lia); try lra.
  all: fin k.
Qed.
Lemma cheb_bipolar_row0 N : (7 <= N)%nat ->
  deriv_at 0 (basis_function chebT (cheb_bipolar_matrix N) 0) 1 = 1 / 4 /\
  deriv_at 1 (basis_function chebT (cheb_bipolar_matrix N) 0) 1 = 1 / 2.
Proof.
  intros HN. rewrite !basis_items by nodupZ. unfold cheb_bipolar_matrix. cbn [sm_items sm_cols sm_scale].
  rewrite !quad_row_low by lia. unfold arr. cbn [dget]. cbv beta zeta. tests.
  rewrite !chebT_right by lia. unfold vT. cbn [INR]. split; lra.
Qed.
Lemma leg_bipolar_ok N k c : (7 <= N)%nat -> (k < N - 4)%nat -> In c biharmonic4 ->
  satisfies (basis_function legL (leg_bipolar_matrix N) k) c.
Proof.
  intros HN Hk Hc. quad leg_bipolar_matrix legL_right legL_left N k c vL; try (exfalso; lia); try lra.
  all: fin k.
Qed.

(** a diagonal stored with the wrong number of entries *)
Lemma bad_diag_matvec N A items v : (4 <= N)%nat ->
  A = mkSmat RFld N N 1 (((-2)%Z, arr N items) :: v) ->
  forall u, matvec RFld A N N u = None.
Proof.
  intros HN -> u. unfold matvec. cbn [sm_rows sm_cols sm_items fold_left].
  assert (matvec_step RFld N N N N u (Some (fun _ => @f0 RFld)) ((-2)%Z, arr N items) = None) as E.
  { unfold matvec_step, add_slice, arr. cbn [Z.ltb Z.compare Z.opp].
    assert (pyidx N 2 = 2%nat) as E1 by (unfold pyidx; destruct (Z.ltb_spec 2 0); lia).
    assert (pyidx N 0 = 0%nat) as E0 by (unfold pyidx; destruct (Z.ltb_spec 0 0); lia).
    assert (pyidx N (Z.min (Z.of_nat N) (Z.of_nat N + -2)) = N - 2)%nat as E2
      by (unfold pyidx; destruct (Z.ltb_spec (Z.min (Z.of_nat N) (Z.of_nat N + -2)) 0); lia).
    rewrite E0, E2. destruct (Nat.eqb_spec N (N - 2 - 0)); [lia|]. destruct (Nat.eqb_spec N 1); [lia|].
    destruct (Nat.eqb_spec (N - 2 - 0) 1); [lia|]. reflexivity. }
  rewrite E. induction v as [|x v IH]; [reflexivity|]. exact IH.
Qed.
