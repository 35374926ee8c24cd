(** LegMatrixProofs5.v -- dense matrices, weight 1 + x without derivatives, scaled bases. *)
From Coq Require Import Reals Lra Lia List Arith ZArith.
From Verif Require Import Base Fld SparseModel SparseSpec RPoly StencilModel StencilModel2 StencilSpec StencilProofs StencilProofs3
  MatrixSpec MatrixProofs MatrixProofs2 LegMatrixModel LegMatrixSpec LegMatrixProofs LegMatrixProofs2 LegMatrixProofs3 LegMatrixProofs4.
Import ListNotations.
Local Open Scope R_scope.

Lemma in_arange2 s N j : In j (arange2 s N) <-> (s <= j < N)%nat /\ exists i, j = (s + 2 * i)%nat.
Proof.
  unfold arange2. rewrite in_map_iff. split.
  - intros (i & <- & Hi). apply in_seq in Hi.
    pose proof (Nat.div_mod (N + 1 - s) 2 ltac:(lia)). split; [lia|]. exists i. reflexivity.
  - intros (H & i & ->). exists i. split; [reflexivity|]. apply in_seq.
    pose proof (Nat.div_mod (N + 1 - s) 2 ltac:(lia)). pose proof (Nat.mod_upper_bound (N + 1 - s) 2 ltac:(lia)). lia.
Qed.
Lemma lookup_map_in {A} (f : A -> Z) (g : A -> dval RFld) l a : (forall x y, f x = f y -> x = y) -> In a l ->
  lookup RFld (map (fun x => (f x, g x)) l) (f a) = Some (g a).
Proof.
  intros Hf. induction l as [|b l IH]; intros Ha; [destruct Ha|]. cbn [map lookup].
  destruct (Z.eq_dec (f b) (f a)) as [E|E]; [apply Hf in E; subst; reflexivity|].
  destruct Ha as [->|Ha]; [congruence|apply IH, Ha].
Qed.
Lemma lookup_map_out {A} (f : A -> Z) (g : A -> dval RFld) l o : (forall x, In x l -> f x <> o) ->
  lookup RFld (map (fun x => (f x, g x)) l) o = None.
Proof.
  induction l as [|b l IH]; intros H; [reflexivity|]. cbn [map lookup].
  destruct (Z.eq_dec (f b) o) as [E|E]; [exfalso; apply (H b); [left; reflexivity|exact E]|]. apply IH. intros x Hx. apply H. right; exact Hx.
Qed.
Lemma m1_even n : (-1) ^ (2 * n) = 1. Proof. apply pow_1_even. Qed.
Lemma m1_odd n : (-1) ^ (S (2 * n)) = -1. Proof. apply pow_1_odd. Qed.

(** entry of a matrix with the diagonals s, s + 2, .. *)
Lemma dense_entry rows cols s N g k j : (k < N)%nat -> (j < N)%nat ->
  mat_entry RFld (dmat rows cols (map (fun o => (Z.of_nat o, g o)) (arange2 s N))) k j =
  if (Nat.leb (k + s) j && Nat.even (j - k - s))%bool then dget RFld (g (j - k)%nat) k else 0.
Proof.
  intros Hk Hj. unfold mat_entry, dmat. cbn [sm_items sm_scale].
  destruct (Nat.leb_spec (k + s) j); cbn [andb].
  - destruct (Nat.even (j - k - s)) eqn:E.
    + replace (Z.of_nat j - Z.of_nat k)%Z with (Z.of_nat (j - k)) by lia.
      rewrite (lookup_map_in Z.of_nat g); [|intros; lia|].
      * rewrite Nat.min_l by lia. cbn. ring.
      * apply in_arange2. split; [lia|]. apply Nat.even_spec in E. destruct E as [i E]. exists i. lia.
    + rewrite (lookup_map_out Z.of_nat g); [reflexivity|]. intros x Hx Ex. apply in_arange2 in Hx. destruct Hx as (Hx & i & ->).
      assert (Nat.even (j - k - s) = true); [|congruence]. apply Nat.even_spec. exists i. lia.
  - rewrite (lookup_map_out Z.of_nat g); [reflexivity|]. intros x Hx Ex. apply in_arange2 in Hx. lia.
Qed.
Lemma dense_entry_T rows cols s N g k j : (k < N)%nat -> (j < N)%nat ->
  mat_entry RFld (dmat rows cols (map (fun o => ((- Z.of_nat o)%Z, g o)) (arange2 s N))) k j =
  if (Nat.leb (j + s) k && Nat.even (k - j - s))%bool then dget RFld (g (k - j)%nat) j else 0.
Proof.
  intros Hk Hj. unfold mat_entry, dmat. cbn [sm_items sm_scale].
  destruct (Nat.leb_spec (j + s) k); cbn [andb].
  - destruct (Nat.even (k - j - s)) eqn:E.
    + replace (Z.of_nat j - Z.of_nat k)%Z with (- Z.of_nat (k - j))%Z by lia.
      rewrite (lookup_map_in (fun o => (- Z.of_nat o)%Z) g); [|intros; lia|].
      * rewrite Nat.min_r by lia. cbn. ring.
      * apply in_arange2. split; [lia|]. apply Nat.even_spec in E. destruct E as [i E]. exists i. lia.
    + rewrite (lookup_map_out (fun o => (- Z.of_nat o)%Z) g); [reflexivity|]. intros x Hx Ex. apply in_arange2 in Hx. destruct Hx as (Hx & i & ->).
      assert (Nat.even (k - j - s) = true); [|congruence]. apply Nat.even_spec. exists i. lia.
  - rewrite (lookup_map_out (fun o => (- Z.of_nat o)%Z) g); [reflexivity|]. intros x Hx Ex. apply in_arange2 in Hx. lia.
Qed.

Lemma CLL_vals sc N : vals sc N SpL 0 SpL 1 W1 (CLLmat N).
Proof.
  apply vals_stencil with (D := T01).
  - intros n m. cbn [wpoly dn]. rewrite ip_w0. apply t01.
  - intros k j Hk Hj. change (space_dim sc SpL N) with (N - 0)%nat in Hk, Hj. unfold CLLmat.
    rewrite (dense_entry N N 1 N (fun _ => Scal RFld 2)) by lia.
    cbn [space_stencil unit_stencil stencil_sum sval Nat.add]. unfold T01. change (@eq (car RFld)) with (@eq R).
    destruct (Nat.leb_spec (k + 1) j); cbn [andb]; destruct (Nat.leb_spec j k); try lia; [|ring].
    destruct (Nat.even (j - k - 1)) eqn:E.
    + apply Nat.even_spec in E. destruct E as [i E]. replace (k + j)%nat with (S (2 * (k + i))) by lia. rewrite m1_odd. cbn. ring.
    + assert (O : Nat.odd (j - k - 1) = true) by (unfold Nat.odd; rewrite E; reflexivity). apply Nat.odd_spec in O. destruct O as [i O].
      replace (k + j)%nat with (2 * (k + i + 1))%nat by lia. rewrite m1_even. ring.
Qed.
Lemma CLLT_vals sc N : vals sc N SpL 1 SpL 0 W1 (CLLmatT N).
Proof.
  intros k j Hk Hj. rewrite entry_val_swap, <- (CLL_vals sc N j k Hj Hk). change (space_dim sc SpL N) with (N - 0)%nat in Hk, Hj. unfold CLLmat, CLLmatT.
  rewrite (dense_entry N N 1 N (fun _ => Scal RFld 2)) by lia. rewrite (dense_entry_T N N 1 N (fun _ => Scal RFld 2)) by lia. reflexivity.
Qed.
Lemma ALL_vals sc N : vals sc N SpL 0 SpL 2 W1 (ALLmat N true).
Proof.
  apply vals_stencil with (D := T02).
  - intros n m. cbn [wpoly]. rewrite ip_w0. apply t02.
  - intros k j Hk Hj. change (space_dim sc SpL N) with (N - 0)%nat in Hk, Hj. unfold ALLmat. cbv zeta.
    rewrite (dense_entry N N 2 N) by lia. unfold arr. cbn [dget].
    cbn [space_stencil unit_stencil stencil_sum sval Nat.add]. unfold T02. change (@eq (car RFld)) with (@eq R).
    destruct (Nat.leb_spec (k + 2) j); cbn [andb].
    + replace (k + (j - k))%nat with j by lia. destruct (Nat.leb_spec j k); [lia|].
      destruct (Nat.even (j - k - 2)) eqn:E.
      * apply Nat.even_spec in E. destruct E as [i E]. replace (k + j)%nat with (2 * (k + i + 1))%nat by lia. rewrite m1_even.
        unfold v1. absx. field. lra.
      * assert (O : Nat.odd (j - k - 2) = true) by (unfold Nat.odd; rewrite E; reflexivity). apply Nat.odd_spec in O. destruct O as [i O].
        replace (k + j)%nat with (S (2 * (k + i + 1))) by lia. rewrite m1_odd. ring.
    + destruct (Nat.leb_spec j k); [ring|]. replace (k + j)%nat with (S (2 * k)) by lia. rewrite m1_odd. ring.
Qed.
Lemma ALLT_vals sc N : vals sc N SpL 2 SpL 0 W1 (ALLmat N false).
Proof.
  intros k j Hk Hj. rewrite entry_val_swap, <- (ALL_vals sc N j k Hj Hk). change (space_dim sc SpL N) with (N - 0)%nat in Hk, Hj. unfold ALLmat. cbv zeta.
  rewrite (dense_entry N N 2 N) by lia. rewrite (dense_entry_T N N 2 N) by lia. reflexivity.
Qed.

(** weight 1 + x *)
Definition T00w1 (n m : nat) : R :=
  if Nat.eqb n m then 2 / (2 * INR n + 1)
  else if Nat.eqb (S n) m then 2 * (INR n + 1) / ((2 * INR n + 1) * (2 * INR n + 3))
  else if Nat.eqb n (S m) then 2 * (INR m + 1) / ((2 * INR m + 1) * (2 * INR m + 3)) else 0.
Lemma tx n m : ip (pX (legL n)) (legL m) =
  if Nat.eqb (S n) m then 2 * (INR n + 1) / ((2 * INR n + 1) * (2 * INR n + 3))
  else if Nat.eqb n (S m) then 2 * (INR m + 1) / ((2 * INR m + 1) * (2 * INR m + 3)) else 0.
Proof.
  assert (G : forall n m, (n <= m)%nat -> ip (pX (legL n)) (legL m) =
    if Nat.eqb (S n) m then 2 * (INR n + 1) / ((2 * INR n + 1) * (2 * INR n + 3)) else 0).
  { clear. intros n m H. rewrite ip_pX, ip_comm, ip_pX. destruct m as [|m].
    - assert (n = 0)%nat as -> by lia. cbn [Nat.eqb]. unfold ip.
      rewrite (pint_deriv _ [0; 0; 1 / 2]); [simpl; lra|]. intros x. simpl. field.
    - pose proof (ip_leg_rec m (legL n)) as E. rewrite !t00 in E. unfold T00 in E. pose proof (pos_INR m).
      destruct (Nat.eqb_spec (S (S m)) n); [lia|]. destruct (Nat.eqb_spec m n) as [->|].
      + rewrite Nat.eqb_refl. apply Rmult_eq_reg_l with (2 * INR n + 3); [|lra]. rewrite E. field. lra.
      + destruct (Nat.eqb_spec (S n) (S m)); [lia|]. apply Rmult_eq_reg_l with (2 * INR m + 3); [|lra]. rewrite E. ring. }
  destruct (Nat.le_ge_cases n m) as [H|H].
  - rewrite G by exact H. destruct (Nat.eqb_spec (S n) m); [reflexivity|]. destruct (Nat.eqb_spec n (S m)); [lia|reflexivity].
  - rewrite ip_pX, ip_comm, G by exact H. rewrite (Nat.eqb_sym n (S m)).
    destruct (Nat.eqb_spec (S m) n); destruct (Nat.eqb_spec (S n) m); try lia; reflexivity.
Qed.
Lemma t00w1 n m : ip (pmul w1 (legL n)) (legL m) = T00w1 n m.
Proof.
  rewrite (ip_ext _ (padd (legL n) (pX (legL n))) _ (legL m)); [|intros x; rewrite peval_pmul, peval_padd, peval_pX, w1_val; ring|reflexivity].
  rewrite ip_padd_l, t00, tx. unfold T00, T00w1. destruct (Nat.eqb_spec n m) as [->|].
  - destruct (Nat.eqb_spec (S m) m); [lia|]. destruct (Nat.eqb_spec m (S m)); [lia|]. ring.
  - ring.
Qed.
Lemma BUDUDrp1_sum N k j : mat_entry RFld (BUDUDrp1mat N) k j = tsum T00w1 SpUD SpUD k j.
Proof. unfold BUDUDrp1mat, tsum, T00w1. split2 k j e; (peel e 3%nat; try (exfalso; lia)); tab. Qed.
Lemma BSDSDrp1_sum N k j : mat_entry RFld (BSDSDrp1mat N) k j = tsum T00w1 SpSD SpSD k j.
Proof. unfold BSDSDrp1mat, tsum, T00w1. split2 k j e; (peel e 4%nat; try (exfalso; lia)); tab. Qed.

(** scaled ShenDirichlet *)
Definition sq (k : nat) : R := sqrt (4 * INR k + 6).
Lemma sq_pos k : 0 < sq k. Proof. apply sqrt_lt_R0. pose proof (pos_INR k). lra. Qed.
Lemma sq_sq k : sq k * sq k = 4 * INR k + 6. Proof. apply sqrt_sqrt. pose proof (pos_INR k). lra. Qed.
Lemma scaled_sum k d : stencil_sum (space_stencil true SpSD) (INR k) d = 1 / sq k * stencil_sum (space_stencil false SpSD) (INR k) d.
Proof.
  cbn [space_stencil space_class sc_stencil legendre_ShenDirichlet legendre_ShenDirichlet_scaled stencil_sum sval].
  fold (sq k). pose proof (sq_pos k). field. lra.
Qed.
Definition scale_of (s : lspace) (k : nat) : R := match s with SpSD => 1 / sq k | _ => 1 end.
Lemma sc_sum s k d : stencil_sum (space_stencil true s) (INR k) d = scale_of s k * stencil_sum (space_stencil false s) (INR k) d.
Proof. destruct s; [|apply scaled_sum|..]; cbn [scale_of]; rewrite Rmult_1_l; reflexivity. Qed.
Lemma stencil_sum_scal st y c f : stencil_sum st y (fun o => c * f o) = c * stencil_sum st y f.
Proof. induction st as [|[o s] r IH]; cbn [stencil_sum]; [ring|]. rewrite IH. ring. Qed.
Lemma entry_val_scaled N s1 a s2 b w k j : (k < space_dim false s1 N)%nat -> (j < space_dim false s2 N)%nat ->
  entry_val true N s1 a s2 b w k j = scale_of s1 k * scale_of s2 j * entry_val false N s1 a s2 b w k j.
Proof.
  intros Hk Hj. unfold entry_val.
  assert (Hk' : (k < space_dim true s1 N)%nat) by (destruct s1; exact Hk).
  assert (Hj' : (j < space_dim true s2 N)%nat) by (destruct s2; exact Hj).
  rewrite (ip_stencils _ _ _ _ _ _ _ _ _ _ _ (space_expands true s1 N) (space_expands true s2 N) Hk' Hj').
  rewrite (ip_stencils _ _ _ _ _ _ _ _ _ _ _ (space_expands false s1 N) (space_expands false s2 N) Hk Hj).
  rewrite sc_sum. rewrite Rmult_assoc. apply Rmult_eq_compat_l.
  rewrite (stencil_sum_ext _ _ _ (fun o => scale_of s2 j * stencil_sum (space_stencil false s2) (INR j)
    (fun o' => ip (pmul (wpoly w) (dn a (legL (o + k)))) (dn b (legL (o' + j)))))) by (intros o; apply sc_sum).
  apply stencil_sum_scal.
Qed.
Lemma vals_scaled N s1 a s2 b w A A' : vals false N s1 a s2 b w A ->
  (forall k j, (k < space_dim false s1 N)%nat -> (j < space_dim false s2 N)%nat ->
     mat_entry RFld A' k j = scale_of s1 k * scale_of s2 j * mat_entry RFld A k j) -> vals true N s1 a s2 b w A'.
Proof.
  intros H E k j Hk Hj.
  assert (Hk' : (k < space_dim false s1 N)%nat) by (destruct s1; exact Hk).
  assert (Hj' : (j < space_dim false s2 N)%nat) by (destruct s2; exact Hj).
  rewrite entry_val_scaled, E, H by assumption. reflexivity.
Qed.
