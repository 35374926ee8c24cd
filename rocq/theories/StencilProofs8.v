(** StencilProofs8.v -- to_ortho, and linear independence of basis functions. *)
From Coq Require Import Reals Lra Lia ZArith String List Arith.
From Verif Require Import Base Fld SparseModel SparseSpec RPoly StencilModel StencilModel2 StencilSpec StencilProofs StencilProofs7.
Import ListNotations.
Local Open Scope R_scope.
Local Open Scope bool_scope.

Definition contrib (dim : nat) (u : nat -> R) (j : nat) (kv : Z * dval RFld) : R :=
  let k := (Z.of_nat j - fst kv)%Z in
  if (0 <=? k)%Z && (k <? Z.of_nat dim)%Z then dget RFld (snd kv) (Nat.min (Z.to_nat k) j) * u (Z.to_nat k) else 0.
Fixpoint contribs (l : list (Z * dval RFld)) (dim : nat) (u : nat -> R) (j : nat) : R :=
  match l with [] => 0 | kv :: r => contrib dim u j kv + contribs r dim u j end.

Lemma step_contrib N dim u out kv j : (dim <= N)%nat -> (j < N)%nat -> (- Z.of_nat dim <= fst kv)%Z ->
  to_ortho_step N dim u out kv j = out j + contrib dim u j kv.
Proof.
  destruct kv as [key val]. intros Hd Hj Hk. cbn [fst] in Hk. unfold to_ortho_step, contrib. cbn [fst snd].
  destruct (Z.leb_spec 0 key);
  repeat match goal with |- context [(?a <=? ?b)%Z] => destruct (Z.leb_spec a b) end;
  repeat match goal with |- context [(?a <? ?b)%Z] => destruct (Z.ltb_spec a b) end; cbn [andb]; try lia; try ring.
  - replace (Nat.min (Z.to_nat (Z.of_nat j - key)) j) with (j - Z.to_nat (Z.max 0 key))%nat by lia.
    do 3 f_equal. lia.
  - replace (Nat.min (Z.to_nat (Z.of_nat j - key)) j) with (j - Z.to_nat (Z.max 0 key))%nat by lia.
    do 3 f_equal. lia.
Qed.
Lemma to_ortho_contribs S dim u j : (dim <= sm_cols RFld S)%nat -> (j < sm_cols RFld S)%nat ->
  Forall (fun kv => (- Z.of_nat dim <= fst kv)%Z) (sm_items RFld S) ->
  to_ortho S dim u j = contribs (sm_items RFld S) dim u j.
Proof.
  intros Hd Hj HF. unfold to_ortho.
  assert (forall l out, Forall (fun kv => (- Z.of_nat dim <= fst kv)%Z) l ->
     fold_left (to_ortho_step (sm_cols RFld S) dim u) l out j = out j + contribs l dim u j) as H.
  { induction l as [|kv l IH]; intros out Hl; cbn [fold_left contribs]; [ring|].
    inversion Hl; subst. rewrite IH by auto. rewrite step_contrib by auto. ring. }
  rewrite H by auto. ring.
Qed.
Lemma col_items l dim u j : NoDup (map fst l) ->
  gsum 0 Rplus dim (fun k => u k * match lookup RFld l (Z.of_nat j - Z.of_nat k)%Z with
                           | None => 0 | Some v => dget RFld v (Nat.min k j) * 1 end) = contribs l dim u j.
Proof.
  induction l as [|[o v] l IH]; intros Hn; cbn [lookup contribs].
  - apply gsum_zero. intros. ring.
  - inversion Hn as [|? ? Hni Hn']; subst. rewrite <- IH by auto.
    rewrite (gsum_ext_R dim _ (fun k => (if Nat.eqb k (Z.to_nat (Z.of_nat j - o)) then contrib dim u j (o, v) else 0)
      + u k * match lookup RFld l (Z.of_nat j - Z.of_nat k)%Z with
        | None => 0 | Some v => dget RFld v (Nat.min k j) * 1 end)).
    + rewrite gsum_add. f_equal.
      destruct ((0 <=? Z.of_nat j - o)%Z && (Z.of_nat j - o <? Z.of_nat dim)%Z) eqn:E.
      * apply andb_prop in E. destruct E as [E1 E2]. apply Z.leb_le in E1. apply Z.ltb_lt in E2. rewrite gsum_one by lia.
        reflexivity.
      * assert (contrib dim u j (o, v) = 0) as -> by (unfold contrib; cbn [fst snd]; rewrite E; reflexivity).
        apply gsum_zero. intros i Hi. destruct (Nat.eqb _ _); reflexivity.
    + intros k Hk. destruct (Z.eq_dec o (Z.of_nat j - Z.of_nat k)) as [->|Hne].
      * rewrite lookup_none by auto. replace (Z.of_nat j - (Z.of_nat j - Z.of_nat k))%Z with (Z.of_nat k) by lia.
        rewrite Nat2Z.id, Nat.eqb_refl. unfold contrib. cbn [fst snd].
        replace (Z.of_nat j - (Z.of_nat j - Z.of_nat k))%Z with (Z.of_nat k) by lia.
        destruct (Z.leb_spec 0 (Z.of_nat k)); [|lia]. destruct (Z.ltb_spec (Z.of_nat k) (Z.of_nat dim)); [|lia].
        rewrite Nat2Z.id. cbn [andb]. ring.
      * unfold contrib. cbn [fst snd]. destruct (Nat.eqb_spec k (Z.to_nat (Z.of_nat j - o))) as [E|E]; [|ring].
        destruct (Z.leb_spec 0 (Z.of_nat j - o)); cbn [andb]; [lia|]. ring.
Qed.
Lemma to_ortho_entries S dim u j : sm_scale RFld S = 1 -> NoDup (map fst (sm_items RFld S)) ->
  (dim <= sm_cols RFld S)%nat -> (j < sm_cols RFld S)%nat ->
  Forall (fun kv => (- Z.of_nat dim <= fst kv)%Z) (sm_items RFld S) ->
  to_ortho S dim u j = gsum 0 Rplus dim (fun k => u k * mat_entry RFld S k j).
Proof.
  intros Hs Hn Hd Hj HF. rewrite to_ortho_contribs by auto. rewrite <- col_items by auto.
  apply gsum_ext_R. intros k _. unfold mat_entry. rewrite Hs. reflexivity.
Qed.

Lemma gsum_scal n c (f : nat -> R) : gsum 0 Rplus n (fun i => c * f i) = c * gsum 0 Rplus n f.
Proof. induction n; simpl; [ring|]. rewrite IHn. ring. Qed.
Lemma gsum_swap n m (f : nat -> nat -> R) :
  gsum 0 Rplus n (fun i => gsum 0 Rplus m (f i)) = gsum 0 Rplus m (fun j => gsum 0 Rplus n (fun i => f i j)).
Proof.
  induction n; simpl; [symmetry; apply gsum_zero; auto|]. rewrite IHn, <- gsum_add. reflexivity.
Qed.
(** the orthogonal coefficients describe the same function *)
Lemma to_ortho_function P S dim u x : sm_scale RFld S = 1 -> NoDup (map fst (sm_items RFld S)) ->
  (dim <= sm_cols RFld S)%nat -> Forall (fun kv => (- Z.of_nat dim <= fst kv)%Z) (sm_items RFld S) ->
  peval (pcomb (sm_cols RFld S) (to_ortho S dim u) P) x = peval (pcomb dim u (basis_function P S)) x.
Proof.
  intros Hs Hn Hd HF.
  change (deriv_at 0 (pcomb (sm_cols RFld S) (to_ortho S dim u) P) x = deriv_at 0 (pcomb dim u (basis_function P S)) x).
  rewrite !deriv_at_pcomb.
  rewrite (gsum_ext_R dim _ (fun i => gsum 0 Rplus (sm_cols RFld S) (fun j => u i * mat_entry RFld S i j * deriv_at 0 (P j) x))).
  - rewrite gsum_swap. apply gsum_ext_R. intros j Hj. rewrite to_ortho_entries by auto.
    rewrite Rmult_comm, <- gsum_scal. apply gsum_ext_R. intros i _. ring.
  - intros i Hi. unfold basis_function. rewrite deriv_at_pcomb, <- gsum_scal. apply gsum_ext_R. intros. ring.
Qed.

(** a stencil with offsets >= 0 and a non-zero main diagonal gives independent rows *)
Lemma independent cls N u :
  NoDup (map fst (sc_stencil cls)) ->
  (forall k, row_value N (length (sc_bcs cls)) (sc_stencil cls) k k <> 0) ->
  (forall j, (j < N)%nat -> gsum 0 Rplus (N - length (sc_bcs cls)) (fun k => u k * mat_entry RFld (stencil_matrix cls N) k j) = 0) ->
  forall k, (k < N - length (sc_bcs cls))%nat -> u k = 0.
Proof.
  intros Hn Hd H. set (D := (N - length (sc_bcs cls))%nat) in *.
  assert (forall m k, (k < m)%nat -> (k < D)%nat -> u k = 0) as IH; [|intros k Hk; apply (IH (S k)); lia].
  induction m as [|m IHm]; intros k Hk HkD; [lia|].
  destruct (Nat.eq_dec k m) as [->|]; [|apply IHm; lia].
  specialize (H m ltac:(lia)).
  rewrite (gsum_ext_R D _ (fun i => if Nat.eqb i m then u m * mat_entry RFld (stencil_matrix cls N) m m else 0)) in H.
  - rewrite gsum_one in H by lia. apply Rmult_integral in H. destruct H as [H|H]; [exact H|].
    rewrite entry_row in H by (fold D; lia). exfalso. exact (Hd m H).
  - intros i Hi. destruct (Nat.eqb_spec i m) as [->|Hne]; [reflexivity|].
    destruct (Nat.lt_ge_cases i m) as [Hlt|Hge]; [rewrite IHm by lia; ring|].
    rewrite entry_row by (fold D; lia).
    assert (row_value N (length (sc_bcs cls)) (sc_stencil cls) i m = 0) as ->; [|ring].
    clear - Hge Hne. induction (sc_stencil cls) as [|[o s] r IH]; [reflexivity|]. cbn [row_value].
    destruct (Nat.eqb_spec m (i + o)); [lia|exact IH].
Qed.
