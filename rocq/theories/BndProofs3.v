(** BndProofs3.v -- boundary values in tensor product spaces, distribution, and updates. *)
From Coq Require Import Reals ZArith List Bool Arith Lia Lra.
From Verif Require Import Base Fld SparseModel SparseSpec RPoly StencilSpec PencilModel PencilProofs BndModel BndSpec BndProofs BndProofs2.
Import ListNotations.
Local Open Scope R_scope.

Section TensorBcs.
Context {OP SP OQ SQ : Type} (T : tensor OP SP OQ SQ).
Hypothesis HB : linear_op (t_before T).
Hypothesis HA : linear_op (t_after T).
Hypothesis C0 : t_c T <> 0.
Lemma bcs_right vals j s t : (forall p, t_gP T p = 1) -> (forall q, t_gQ T q = 1) -> (t_first T = true -> t_last T <> LBefore) ->
  (t_c T = 1 \/ (t_first T = true /\ t_last T = LThis) \/ (t_first T = false /\ t_last T <> LThis)) ->
  x_after T (fun q => tensor_bcs T vals j s q) t = others T (vals j) s t.
Proof.
  intros HP HQ HL HC. rewrite (x_after_eq T C0). unfold others.
  assert (E : forall q, t_gQ T q * t_before T (fun p => t_gP T p * vals j p q) s = t_before T (fun p => vals j p q) s).
  { intros q. rewrite HQ, Rmult_1_l. apply (lop_ext _ HB). intros p. rewrite HP. ring. }
  rewrite (lop_ext _ HA _ _ t E).
  set (k := if t_first T then 1 else t_c T / match t_last T with LBefore => t_c T | _ => 1 end).
  assert (X : forall q, tensor_bcs T vals j s q = k * t_before T (fun p => vals j p q) s).
  { intros q. unfold tensor_bcs, k. destruct (t_first T); [ring|]. rewrite (x_before_eq T C0), (proj1 (proj2 HB)). destruct (t_last T); field; assumption. }
  rewrite (lop_ext _ HA (fun q => tensor_bcs T vals j s q) _ t X), (proj1 (proj2 HA)). unfold k. clear k X E.
  destruct HC as [E|[(E1 & E2)|(E1 & E2)]].
  - rewrite E. destruct (t_first T), (t_last T); field.
  - rewrite E1, E2. field.
  - rewrite E1. destruct (t_last T); [field; assumption|congruence|field; assumption].
Qed.
Lemma bcs_zero vals : (forall j p q, vals j p q = 0) -> forall j s q, tensor_bcs T vals j s q = 0.
Proof.
  intros H j s q. unfold tensor_bcs. destruct (t_first T); [|rewrite (x_before_eq T C0)];
    rewrite (lop_ext _ HB _ (fun p => 0 * 0) s) by (intros p; rewrite H; ring); rewrite (proj1 (proj2 HB)); [ring|]. unfold Rdiv. rewrite Rmult_0_l, Rmult_0_l. reflexivity.
Qed.
End TensorBcs.

(** rows *)
Lemma last_block Np size r : (0 < size <= Np)%nat -> (r < size)%nat -> (bstart Np size r + blen Np size r = Np)%nat -> r = (size - 1)%nat.
Proof.
  intros Hs Hr H. destruct (Nat.eq_dec r (size - 1)) as [|Hne]; [assumption|exfalso].
  assert (Hl : (1 <= Np / size)%nat) by (apply Nat.div_le_lower_bound; lia).
  rewrite <- bstart_S in H. pose proof (block_bound Np size (S r) ltac:(lia)) as B.
  assert (1 <= blen Np size (S r))%nat by (unfold blen, blockdist; cbn [fst]; lia). lia.
Qed.
Lemma last_len Np size : (0 < size)%nat -> blen Np size (size - 1) = (Np / size)%nat.
Proof.
  intros Hs. unfold blen, blockdist. cbn [fst]. pose proof (Nat.mod_upper_bound Np size ltac:(lia)).
  destruct (Nat.ltb_spec (size - 1) (Np mod size)); lia.
Qed.
Lemma last_stop Np size : (0 < size)%nat -> (bstart Np size (size - 1) + blen Np size (size - 1) = Np)%nat.
Proof. intros Hs. rewrite <- bstart_S. replace (S (size - 1)) with size by lia. apply bstart_all, Hs. Qed.
Lemma len_ge Np size r nb : (nb <= Np / size)%nat -> (nb <= blen Np size r)%nat.
Proof. intros H. unfold blen, blockdist. cbn [fst]. lia. Qed.
Lemma place_ok V (zero : V) Np size nb mesh vals : (0 < size <= Np)%nat -> (nb <= Np / size)%nat ->
  forall r, (r < size)%nat -> exists a, place_rows zero Np size r nb mesh vals = Some a /\
    forall k, (k < blen Np size r)%nat -> a k = if (Np - nb <=? bstart Np size r + k)%nat then vals (bstart Np size r + k - (Np - nb))%nat else zero.
Proof.
  intros Hs Hn r Hr. pose proof (len_ge Np size r nb Hn) as HL. pose proof (block_bound Np size r Hr) as HB. unfold place_rows. cbv zeta.
  destruct (Nat.ltb_spec (blen Np size r) nb); [lia|]. rewrite andb_false_r.
  destruct (Nat.eqb_spec (bstart Np size r + blen Np size r) Np) as [E|E].
  - eexists. split; [reflexivity|]. intros k Hk. cbv beta. destruct (Nat.leb_spec (blen Np size r - nb) k); destruct (Nat.leb_spec (Np - nb) (bstart Np size r + k)); try lia.
    + destruct (Nat.ltb_spec k (blen Np size r)); [|lia]. cbn [andb]. f_equal. lia.
    + reflexivity.
  - eexists. split; [reflexivity|]. intros k Hk. cbv beta. destruct (Nat.leb_spec (Np - nb) (bstart Np size r + k)) as [H1|]; [|reflexivity]. exfalso.
    assert (r < size - 1)%nat by (destruct (Nat.eq_dec r (size - 1)) as [->|]; [exfalso; apply E, last_stop; lia|lia]).
    pose proof (bstart_mono Np size (S r) (size - 1) ltac:(lia)) as M. rewrite bstart_S in M.
    pose proof (last_stop Np size ltac:(lia)). pose proof (last_len Np size ltac:(lia)). lia.
Qed.
Lemma place_fails V (zero : V) Np size nb mesh vals : (0 < size)%nat -> (Np / size < nb)%nat ->
  place_rows zero Np size (size - 1) nb mesh vals = None.
Proof.
  intros Hs Hn. unfold place_rows. cbv zeta. rewrite last_stop by exact Hs. rewrite last_len by exact Hs. rewrite Nat.eqb_refl.
  destruct (Nat.ltb_spec (Np / size) nb); [|lia]. destruct mesh; reflexivity.
Qed.

(** updates *)
Lemma no_time l : existsb is_time l = false -> forall t, map (fun v => match v with BConst v => inl v | BTime f => inl (f t) end) l = map raw l.
Proof.
  induction l as [|v l IH]; intros H t; [reflexivity|]. cbn in H. apply orb_false_iff in H. destruct H as [H1 H2]. cbn [map]. rewrite IH by exact H2.
  destruct v; [reflexivity|discriminate].
Qed.
Lemma run_const l h : existsb is_time l = false -> s_bcs (run l h) = map raw l.
Proof.
  intros H. unfold run. assert (G : forall h s, s_bcs s = map raw l -> s_bcs (fold_left (fun s c => update l (fst c) (snd c) s) h s) = map raw l).
  { clear h. induction h as [|[tm ud] h IH]; intros s Hs; [exact Hs|]. cbn [fold_left fst snd]. apply IH. unfold update. destruct tm; rewrite ?H.
    - rewrite orb_false_r. destruct ud; cbn [s_bcs]; [apply no_time, H|exact Hs].
    - destruct ud; [reflexivity|exact Hs]. }
  apply G. reflexivity.
Qed.
Lemma raw_vals l t : map (fun v => match v with BConst v => inl v | BTime f => inl (f t) end) l = map (fun v => inl (value_at t v) : R + (R -> R)) l.
Proof. apply map_ext. intros [v|f]; reflexivity. Qed.
Lemma run_last l h t ud rest : Forall (fun c => c = (None, false)) rest ->
  s_bcs (run l (h ++ (Some t, ud) :: rest)) = map (fun v => inl (value_at t v)) l.
Proof.
  intros HR. destruct (existsb is_time l) eqn:E.
  - unfold run. rewrite fold_left_app. cbn [fold_left fst snd]. set (s := fold_left _ h _). clearbody s.
    assert (G : forall s', fold_left (fun s c => update l (fst c) (snd c) s) rest s' = s').
    { clear - HR. induction HR as [|c rest -> HR IH]; intros s'; [reflexivity|]. cbn [fold_left fst snd]. unfold update. apply IH. }
    rewrite G. unfold update. rewrite E, orb_true_r. cbn [s_bcs]. apply raw_vals.
  - rewrite run_const by exact E. rewrite <- (no_time l E t). apply raw_vals.
Qed.
Lemma run_tensor l h t ud rest : Forall (fun c => fst c = None) rest -> tensor_values l (run l (h ++ (Some t, ud) :: rest)) = map (value_at t) l.
Proof.
  intros HR. destruct (existsb is_time l) eqn:E.
  - unfold run. rewrite fold_left_app. cbn [fold_left fst snd]. set (s := fold_left _ h _). clearbody s.
    assert (G : forall s', s_time (fold_left (fun s c => update l (fst c) (snd c) s) rest s') = s_time s').
    { clear - HR. induction HR as [|[tm u] rest Hc HR IH]; intros s'; [reflexivity|]. cbn [fold_left fst snd] in *. subst tm. rewrite IH. unfold update. destruct u; reflexivity. }
    unfold tensor_values. rewrite G. unfold update. rewrite E. destruct (ud || true); cbn [s_time]; apply map_ext; intros [v|f]; reflexivity.
  - unfold tensor_values. clear - E. induction l as [|v l IH] in E |- *; [reflexivity|]. cbn in E. apply orb_false_iff in E. destruct E as [E1 E2].
    set (tm := s_time (run (v :: l) (h ++ (Some t, ud) :: rest))) in *. clearbody tm. cbn [map].
    assert (M : forall l, existsb is_time l = false -> map (fun v => match v with BConst v => v | BTime f => f tm end) l = map (value_at t) l).
    { clear. induction l as [|v l IH]; intros H; [reflexivity|]. cbn in H. apply orb_false_iff in H. destruct H. cbn [map]. rewrite IH by assumption. destruct v; [reflexivity|discriminate]. }
    rewrite M by exact E2. destruct v; [reflexivity|discriminate].
Qed.
