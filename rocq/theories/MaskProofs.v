(** MaskProofs.v *)
From Coq Require Import Arith ZArith List Bool Lia.
From Verif Require Import Base Fld FourierModel FourierProofs MaskModel.
Import ListNotations.
Local Open Scope nat_scope.

(** a nest is a loop over the flat indices *)
Lemma for_up_shift {S} cnt start (f : nat -> S -> S) s :
  for_up cnt start f s = for_up cnt 0 (fun i => f (start + i)) s.
Proof.
  revert start s f. induction cnt as [|c IH]; intros start s f; simpl; auto.
  rewrite IH. rewrite (IH 1). rewrite Nat.add_0_r. apply for_up_ext. intros i s' _. f_equal. lia.
Qed.
Lemma for_up_app {S} a b start (f : nat -> S -> S) s :
  for_up (a + b) start f s = for_up b (start + a) f (for_up a start f s).
Proof.
  revert start s. induction a as [|a IH]; intros start s; simpl; [rewrite Nat.add_0_r; auto|].
  rewrite IH. f_equal. lia.
Qed.
Lemma nest_flat {S} shape : forall base (body : nat -> S -> S) s,
  nest shape base body s = for_up (prod shape) (base * prod shape) body s.
Proof.
  induction shape as [|n r IH]; intros base body s.
  - simpl. rewrite Nat.mul_1_r. reflexivity.
  - cbn [nest]. change (prod (n :: r)) with (n * prod r).
    set (p := prod r) in *.
    assert (G : forall m, for_up m 0 (fun i s => nest r (base * n + i) body s) s = for_up (m * p) (base * n * p) body s).
    { induction m as [|m IHm]; [reflexivity|]. rewrite for_up_snoc, IHm. cbn [Nat.add].
      replace (Datatypes.S m * p) with (m * p + p) by lia. rewrite for_up_app, IH. f_equal. fold p. nia. }
    rewrite G. f_equal. lia.
Qed.

Section P.
  Variable K : Fld.
  Notation vec := (nat -> K).
  Local Open Scope fld_scope.
  (** a loop that writes zeros into a set of places *)
  Lemma loop_zero cnt (body : nat -> vec -> vec) (hit : nat -> nat -> Prop) (dec : forall t q, {hit t q} + {~ hit t q}) u q :
    (forall t v, (t < cnt)%nat -> hit t q -> body t v q = 0) ->
    (forall t v, (t < cnt)%nat -> ~ hit t q -> body t v q = v q) ->
    ((exists t, (t < cnt)%nat /\ hit t q) -> for_up cnt 0 body u q = 0) /\
    ((forall t, (t < cnt)%nat -> ~ hit t q) -> for_up cnt 0 body u q = u q).
  Proof.
    intros H1 H2. induction cnt as [|c IH].
    - split; [intros [t [Ht _]]; lia | reflexivity].
    - rewrite for_up_snoc. cbn [Nat.add]. destruct IH as [I1 I2]; [intros; apply H1; auto | intros; apply H2; auto |]. split.
      + intros [t [Ht Hh]]. destruct (dec c q) as [Hc|Hc]; [apply H1; auto|].
        rewrite H2 by auto. apply I1. exists t. split; auto. destruct (Nat.eq_dec t c); [subst; tauto | lia].
      + intros H. rewrite H2 by auto. apply I2. auto.
  Qed.
  Lemma loop_upd cnt (pos : nat -> nat) (u : vec) q :
    ((exists i, (i < cnt)%nat /\ q = pos i) -> for_up cnt 0 (fun i u => upd u (pos i) 0) u q = 0) /\
    ((forall i, (i < cnt)%nat -> q <> pos i) -> for_up cnt 0 (fun i u => upd u (pos i) 0) u q = u q).
  Proof.
    apply (loop_zero cnt (fun i u => upd u (pos i) 0) (fun i q => q = pos i)).
    - intros t p. apply Nat.eq_dec.
    - intros t v _ ->. apply upd_same.
    - intros t v _ H. apply upd_other. auto.
  Qed.
  Lemma apply_mask_nd_ok mshape mask (u : vec) t : (t < prod mshape)%nat ->
    apply_mask_nd K mshape mask u t = if (mask t =? 0)%nat then 0 else u t.
  Proof.
    intros Ht. unfold apply_mask_nd. rewrite nest_flat. cbn [Nat.mul].
    destruct (loop_zero (prod mshape) (fun t u => if (mask t =? 0)%nat then upd u t 0 else u)
      (fun s q => q = s /\ mask s = 0%nat)) with (u := u) (q := t) as [G1 G2].
    - intros a b. destruct (Nat.eq_dec b a), (Nat.eq_dec (mask a) 0); [left; auto | right; tauto ..].
    - intros s v Hs [-> E]. rewrite E. apply upd_same.
    - intros s v Hs H. destruct (Nat.eqb_spec (mask s) 0); auto. apply upd_other. tauto.
    - destruct (Nat.eqb_spec (mask t) 0) as [E|E]; [apply G1; eauto | apply G2; intros s Hs [-> H]; auto].
  Qed.
  Lemma flat_inj S i t i' t' : (t < S)%nat -> (t' < S)%nat -> (i * S + t = i' * S + t')%nat -> i = i' /\ t = t'.
  Proof. intros H1 H2 E. assert (i = i') by nia. subst. split; auto. lia. Qed.
  Lemma apply_bmask_nd_ok I mshape mask (u : vec) i t : (i < I)%nat -> (t < prod mshape)%nat ->
    apply_bmask_nd K I mshape mask u (i * prod mshape + t)%nat = if (mask t =? 0)%nat then 0 else u (i * prod mshape + t)%nat.
  Proof.
    intros Hi Ht. unfold apply_bmask_nd. rewrite nest_flat. cbn [Nat.mul]. set (S := prod mshape) in *.
    destruct (loop_zero S (fun t u => if (mask t =? 0)%nat then for_up I 0 (fun i u => upd u (i * S + t)%nat 0) u else u)
      (fun s q => t = s /\ mask s = 0%nat)) with (u := u) (q := (i * S + t)%nat) as [G1 G2].
    - intros a b. destruct (Nat.eq_dec t a), (Nat.eq_dec (mask a) 0); [left; auto | right; tauto ..].
    - intros s v Hs [-> E]. rewrite E. cbn [Nat.eqb]. apply (loop_upd I (fun i => (i * S + s)%nat)). eauto.
    - intros s v Hs H. destruct (Nat.eqb_spec (mask s) 0); auto. apply (loop_upd I (fun i => (i * S + s)%nat)).
      intros j Hj E. apply flat_inj in E; auto. destruct E as [_ <-]. tauto.
    - destruct (Nat.eqb_spec (mask t) 0) as [E|E]; [apply G1; eauto | apply G2; intros s Hs [-> H]; auto].
  Qed.
  Lemma loop_upd2 I J (pos : nat -> nat -> nat) (u : vec) q :
    ((exists i j, (i < I)%nat /\ (j < J)%nat /\ q = pos i j) -> for_up I 0 (fun i u => for_up J 0 (fun j u => upd u (pos i j) 0) u) u q = 0) /\
    ((forall i j, (i < I)%nat -> (j < J)%nat -> q <> pos i j) -> for_up I 0 (fun i u => for_up J 0 (fun j u => upd u (pos i j) 0) u) u q = u q).
  Proof.
    assert (D : forall (P : nat -> Prop) (d : forall j, {P j} + {~ P j}) n, {exists j, (j < n)%nat /\ P j} + {~ exists j, (j < n)%nat /\ P j}).
    { intros P d n. induction n as [|n [IH|IH]].
      - right. intros [j [Hj _]]. lia.
      - left. destruct IH as [j [Hj Hp]]. exists j. split; auto.
      - destruct (d n); [left; exists n; split; auto|]. right. intros [j [Hj Hp]]. apply IH. exists j. split; auto.
        destruct (Nat.eq_dec j n); [subst; tauto | lia]. }
    destruct (loop_zero I (fun i u => for_up J 0 (fun j u => upd u (pos i j) 0) u) (fun i q => exists j, (j < J)%nat /\ q = pos i j)) with (u := u) (q := q) as [G1 G2].
    - intros i p. apply D. intros j. apply Nat.eq_dec.
    - intros i v Hi H. apply (loop_upd J (pos i)). exact H.
    - intros i v Hi H. apply (loop_upd J (pos i)). intros j Hj E. apply H. eauto.
    - split.
      + intros [i [j [Hi [Hj E]]]]. apply G1. eauto.
      + intros H. apply G2. intros i Hi [j [Hj E]]. exact (H i j Hi Hj E).
  Qed.
  Lemma apply_b2mask_nd_ok I J mshape mask (u : vec) i j t : (i < I)%nat -> (j < J)%nat -> (t < prod mshape)%nat ->
    let q := ((i * J + j) * prod mshape + t)%nat in
    apply_b2mask_nd K I J mshape mask u q = if (mask t =? 0)%nat then 0 else u q.
  Proof.
    intros Hi Hj Ht q. unfold apply_b2mask_nd. rewrite nest_flat. cbn [Nat.mul]. unfold q in *. set (S := prod mshape) in *.
    destruct (loop_zero S (fun t u => if (mask t =? 0)%nat then for_up I 0 (fun i u => for_up J 0 (fun j u => upd u ((i * J + j) * S + t)%nat 0) u) u else u)
      (fun s q => t = s /\ mask s = 0%nat)) with (u := u) (q := ((i * J + j) * S + t)%nat) as [G1 G2].
    - intros a b. destruct (Nat.eq_dec t a), (Nat.eq_dec (mask a) 0); [left; auto | right; tauto ..].
    - intros s v Hs [-> E]. rewrite E. cbn [Nat.eqb]. apply (loop_upd2 I J (fun i j => ((i * J + j) * S + s)%nat)). eauto 6.
    - intros s v Hs H. destruct (Nat.eqb_spec (mask s) 0); auto. apply (loop_upd2 I J (fun i j => ((i * J + j) * S + s)%nat)).
      intros i' j' Hi' Hj' E. apply flat_inj in E; auto. destruct E as [_ <-]. tauto.
    - destruct (Nat.eqb_spec (mask t) 0) as [E|E]; [apply G1; eauto | apply G2; intros s Hs [-> H]; auto].
  Qed.
  (** the 1D routine, whose loop over the wavenumbers has J steps *)
  Lemma apply_b2mask_1D_ok I J n mask (u : vec) i j t : (J <= n)%nat -> (i < I)%nat -> (j < J)%nat -> (t < n)%nat ->
    let q := ((i * J + j) * n + t)%nat in
    apply_b2mask_1D K I J n mask u q = if ((t <? J) && (mask t =? 0))%nat%bool then 0 else u q.
  Proof.
    intros HJ Hi Hj Ht q. unfold apply_b2mask_1D. unfold q in *.
    destruct (loop_zero J (fun t u => if (mask t =? 0)%nat then for_up I 0 (fun i u => for_up J 0 (fun j u => upd u ((i * J + j) * n + t)%nat 0) u) u else u)
      (fun s q => t = s /\ mask s = 0%nat)) with (u := u) (q := ((i * J + j) * n + t)%nat) as [G1 G2].
    - intros a b. destruct (Nat.eq_dec t a), (Nat.eq_dec (mask a) 0); [left; auto | right; tauto ..].
    - intros s v Hs [-> E]. rewrite E. cbn [Nat.eqb]. apply (loop_upd2 I J (fun i j => ((i * J + j) * n + s)%nat)). eauto 6.
    - intros s v Hs H. destruct (Nat.eqb_spec (mask s) 0); auto. apply (loop_upd2 I J (fun i j => ((i * J + j) * n + s)%nat)).
      intros i' j' Hi' Hj' E. apply flat_inj in E; [|lia|lia]. destruct E as [_ <-]. tauto.
    - destruct (Nat.eqb_spec (mask t) 0) as [E|E].
      + destruct (Nat.ltb_spec t J); cbn [andb]; [apply G1; exists t; auto | apply G2; intros s Hs [-> _]; lia].
      + rewrite Bool.andb_false_r. apply G2; intros s Hs [-> H]; auto.
  Qed.
End P.
