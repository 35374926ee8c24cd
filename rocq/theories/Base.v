(** Base.v -- arrays, loops and finite sums shared by every model file.

    Conventions of the whole development
    - a NumPy array with shape (n,) is a total function [nat -> F] together with
      its length [n], which is passed separately; only indices < n are meaningful;
    - [a[i] = v] is [upd a i v];
    - [for i in range(lo, hi)] is [for_up (hi - lo) lo body];
    - [for i in range(c-1, -1, -1)] is [for_down c body];
    - arithmetic is exact (a field), not IEEE; files that model rounding say so. *)
From Coq Require Import Arith Lia List ZArith Bool.
Import ListNotations.

(** ** Arrays *)
Definition upd {A : Type} (a : nat -> A) (i : nat) (v : A) : nat -> A :=
  fun j => if Nat.eqb j i then v else a j.

Definition upd2 {A : Type} (a : nat -> nat -> A) (k i : nat) (v : A) : nat -> nat -> A :=
  fun k' j => if andb (Nat.eqb k' k) (Nat.eqb j i) then v else a k' j.

Lemma upd_same {A} (a : nat -> A) i v : upd a i v i = v.
Proof. unfold upd. now rewrite Nat.eqb_refl. Qed.

Lemma upd_other {A} (a : nat -> A) i v j : j <> i -> upd a i v j = a j.
Proof. unfold upd. intros H. apply Nat.eqb_neq in H. now rewrite H. Qed.

Lemma upd2_same {A} (a : nat -> nat -> A) k i v : upd2 a k i v k i = v.
Proof. unfold upd2. now rewrite !Nat.eqb_refl. Qed.

Lemma upd2_other {A} (a : nat -> nat -> A) k i v k' j :
  (k' <> k \/ j <> i) -> upd2 a k i v k' j = a k' j.
Proof.
  unfold upd2. intros H.
  destruct (Nat.eqb_spec k' k); destruct (Nat.eqb_spec j i); simpl; auto.
  exfalso; destruct H; auto.
Qed.

(** Simplify every array access in the goal and hypotheses, using [lia] for
    index (in)equalities. *)
Ltac upd_step :=
  match goal with
  | |- context [upd ?a ?i ?v ?j] =>
      first [ replace (upd a i v j) with v by
                (replace j with i by lia; symmetry; apply upd_same)
            | rewrite (upd_other a i v j) by lia ]
  | |- context [upd2 ?a ?k ?i ?v ?k' ?j] =>
      first [ replace (upd2 a k i v k' j) with v by
                (replace k' with k by lia; replace j with i by lia; symmetry; apply upd2_same)
            | rewrite (upd2_other a k i v k' j) by lia ]
  end.
Ltac upds := repeat upd_step.

(** ** Python loops *)
Fixpoint for_up {S : Type} (cnt start : nat) (body : nat -> S -> S) (s : S) : S :=
  match cnt with
  | O => s
  | S c => for_up c (Datatypes.S start) body (body start s)
  end.

Fixpoint for_down {S : Type} (cnt : nat) (body : nat -> S -> S) (s : S) : S :=
  match cnt with
  | O => s
  | S c => for_down c body (body c s)
  end.

(** invariant rule: [P i s] holds when index [i] is the next one to run *)
Lemma for_up_inv {S} (P : nat -> S -> Prop) cnt start body s :
  P start s ->
  (forall i s, start <= i < start + cnt -> P i s -> P (Datatypes.S i) (body i s)) ->
  P (start + cnt) (for_up cnt start body s).
Proof.
  revert start s. induction cnt as [|c IH]; intros start s H0 Hs; simpl.
  - now rewrite Nat.add_0_r.
  - replace (start + Datatypes.S c) with (Datatypes.S start + c) by lia.
    apply IH.
    + apply Hs; [lia | exact H0].
    + intros i s' Hi HP. apply Hs; [lia | exact HP].
Qed.

Lemma for_down_inv {S} (P : nat -> S -> Prop) cnt body s :
  P cnt s ->
  (forall i s, i < cnt -> P (Datatypes.S i) s -> P i (body i s)) ->
  P 0 (for_down cnt body s).
Proof.
  revert s. induction cnt as [|c IH]; intros s H0 Hs; simpl.
  - exact H0.
  - apply IH.
    + apply Hs; [lia | exact H0].
    + intros i s' Hi HP. apply Hs; [lia | exact HP].
Qed.

Lemma for_up_snoc {S} cnt start (body : nat -> S -> S) s :
  for_up (Datatypes.S cnt) start body s = body (start + cnt) (for_up cnt start body s).
Proof.
  revert start s. induction cnt as [|c IH]; intros start s.
  - simpl. now rewrite Nat.add_0_r.
  - change (for_up (Datatypes.S (Datatypes.S c)) start body s)
      with (for_up (Datatypes.S c) (Datatypes.S start) body (body start s)).
    rewrite IH. simpl. f_equal. lia.
Qed.

Lemma for_up_ext {S} cnt start (f g : nat -> S -> S) s :
  (forall i s, start <= i < start + cnt -> f i s = g i s) ->
  for_up cnt start f s = for_up cnt start g s.
Proof.
  revert start s. induction cnt as [|c IH]; intros start s H; simpl; auto.
  rewrite H by lia. apply IH. intros; apply H; lia.
Qed.

(** ** Finite sums over an arbitrary commutative ring *)
Section Sums.
  Variable F : Type.
  Variables (zero one : F) (add mul sub : F -> F -> F) (opp : F -> F).
  Hypothesis Rth : ring_theory zero one add mul sub opp (@eq F).
  Add Ring Rr : Rth.

  Fixpoint gsum (n : nat) (f : nat -> F) : F :=
    match n with
    | O => zero
    | S m => add (gsum m f) (f m)
    end.

  Lemma gsum_ext n f g : (forall i, i < n -> f i = g i) -> gsum n f = gsum n g.
  Proof.
    induction n as [|n IH]; intros H; simpl; auto.
    rewrite IH by (intros; apply H; lia). now rewrite H by lia.
  Qed.

  Lemma gsum_zero n f : (forall i, i < n -> f i = zero) -> gsum n f = zero.
  Proof.
    induction n as [|n IH]; intros H; simpl; auto.
    rewrite IH by (intros; apply H; lia). rewrite H by lia. ring.
  Qed.

  Lemma gsum_add n f g : gsum n (fun i => add (f i) (g i)) = add (gsum n f) (gsum n g).
  Proof. induction n as [|n IH]; simpl; [ring | rewrite IH; ring]. Qed.

  Lemma gsum_sub n f g : gsum n (fun i => sub (f i) (g i)) = sub (gsum n f) (gsum n g).
  Proof. induction n as [|n IH]; simpl; [ring | rewrite IH; ring]. Qed.

  Lemma gsum_scal n c f : gsum n (fun i => mul c (f i)) = mul c (gsum n f).
  Proof. induction n as [|n IH]; simpl; [ring | rewrite IH; ring]. Qed.

  Lemma gsum_scal_r n c f : gsum n (fun i => mul (f i) c) = mul (gsum n f) c.
  Proof. induction n as [|n IH]; simpl; [ring | rewrite IH; ring]. Qed.

  Lemma gsum_delta n c (v : nat -> F) :
    gsum n (fun j => if Nat.eqb j c then v j else zero) = if Nat.ltb c n then v c else zero.
  Proof.
    induction n as [|n IH]; simpl; auto.
    rewrite IH. destruct (Nat.eqb_spec n c) as [->|Hne].
    - rewrite (proj2 (Nat.ltb_ge c c)) by lia.
      rewrite (proj2 (Nat.ltb_lt c (S c))) by lia. ring.
    - destruct (Nat.ltb_spec c n); destruct (Nat.ltb_spec c (S n)); try lia; ring.
  Qed.

  Lemma gsum_swap n m (f : nat -> nat -> F) :
    gsum n (fun i => gsum m (fun j => f i j)) = gsum m (fun j => gsum n (fun i => f i j)).
  Proof.
    induction n as [|n IH]; simpl.
    - symmetry. apply gsum_zero. reflexivity.
    - rewrite IH. rewrite gsum_add. reflexivity.
  Qed.

  Lemma gsum_split n m f : gsum (n + m) f = add (gsum n f) (gsum m (fun i => f (n + i))).
  Proof.
    induction m as [|m IH].
    - rewrite Nat.add_0_r. simpl. ring.
    - rewrite Nat.add_succ_r. simpl. rewrite IH. ring.
  Qed.

  Lemma gsum_single n c f :
    c < n -> (forall j, j < n -> j <> c -> f j = zero) -> gsum n f = f c.
  Proof.
    intros Hc H.
    rewrite (gsum_ext n f (fun j => if Nat.eqb j c then f j else zero)).
    - rewrite gsum_delta. apply Nat.ltb_lt in Hc. now rewrite Hc.
    - intros j Hj. destruct (Nat.eqb_spec j c); auto.
  Qed.
End Sums.

Arguments gsum {F}.
