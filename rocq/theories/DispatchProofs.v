(** DispatchProofs.v *)
From Coq Require Import String Ascii List Bool Arith Lia.
From Verif Require Import DispatchModel DispatchSpec.
Import ListNotations.
Local Open Scope string_scope.
Local Open Scope list_scope.

Lemma find_some : forall l k a, find k l = Some a -> In (k, a) l.
Proof.
  induction l as [|[k' x] r IH]; cbn; intros k a H; [discriminate|].
  destruct (String.eqb_spec k k') as [->|]; [injection H as ->; auto|right; auto].
Qed.
Lemma find_none : forall l k, find k l = None <-> ~ exists a, In (k, a) l.
Proof.
  induction l as [|[k' x] r IH]; cbn; intros k; [split; auto; intros _ [a []]|].
  destruct (String.eqb_spec k k') as [->|N].
  - split; [discriminate|]. intros H. exfalso. apply H. exists x. auto.
  - rewrite IH. split; intros H [a Ha]; apply H; exists a; [destruct Ha as [E|]; [congruence|auto]|auto].
Qed.
Lemma getattr_none m k : getattr m k = None <-> ~ offers m k.
Proof.
  unfold offers. destruct m as [l|]; cbn.
  - rewrite find_none. split; intros H; [intros (l' & a & E & Ha); injection E as <-; eauto|intros [a Ha]; apply H; eauto].
  - split; auto. intros _ (l & a & E & _). discriminate.
Qed.
Lemma getattr_some m k a : getattr m k = Some a -> exists l, m = Some l /\ In (k, a) l.
Proof. destruct m as [l|]; cbn; [|discriminate]. intros H. exists l. split; auto. apply find_some; auto. Qed.

Lemma backend_cases mode : (exists b, names_backend mode b) \/ (lower mode <> "cython" /\ lower mode <> "numba").
Proof.
  unfold names_backend. destruct (String.eqb_spec (lower mode) "cython"); [left; exists "cython"; auto|].
  destruct (String.eqb_spec (lower mode) "numba"); [left; exists "numba"; auto|]. right. auto.
Qed.

Lemma session_app : forall h mode m cy nb r, in_force mode h m ->
  session cy nb mode (h ++ r) = session cy nb mode h ++ session cy nb m r.
Proof. induction h as [|[m'|f] h IH]; intros; inversion H; subst; cbn; auto. f_equal. auto. Qed.
Lemma session_length : forall h mode cy nb, List.length (session cy nb mode h) = calls h.
Proof. induction h as [|[m'|f] h IH]; intros; cbn; auto. Qed.

(** all numbers of arguments between the bounds *)
Definition ks (f : fn) : list nat := map (fun i => f_req f + i) (seq 0 (S (f_max f - f_req f))).
Lemma ks_ok f k : allowed f k -> In k (ks f).
Proof. intros [H1 H2]. unfold ks. apply in_map_iff. exists (k - f_req f). split; [lia|]. apply in_seq. lia. Qed.
Lemma forall_ks (P : fn -> nat -> bool) (l : list fn) : forallb (fun f => forallb (P f) (ks f)) l = true ->
  forall f k, In f l -> allowed f k -> P f k = true.
Proof.
  intros H f k Hf Hk. rewrite forallb_forall in H. specialize (H f Hf). rewrite forallb_forall in H. apply H. apply ks_ok; auto.
Qed.
