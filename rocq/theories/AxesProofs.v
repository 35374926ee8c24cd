(** AxesProofs.v -- loops over disjoint strided lines; pointer routines simulate the
    one-dimensional ones. *)
From Coq Require Import Arith List Lia Bool PeanoNat.
From Verif Require Import Base Fld SolversModel AxesModel.
Import ListNotations.
Local Open Scope nat_scope.

Section P.
  Variable K : Fld.
  Notation mem := (nat -> K).
  Notation vec := (nat -> K).

  (** [f] implements the 1D routine [g] on the first n entries of a strided line:
      those entries become those of g applied to the line (whatever the values of the
      line beyond n), and all other memory is unchanged *)
  Definition implements (n : nat) (g : vec -> vec) (f : ptr_routine K) : Prop :=
    forall off st m, 0 < st ->
      (forall u, (forall i, i < n -> m (off + i * st) = u i) ->
         forall i, i < n -> f off st m (off + i * st) = g u i) /\
      (forall a, (forall i, i < n -> a <> off + i * st) -> f off st m a = m a).

  (** a memory transformer that only touches and only depends on addresses in W *)
  Definition local (W : nat -> Prop) (f : mem -> mem) : Prop :=
    (forall m m', (forall a, W a -> m a = m' a) -> forall a, W a -> f m a = f m' a) /\
    (forall m a, ~ W a -> f m a = m a).

  Lemma local_id W : local W (fun m => m).
  Proof. split; auto. Qed.

  Lemma loop_local cnt (W : nat -> nat -> Prop) (f : nat -> mem -> mem) :
    (forall i, i < cnt -> local (W i) (f i)) ->
    (forall i j a, i < cnt -> j < cnt -> W i a -> W j a -> i = j) ->
    (forall i a m, i < cnt -> W i a -> for_up cnt 0 f m a = f i m a) /\
    (forall a m, (forall i, i < cnt -> ~ W i a) -> for_up cnt 0 f m a = m a).
  Proof.
    induction cnt as [|c IH]; intros HL HD.
    - split; [intros; lia | auto].
    - destruct IH as [IH1 IH2]; [intros; apply HL; lia | intros; eapply HD; eauto; lia |].
      split.
      + intros i a m Hi Ha. rewrite for_up_snoc, Nat.add_0_l.
        destruct (HL c ltac:(lia)) as [L1 L2].
        destruct (Nat.eq_dec i c) as [->|Hne].
        * apply L1; auto. intros a' Ha'. apply IH2. intros j Hj Hc.
          assert (j = c) by (eapply HD; eauto; lia). lia.
        * rewrite L2; [apply IH1; auto; lia|]. intros Hc. apply Hne. eapply HD; eauto.
      + intros a m Ha. rewrite for_up_snoc, Nat.add_0_l.
        destruct (HL c ltac:(lia)) as [L1 L2]. rewrite L2 by (apply Ha; lia).
        apply IH2. intros; apply Ha; lia.
  Qed.

  Lemma loop_is_local cnt (W : nat -> nat -> Prop) (f : nat -> mem -> mem) :
    (forall i, i < cnt -> local (W i) (f i)) ->
    (forall i j a, i < cnt -> j < cnt -> W i a -> W j a -> i = j) ->
    local (fun a => exists i, i < cnt /\ W i a) (fun m => for_up cnt 0 f m).
  Proof.
    intros HL HD. destruct (loop_local cnt W f HL HD) as [H1 H2]. split.
    - intros m m' E a (i & Hi & Ha). rewrite !(H1 i) by auto. apply HL; auto.
      intros a' Ha'. apply E. eauto.
    - intros m a Ha. apply H2. intros i Hi Hw. apply Ha. eauto.
  Qed.

  Lemma implements_local n g f off st : 0 < st -> implements n g f ->
    local (fun a => exists i, i < n /\ a = off + i * st) (f off st).
  Proof.
    intros Hst Hf. split.
    - intros m m' E a (i & Hi & ->).
      destruct (Hf off st m Hst) as [A1 _]. destruct (Hf off st m' Hst) as [B1 _].
      rewrite (A1 (fun i => m (off + i * st))) by auto.
      rewrite (B1 (fun i => m (off + i * st))); auto.
      intros j Hj. symmetry. apply E. eauto.
    - intros m a Ha. destruct (Hf off st m Hst) as [_ A2]. apply A2.
      intros i Hi E. apply Ha. eauto.
  Qed.

  (** ** addresses *)
  Lemma radix_inj M a b a' b' : b < M -> b' < M -> a * M + b = a' * M + b' -> a = a' /\ b = b'.
  Proof.
    intros Hb Hb' H.
    assert (a = a').
    { assert (E : (a * M + b) / M = (a' * M + b') / M) by (rewrite H; auto).
      rewrite !Nat.div_add_l in E by lia. rewrite !Nat.div_small in E by auto. lia. }
    subst. split; auto. lia.
  Qed.
  Lemma addr2_inj N1 i j i' j' : j < N1 -> j' < N1 ->
    addr2 N1 i j = addr2 N1 i' j' -> i = i' /\ j = j'.
  Proof. apply radix_inj. Qed.
  Lemma addr3_inj N1 N2 i j k i' j' k' : j < N1 -> j' < N1 -> k < N2 -> k' < N2 ->
    addr3 N1 N2 i j k = addr3 N1 N2 i' j' k' -> i = i' /\ j = j' /\ k = k'.
  Proof.
    intros Hj Hj' Hk Hk' E. apply radix_inj in E; auto. destruct E as [E ->].
    apply radix_inj in E; auto. tauto.
  Qed.
  Lemma addr4_inj N1 N2 N3 i j k l i' j' k' l' :
    j < N1 -> j' < N1 -> k < N2 -> k' < N2 -> l < N3 -> l' < N3 ->
    addr4 N1 N2 N3 i j k l = addr4 N1 N2 N3 i' j' k' l' -> i = i' /\ j = j' /\ k = k' /\ l = l'.
  Proof.
    intros Hj Hj' Hk Hk' Hl Hl' E. apply radix_inj in E; auto. destruct E as [E ->].
    apply radix_inj in E; auto. destruct E as [E ->]. apply radix_inj in E; auto. tauto.
  Qed.

  Section WithRoutine.
    Variables (n : nat) (g : vec -> vec) (f : ptr_routine K).
    Hypothesis Hf : implements n g f.

    (** the value written by one call, in terms of any address map *)
    Lemma call_value off st m (line : nat -> nat) : 0 < st ->
      (forall i, line i = off + i * st) ->
      forall i, i < n -> f off st m (line i) = g (fun i => m (line i)) i.
    Proof.
      intros Hst HE i Hi. destruct (Hf off st m Hst) as [A _].
      rewrite HE. apply A; [|exact Hi]. intros j Hj. now rewrite HE.
    Qed.
    Lemma call_local off st (line : nat -> nat) : 0 < st ->
      (forall i, line i = off + i * st) ->
      local (fun a => exists i, i < n /\ a = line i) (f off st).
    Proof.
      intros Hst HE. destruct (implements_local n g f off st Hst Hf) as [A B]. split.
      - intros m m' E a (i & Hi & ->). apply A.
        + intros a' (i' & Hi' & ->). apply E. exists i'. rewrite HE. auto.
        + exists i. rewrite HE. auto.
      - intros m a Ha. apply B. intros (i & Hi & ->). apply Ha. exists i. rewrite HE. auto.
    Qed.

    Ltac uniq := match goal with
      | H : addr2 _ _ _ = addr2 _ _ _ |- _ => apply addr2_inj in H; try lia
      | H : addr3 _ _ _ _ _ = addr3 _ _ _ _ _ |- _ => apply addr3_inj in H; try lia
      | H : addr4 _ _ _ _ _ _ _ = addr4 _ _ _ _ _ _ _ |- _ => apply addr4_inj in H; try lia
      end.
    Ltac dj := repeat match goal with
      | H : exists _, _ |- _ => destruct H as (? & ? & ?)
      end; subst; try uniq.

    (** *** 2D *)
    Lemma axis2_0 N0 N1 m : n <= N0 -> forall i j, i < N0 -> j < N1 ->
      solve_axis_2D K N0 N1 f 0 m (addr2 N1 i j)
      = if i <? n then g (fun i' => m (addr2 N1 i' j)) i else m (addr2 N1 i j).
    Proof.
      intros Hn i j Hi Hj. unfold solve_axis_2D.
      destruct (loop_local N1 (fun j a => exists i, i < n /\ a = addr2 N1 i j)
                  (fun j => f (addr2 N1 0 j) N1)) as [L1 L2].
      { intros j0 Hj0. apply call_local; [lia|]. intros; unfold addr2; nia. }
      { intros j1 j2 a H1 H2 (i1 & ? & ->) (i2 & ? & E). uniq. }
      destruct (Nat.ltb_spec i n) as [C|C].
      - rewrite (L1 j) by eauto. apply (call_value _ _ _ (fun i => addr2 N1 i j)); first [assumption | lia | intros; unfold addr2; nia].
      - apply L2. intros j' Hj' (i' & Hi' & E). uniq.
    Qed.
    Lemma axis2_1 N0 N1 m : n <= N1 -> forall i j, i < N0 -> j < N1 ->
      solve_axis_2D K N0 N1 f 1 m (addr2 N1 i j)
      = if j <? n then g (fun j' => m (addr2 N1 i j')) j else m (addr2 N1 i j).
    Proof.
      intros Hn i j Hi Hj. unfold solve_axis_2D.
      destruct (loop_local N0 (fun i a => exists j, j < n /\ a = addr2 N1 i j)
                  (fun i => f (addr2 N1 i 0) 1)) as [L1 L2].
      { intros j0 Hj0. apply call_local; [lia|]. intros; unfold addr2; nia. }
      { intros j1 j2 a H1 H2 (i1 & ? & ->) (i2 & ? & E). uniq. }
      destruct (Nat.ltb_spec j n) as [C|C].
      - rewrite (L1 i) by eauto. apply (call_value _ _ _ (fun j => addr2 N1 i j)); first [assumption | lia | intros; unfold addr2; nia].
      - apply L2. intros j' Hj' (i' & Hi' & E). uniq.
    Qed.
  End WithRoutine.

  (** *** a family of routines (one per line), possibly skipping some lines.
      [g p q] is the 1D routine of line (p, q). *)
  Section Family.
    Variables (n : nat) (g : nat -> nat -> vec -> vec) (f : nat -> nat -> ptr_routine K).
    Variable skip : nat -> nat -> bool.
    Hypothesis Hf : forall p q, implements n (g p q) (f p q).

    Lemma two_loops (P Q : nat) (off : nat -> nat -> nat) (st : nat)
        (line : nat -> nat -> nat -> nat) m : 0 < st ->
      (forall p q i, p < P -> q < Q -> line p q i = off p q + i * st) ->
      (forall p q i p' q' i', p < P -> q < Q -> i < n -> p' < P -> q' < Q -> i' < n ->
          line p q i = line p' q' i' -> p = p' /\ q = q') ->
      let r := for_up P 0 (fun p m => for_up Q 0 (fun q m =>
                 if skip p q then m else f p q (off p q) st m) m) m in
      (forall p q i, p < P -> q < Q -> i < n ->
         r (line p q i) = if skip p q then m (line p q i) else g p q (fun i => m (line p q i)) i) /\
      (forall a, (forall p q i, p < P -> q < Q -> i < n -> a <> line p q i) -> r a = m a).
    Proof.
      intros Hst HE HD r.
      set (W := fun p q a => exists i, i < n /\ a = line p q i).
      assert (HLq : forall p q, p < P -> q < Q ->
         local (W p q) (fun m => if skip p q then m else f p q (off p q) st m)).
      { intros p q Hp Hq. destruct (skip p q); [apply local_id|].
        apply call_local with (g := g p q); auto. }
      assert (HDq : forall p q q' a, p < P -> q < Q -> q' < Q -> W p q a -> W p q' a -> q = q').
      { intros p q q' a Hp Hq Hq' (i & Hi & ->) (i' & Hi' & E). eapply HD in E; eauto. tauto. }
      destruct (loop_local P (fun p a => exists q, q < Q /\ W p q a)
         (fun p m => for_up Q 0 (fun q m => if skip p q then m else f p q (off p q) st m) m)) as [L1 L2].
      { intros p Hp. apply (loop_is_local Q (W p) (fun q m => if skip p q then m else f p q (off p q) st m)).
        - intros q Hq. apply HLq; auto.
        - intros q q' a Hq Hq'. apply HDq; auto. }
      { intros p p' a Hp Hp' (q & Hq & i & Hi & ->) (q' & Hq' & i' & Hi' & E).
        eapply HD in E; eauto. tauto. }
      split.
      - intros p q i Hp Hq Hi. unfold r. rewrite (L1 p).
        + destruct (loop_local Q (W p) (fun q m => if skip p q then m else f p q (off p q) st m)) as [M1 _].
          * intros; apply HLq; auto.
          * intros q1 q2 a H1 H2. apply HDq; auto.
          * rewrite (M1 q); auto.
            -- destruct (skip p q); auto. apply call_value with (n := n) (g := g p q); auto.
            -- exists i; auto.
        + auto.
        + exists q. split; auto. exists i; auto.
      - intros a Ha. unfold r. apply L2. intros p Hp (q & Hq & i & Hi & E). eapply Ha; eauto.
    Qed.
  End Family.

  Ltac uniq := match goal with
      | H : addr3 _ _ _ _ _ = addr3 _ _ _ _ _ |- _ => apply addr3_inj in H; try lia
      | H : addr4 _ _ _ _ _ _ _ = addr4 _ _ _ _ _ _ _ |- _ => apply addr4_inj in H; try lia
      end.

  Lemma generic3 n (g : nat -> nat -> vec -> vec) (f : nat -> nat -> ptr_routine K) zero N0 N1 N2 axis m :
    (forall p q, implements n (g p q) (f p q)) ->
    axis < 3 -> n <= nth axis [N0; N1; N2] 0 ->
    forall i j k, i < N0 -> j < N1 -> k < N2 ->
      let t := nth axis [i; j; k] 0 in              (* position along the axis *)
      let p := match axis with 0 => j | _ => i end in   (* the two other positions *)
      let q := match axis with 2 => j | _ => k end in
      let line t := match axis with 0 => addr3 N1 N2 t j k | 1 => addr3 N1 N2 i t k
                               | _ => addr3 N1 N2 i j t end in
      generic1nd_3D K N0 N1 N2 f zero axis m (addr3 N1 N2 i j k)
      = if (t <? n) && negb ((p =? 0) && (q =? 0) && zero)
        then g p q (fun t => m (line t)) t else m (addr3 N1 N2 i j k).
  Proof.
    intros Hf Hax Hn i j k Hi Hj Hk.
    assert (Hc : axis = 0 \/ axis = 1 \/ axis = 2) by lia.
    destruct Hc as [-> | [-> | ->]]; simpl in *; unfold generic1nd_3D.
    - destruct (two_loops n g f (fun i j => (i =? 0) && (j =? 0) && zero) Hf N1 N2
                  (fun j k => addr3 N1 N2 0 j k) (N1 * N2) (fun j k i => addr3 N1 N2 i j k) m) as [A B].
      { nia. } { intros; unfold addr3; nia. } { intros; uniq. }
      destruct (Nat.ltb_spec i n) as [C|C]; simpl.
      + rewrite A by auto. destruct ((j =? 0) && (k =? 0) && zero); reflexivity.
      + apply B. intros p q i' Hp Hq Hi' E. uniq.
    - destruct (two_loops n g f (fun i j => (i =? 0) && (j =? 0) && zero) Hf N0 N2
                  (fun i k => addr3 N1 N2 i 0 k) N2 (fun i k j => addr3 N1 N2 i j k) m) as [A B].
      { lia. } { intros; unfold addr3; nia. } { intros; uniq. }
      destruct (Nat.ltb_spec j n) as [C|C]; simpl.
      + rewrite A by auto. destruct ((i =? 0) && (k =? 0) && zero); reflexivity.
      + apply B. intros p q i' Hp Hq Hi' E. uniq.
    - destruct (two_loops n g f (fun i j => (i =? 0) && (j =? 0) && zero) Hf N0 N1
                  (fun i j => addr3 N1 N2 i j 0) 1 (fun i j k => addr3 N1 N2 i j k) m) as [A B].
      { lia. } { intros; unfold addr3; nia. } { intros; uniq. }
      destruct (Nat.ltb_spec k n) as [C|C]; simpl.
      + rewrite A by auto. destruct ((i =? 0) && (j =? 0) && zero); reflexivity.
      + apply B. intros p q i' Hp Hq Hi' E. uniq.
  Qed.

  Lemma generic2 n (g : nat -> vec -> vec) (f : nat -> ptr_routine K) zero N0 N1 axis m :
    (forall p, implements n (g p) (f p)) -> axis < 2 -> n <= nth axis [N0; N1] 0 ->
    forall i j, i < N0 -> j < N1 ->
      let t := nth axis [i; j] 0 in
      let p := match axis with 0 => j | _ => i end in
      let line t := match axis with 0 => addr2 N1 t j | _ => addr2 N1 i t end in
      generic1nd_2D K N0 N1 f zero axis m (addr2 N1 i j)
      = if (t <? n) && negb ((p =? 0) && zero) then g p (fun t => m (line t)) t else m (addr2 N1 i j).
  Proof.
    intros Hf Hax Hn i j Hi Hj.
    assert (Hc : axis = 0 \/ axis = 1) by lia.
    destruct Hc as [-> | ->]; simpl in *; unfold generic1nd_2D.
    - destruct (two_loops n (fun p _ => g p) (fun p _ => f p) (fun i _ => (i =? 0) && zero) ltac:(intros; apply Hf) N1 1
                  (fun j _ => addr2 N1 0 j) N1 (fun j _ i => addr2 N1 i j) m) as [A B].
      { lia. } { intros; unfold addr2; nia. } { intros p q i0 p' q' i' ? ? ? ? ? ? E. apply addr2_inj in E; try lia. }
      cbn [for_up] in A, B. destruct (Nat.ltb_spec i n) as [C|C]; simpl.
      + rewrite (A j 0 i) by (auto; lia). destruct ((j =? 0) && zero); reflexivity.
      + apply B. intros p q i' Hp Hq Hi' E. apply addr2_inj in E; try lia.
    - destruct (two_loops n (fun p _ => g p) (fun p _ => f p) (fun i _ => (i =? 0) && zero) ltac:(intros; apply Hf) N0 1
                  (fun i _ => addr2 N1 i 0) 1 (fun i _ j => addr2 N1 i j) m) as [A B].
      { lia. } { intros; unfold addr2; nia. } { intros p q i0 p' q' i' ? ? ? ? ? ? E. apply addr2_inj in E; try lia. }
      cbn [for_up] in A, B. destruct (Nat.ltb_spec j n) as [C|C]; simpl.
      + rewrite (A i 0 j) by (auto; lia). destruct ((i =? 0) && zero); reflexivity.
      + apply B. intros p q i' Hp Hq Hi' E. apply addr2_inj in E; try lia.
  Qed.

  Lemma solve3_generic N0 N1 N2 f axis m : 
    solve_axis_3D K N0 N1 N2 f axis m = generic1nd_3D K N0 N1 N2 (fun _ _ => f) false axis m.
  Proof.
    unfold solve_axis_3D, generic1nd_3D.
    destruct axis as [|[|axis]]; apply for_up_ext; intros; apply for_up_ext; intros;
      rewrite andb_false_r; reflexivity.
  Qed.

  Lemma axis3 n g f N0 N1 N2 axis m : implements n g f ->
    axis < 3 -> n <= nth axis [N0; N1; N2] 0 ->
    forall i j k, i < N0 -> j < N1 -> k < N2 ->
      let t := nth axis [i; j; k] 0 in
      let line t := match axis with 0 => addr3 N1 N2 t j k | 1 => addr3 N1 N2 i t k
                               | _ => addr3 N1 N2 i j t end in
      solve_axis_3D K N0 N1 N2 f axis m (addr3 N1 N2 i j k)
      = if t <? n then g (fun t => m (line t)) t else m (addr3 N1 N2 i j k).
  Proof.
    intros Hf Hax Hn i j k Hi Hj Hk t line. rewrite solve3_generic.
    rewrite (generic3 n (fun _ _ => g)) by auto.
    rewrite andb_false_r. simpl. rewrite andb_true_r. reflexivity.
  Qed.

  (** *** 4D: three nested loops *)
  Lemma three_loops n g f (Hf : implements n g f) (P Q R : nat) (off : nat -> nat -> nat -> nat)
      (st : nat) (line : nat -> nat -> nat -> nat -> nat) m : 0 < st ->
    (forall p q r i, p < P -> q < Q -> r < R -> line p q r i = off p q r + i * st) ->
    (forall p q r i p' q' r' i', p < P -> q < Q -> r < R -> i < n ->
        p' < P -> q' < Q -> r' < R -> i' < n ->
        line p q r i = line p' q' r' i' -> p = p' /\ q = q' /\ r = r') ->
    let res := for_up P 0 (fun p m => for_up Q 0 (fun q m => for_up R 0 (fun r m =>
               f (off p q r) st m) m) m) m in
    (forall p q r i, p < P -> q < Q -> r < R -> i < n ->
       res (line p q r i) = g (fun i => m (line p q r i)) i) /\
    (forall a, (forall p q r i, p < P -> q < Q -> r < R -> i < n -> a <> line p q r i) -> res a = m a).
  Proof.
    intros Hst HE HD res.
    set (W := fun p q r a => exists i, i < n /\ a = line p q r i).
    assert (HL : forall p q r, p < P -> q < Q -> r < R -> local (W p q r) (f (off p q r) st)).
    { intros. apply call_local with (g := g); auto. }
    assert (HDr : forall p q r r' a, p < P -> q < Q -> r < R -> r' < R -> W p q r a -> W p q r' a -> r = r').
    { intros p q r r' a Hp Hq Hr Hr' (i & Hi & ->) (i' & Hi' & E). eapply HD in E; eauto. tauto. }
    set (W2 := fun p q a => exists r, r < R /\ W p q r a).
    assert (HL2 : forall p q, p < P -> q < Q -> local (W2 p q) (fun m => for_up R 0 (fun r m => f (off p q r) st m) m)).
    { intros p q Hp Hq. apply (loop_is_local R (W p q) (fun r => f (off p q r) st)); auto.
      intros r r' a; apply HDr; auto. }
    assert (HD2 : forall p q q' a, p < P -> q < Q -> q' < Q -> W2 p q a -> W2 p q' a -> q = q').
    { intros p q q' a Hp Hq Hq' (r & Hr & i & Hi & ->) (r' & Hr' & i' & Hi' & E).
      eapply HD in E; eauto. tauto. }
    set (W3 := fun p a => exists q, q < Q /\ W2 p q a).
    destruct (loop_local P W3 (fun p m => for_up Q 0 (fun q m => for_up R 0 (fun r m => f (off p q r) st m) m) m))
      as [L1 L2].
    { intros p Hp. apply (loop_is_local Q (W2 p) (fun q m => for_up R 0 (fun r m => f (off p q r) st m) m)); auto.
      intros q q' a; apply HD2; auto. }
    { intros p p' a Hp Hp' (q & Hq & r & Hr & i & Hi & ->) (q' & Hq' & r' & Hr' & i' & Hi' & E).
      eapply HD in E; eauto. tauto. }
    split.
    - intros p q r i Hp Hq Hr Hi. unfold res. rewrite (L1 p); auto.
      2:{ exists q. split; auto. exists r. split; auto. exists i; auto. }
      destruct (loop_local Q (W2 p) (fun q m => for_up R 0 (fun r m => f (off p q r) st m) m)) as [M1 _].
      { intros; apply HL2; auto. } { intros q1 q2 a; apply HD2; auto. }
      rewrite (M1 q); auto.
      2:{ exists r. split; auto. exists i; auto. }
      destruct (loop_local R (W p q) (fun r m => f (off p q r) st m)) as [N1 _].
      { intros; apply HL; auto. } { intros r1 r2 a; apply HDr; auto. }
      rewrite (N1 r); auto.
      2:{ exists i; auto. }
      apply call_value with (n := n) (g := g); auto.
    - intros a Ha. unfold res. apply L2. intros p Hp (q & Hq & r & Hr & i & Hi & E). eapply Ha; eauto.
  Qed.

  Lemma axis4 n g f N0 N1 N2 N3 axis m : implements n g f ->
    axis < 4 -> n <= nth axis [N0; N1; N2; N3] 0 ->
    forall i j k l, i < N0 -> j < N1 -> k < N2 -> l < N3 ->
      let t := nth axis [i; j; k; l] 0 in
      let line t := match axis with 0 => addr4 N1 N2 N3 t j k l | 1 => addr4 N1 N2 N3 i t k l
                      | 2 => addr4 N1 N2 N3 i j t l | _ => addr4 N1 N2 N3 i j k t end in
      solve_axis_4D K N0 N1 N2 N3 f axis m (addr4 N1 N2 N3 i j k l)
      = if t <? n then g (fun t => m (line t)) t else m (addr4 N1 N2 N3 i j k l).
  Proof.
    intros Hf Hax Hn i j k l Hi Hj Hk Hl.
    assert (Hc : axis = 0 \/ axis = 1 \/ axis = 2 \/ axis = 3) by lia.
    destruct Hc as [-> | [-> | [-> | ->]]]; simpl in *; unfold solve_axis_4D.
    - destruct (three_loops n g f Hf N1 N2 N3 (fun j k l => addr4 N1 N2 N3 0 j k l) (N1 * N2 * N3)
                  (fun j k l i => addr4 N1 N2 N3 i j k l) m) as [A B].
      { repeat apply Nat.mul_pos_pos; lia. } { intros; unfold addr4; ring. } { intros; uniq. }
      destruct (Nat.ltb_spec i n) as [C|C]; [apply A; auto|].
      apply B. intros p q r i' Hp Hq Hr Hi' E. uniq.
    - destruct (three_loops n g f Hf N0 N2 N3 (fun i k l => addr4 N1 N2 N3 i 0 k l) (N2 * N3)
                  (fun i k l j => addr4 N1 N2 N3 i j k l) m) as [A B].
      { repeat apply Nat.mul_pos_pos; lia. } { intros; unfold addr4; ring. } { intros; uniq. }
      destruct (Nat.ltb_spec j n) as [C|C]; [apply A; auto|].
      apply B. intros p q r i' Hp Hq Hr Hi' E. uniq.
    - destruct (three_loops n g f Hf N0 N1 N3 (fun i j l => addr4 N1 N2 N3 i j 0 l) N3
                  (fun i j l k => addr4 N1 N2 N3 i j k l) m) as [A B].
      { lia. } { intros; unfold addr4; ring. } { intros; uniq. }
      destruct (Nat.ltb_spec k n) as [C|C]; [apply A; auto|].
      apply B. intros p q r i' Hp Hq Hr Hi' E. uniq.
    - destruct (three_loops n g f Hf N0 N1 N2 (fun i j k => addr4 N1 N2 N3 i j k 0) 1
                  (fun i j k l => addr4 N1 N2 N3 i j k l) m) as [A B].
      { lia. } { intros; unfold addr4; ring. } { intros; uniq. }
      destruct (Nat.ltb_spec l n) as [C|C]; [apply A; auto|].
      apply B. intros p q r i' Hp Hq Hr Hi' E. uniq.
  Qed.

  (** ** pointer routines *)
  Definition simrel (n off st : nat) (m0 m : mem) (u : vec) : Prop :=
    (forall i, i < n -> m (off + i * st) = u i) /\
    (forall a, (forall i, i < n -> a <> off + i * st) -> m a = m0 a).

  Lemma simrel_upd n off st m0 m u i v w : 0 < st -> i < n -> v = w ->
    simrel n off st m0 m u -> simrel n off st m0 (upd m (off + i * st) v) (upd u i w).
  Proof.
    intros Hst Hi -> [H1 H2]. split.
    - intros j Hj. unfold upd. destruct (Nat.eqb_spec j i) as [->|].
      + rewrite Nat.eqb_refl. auto.
      + rewrite (proj2 (Nat.eqb_neq _ _)) by nia. auto.
    - intros a Ha. rewrite upd_other by (apply Ha; auto). auto.
  Qed.

  Lemma for_up_rel {S T} (R : S -> T -> Prop) cnt start f g (s : S) (t : T) :
    R s t -> (forall i s t, start <= i < start + cnt -> R s t -> R (f i s) (g i t)) ->
    R (for_up cnt start f s) (for_up cnt start g t).
  Proof.
    revert start s t. induction cnt as [|c IH]; intros start s t H0 H; simpl; auto.
    apply IH; [apply H; auto; lia|]. intros; apply H; auto; lia.
  Qed.
  Lemma for_down_rel {S T} (R : S -> T -> Prop) cnt f g (s : S) (t : T) :
    R s t -> (forall i s t, i < cnt -> R s t -> R (f i s) (g i t)) ->
    R (for_down cnt f s) (for_down cnt g t).
  Proof.
    revert s t. induction cnt as [|c IH]; intros s t H0 H; simpl; auto.
  Qed.

  Lemma sim_implements n g f :
    (forall off st m u, 0 < st -> simrel n off st m m u -> simrel n off st m (f off st m) (g u)) ->
    implements n g f.
  Proof.
    intros H off st m Hst. split.
    - intros u Hu. apply (H off st m u Hst). split; auto.
    - intros a Ha. apply (H off st m (fun i => m (off + i * st)) Hst); auto. split; auto.
  Qed.

  (** step the simulation; the remaining goals are equalities of values *)
  Ltac sim := repeat match goal with
    | |- simrel _ _ _ _ (for_up _ _ _ _) (for_up _ _ _ _) => apply for_up_rel; [|intros ? ? ? ? ?]
    | |- simrel _ _ _ _ (for_down _ _ _) (for_down _ _ _) => apply for_down_rel; [|intros ? ? ? ? ?]
    | |- simrel _ _ _ _ (upd _ _ _) (upd _ _ _) => apply simrel_upd; [lia | lia | |]
    end.
  Ltac vals := repeat match goal with
    | H : simrel ?n ?off ?st ?m0 ?m ?u |- context [?m (?off + ?i * ?st)] =>
        rewrite (proj1 H i) by lia
    end; auto.

  Lemma diagma_ptr_ok n D : implements n (diagma_solve K n D) (diagma_ptr K n D).
  Proof.
    apply sim_implements. intros off st m u Hst H. unfold diagma_solve, diagma_ptr. cbv zeta.
    sim; auto. vals.
  Qed.

  Lemma tdma_ptr_ok n D : 2 <= n -> implements n (tdma_solve K n D) (tdma_ptr K n D).
  Proof.
    intros Hn. apply sim_implements. intros off st m u Hst H. unfold tdma_solve, tdma_ptr. cbv zeta.
    match goal with |- context [for_up (n - 2) 2 ?b1 m] =>
      match goal with |- context [for_up (n - 2) 2 ?b2 u] =>
        assert (H1 : simrel n off st m (for_up (n - 2) 2 b1 m) (for_up (n - 2) 2 b2 u))
      end end.
    { sim; auto. vals. }
    set (m1 := for_up _ _ _ m) in *. set (u1 := for_up _ _ _ u) in *. clearbody m1 u1.
    assert (H2 : simrel n off st m (upd m1 (off + (n - 1) * st) (fdiv (m1 (off + (n - 1) * st)) (D 1 (n - 1))))
                   (upd u1 (n - 1) (fdiv (u1 (n - 1)) (D 1 (n - 1))))).
    { sim; auto. vals. }
    set (m2 := upd m1 _ _) in *. set (u2 := upd u1 _ _) in *. clearbody m2 u2.
    sim; auto; vals.
  Qed.

  Lemma tdmao_ptr_ok n D : 1 <= n -> implements n (tdmao_solve K n D) (tdmao_ptr K n D).
  Proof.
    intros Hn. apply sim_implements. intros off st m u Hst H. unfold tdmao_solve, tdmao_ptr. cbv zeta.
    match goal with |- context [for_up (n - 1) 1 ?b1 m] =>
      match goal with |- context [for_up (n - 1) 1 ?b2 u] =>
        assert (H1 : simrel n off st m (for_up (n - 1) 1 b1 m) (for_up (n - 1) 1 b2 u))
      end end.
    { sim; auto. vals. }
    set (m1 := for_up _ _ _ m) in *. set (u1 := for_up _ _ _ u) in *. clearbody m1 u1.
    sim; auto; vals.
  Qed.

  Lemma twodma_ptr_ok n D : 2 <= n -> implements n (twodma_solve K n D) (twodma_ptr K n D).
  Proof.
    intros Hn. apply sim_implements. intros off st m u Hst H. unfold twodma_solve, twodma_ptr. cbv zeta.
    assert (H2 : simrel n off st m (upd m (off + (n - 1) * st) (fdiv (m (off + (n - 1) * st)) (D 0 (n - 1))))
                   (upd u (n - 1) (fdiv (u (n - 1)) (D 0 (n - 1))))).
    { sim; auto. vals. }
    set (m2 := upd m _ _) in *. set (u2 := upd u _ _) in *. clearbody m2 u2.
    sim; auto; vals.
  Qed.

  Lemma fdma_ptr_ok n D : 4 <= n -> implements n (fdma_solve K n D) (fdma_ptr K n D).
  Proof.
    intros Hn. apply sim_implements. intros off st m u Hst H.
    unfold fdma_solve, fdma_ptr, back3. cbv zeta.
    match goal with |- context [for_up (n - 2) 2 ?b1 m] =>
      match goal with |- context [for_up (n - 2) 2 ?b2 u] =>
        assert (H1 : simrel n off st m (for_up (n - 2) 2 b1 m) (for_up (n - 2) 2 b2 u))
      end end.
    { sim; auto. vals. }
    set (m1 := for_up _ _ _ m) in *. set (u1 := for_up _ _ _ u) in *. clearbody m1 u1.
    assert (H2 : simrel n off st m (upd m1 (off + (n - 1) * st) (fdiv (m1 (off + (n - 1) * st)) (D 1 (n - 1))))
                   (upd u1 (n - 1) (fdiv (u1 (n - 1)) (D 1 (n - 1))))).
    { sim; auto. vals. }
    set (m2 := upd m1 (off + (n - 1) * st) _) in *. set (u2 := upd u1 (n - 1) _) in *. clearbody m2 u2.
    assert (H3 : simrel n off st m (upd m2 (off + (n - 2) * st) (fdiv (m2 (off + (n - 2) * st)) (D 1 (n - 2))))
                   (upd u2 (n - 2) (fdiv (u2 (n - 2)) (D 1 (n - 2))))).
    { sim; auto. vals. }
    set (m3 := upd m2 (off + (n - 2) * st) _) in *. set (u3 := upd u2 (n - 2) _) in *. clearbody m3 u3.
    match goal with |- context [upd m3 (off + (n - 3) * st) ?v] =>
      match goal with |- context [upd u3 (n - 3) ?w] =>
        assert (H4 : simrel n off st m (upd m3 (off + (n - 3) * st) v) (upd u3 (n - 3) w))
      end end.
    { sim; auto. vals. }
    set (m4 := upd m3 (off + (n - 3) * st) _) in *. set (u4 := upd u3 (n - 3) _) in *. clearbody m4 u4.
    sim; auto; vals.
  Qed.

  Lemma sim_let n off st m0 (X : mem) (Y : vec) (F : mem -> mem) (G : vec -> vec) :
    simrel n off st m0 X Y ->
    (forall x y, simrel n off st m0 x y -> simrel n off st m0 (F x) (G y)) ->
    simrel n off st m0 (let x := X in F x) (let y := Y in G y).
  Proof. intros H1 H2. apply H2, H1. Qed.
  (** peel the [let]s: common subterms are substituted, states are generalised *)
  Ltac lets := repeat (match goal with
    | |- simrel ?n ?off ?st ?m (let x := ?X in @?F x) (let y := ?X in @?G y) =>
        change (simrel n off st m (F X) (G X)); cbv beta
    | |- simrel ?n ?off ?st ?m (let x := ?X in @?F x) (let y := ?Y in @?G y) =>
        apply (sim_let n off st m X Y F G); [| let H := fresh in intros ? ? H]
    end).
  Ltac leta := match goal with
    | |- simrel ?n ?off ?st ?m (let x := ?X in @?F x) ?R =>
        change (simrel n off st m (F X) R); cbv beta
    end.

  Lemma threedma_ptr_ok n D : 4 <= n -> implements n (threedma_solve K n D) (threedma_ptr K n D).
  Proof.
    intros Hn. apply sim_implements. intros off st m u Hst H.
    cbv beta delta [threedma_solve threedma_ptr back3]. do 4 leta. lets; sim; auto; vals.
  Qed.

  Lemma penta_forward_ok n da db off st m m' u : 4 <= n -> 0 < st -> simrel n off st m m' u ->
    simrel n off st m (penta_forward_ptr K n da db off st m') (penta_forward K n da db u).
  Proof.
    intros Hn Hst H. cbv beta delta [penta_forward penta_forward_ptr]. leta. lets; sim; auto; vals.
  Qed.

  Lemma pdma_ptr_ok n D : 4 <= n -> implements n (pdma_solve K n D) (pdma_ptr K n D).
  Proof.
    intros Hn. apply sim_implements. intros off st m u Hst H.
    cbv beta delta [pdma_solve pdma_ptr]. leta. lets.
    1: apply penta_forward_ok; auto.
    all: sim; auto; vals.
  Qed.

  Lemma hepta_ptr_ok n D : 8 <= n -> implements n (hepta_solve K n D) (hepta_ptr K n D).
  Proof.
    intros Hn. apply sim_implements. intros off st m u Hst H.
    cbv beta delta [hepta_solve hepta_ptr]. leta. lets.
    1: apply penta_forward_ok; auto; lia.
    all: sim; auto; vals.
  Qed.
End P.
