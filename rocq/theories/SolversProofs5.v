(** SolversProofs5.v -- solver objects: calls, constraints and histories. *)
From Coq Require Import Arith ZArith List Bool Lia Field.
From Verif Require Import Base Fld SolversModel SolversSpec SolversProofs SolversProofs2
  SolversProofs3 SolversProofs4.
Import ListNotations.
Local Open Scope nat_scope.

(** smallest sizes for which no index of the Python code becomes negative *)
Definition kind_min (k : solver_kind) : nat :=
  match k with
  | KDiagMA => 0 | KTDMA_O => 1 | KTDMA | KTwoDMA => 2
  | KFDMA | KThreeDMA | KPDMA => 4 | KHeptaDMA => 8
  end.

Section P.
  Variable K : Fld.
  Add Field KF : (flaws K).
  Notation vec := (nat -> K).
  Notation dia := (nat -> nat -> K).

  Ltac zeqbs := repeat match goal with |- context [(?a =? ?b)%Z] => destruct (Z.eqb_spec a b); auto end.

  Lemma upper_diag n k (D : dia) :
    k = KDiagMA \/ k = KTwoDMA \/ k = KThreeDMA ->
    leading_nonsingular n (dia_entry (kind_offsets k) D) ->
    forall i, i < n -> D 0 i <> f0.
  Proof.
    intros Hk HN i Hi.
    pose proof (upper_pivots K n (dia_entry (kind_offsets k) D)) as H.
    assert (E : dia_entry (kind_offsets k) D i i = D 0 i).
    { destruct Hk as [-> | [-> | ->]]; unfold dia_entry, kind_offsets; simpl;
        rewrite Z.sub_diag; reflexivity. }
    rewrite <- E. apply H; auto.
    intros r c Hrc. destruct Hk as [-> | [-> | ->]]; unfold dia_entry, kind_offsets; simpl; zeqbs; lia.
  Qed.

  Lemma fresh_call_solves k n (D : dia) (b : vec) :
    k <> KThreeDMA -> kind_min k <= n ->
    leading_nonsingular n (dia_entry (kind_offsets k) D) ->
    solves n (dia_entry (kind_offsets k) D) (snd (call K (new_solver K k n D) None b)) b.
  Proof.
    intros H3 Hn HN. destruct k; simpl in Hn; unfold call, new_solver, perform_lu; simpl.
    - apply diagma_correct. apply (upper_diag n KDiagMA); auto.
    - apply tdma_correct; auto. apply tdma_pivots; auto.
    - apply tdmao_correct; auto. apply tdmao_pivots; auto.
    - apply fdma_correct; auto. apply fdma_pivots; auto.
    - apply twodma_correct; auto. apply (upper_diag n KTwoDMA); auto.
    - congruence.
    - apply pdma_correct; auto. apply pdma_pivots; auto.
    - apply hepta_correct; auto.
      apply hepta_pivots with (n := n) (D := D); auto. apply hepta_lu_fact. lia.
  Qed.

  (** ThreeDMA: what the code does solve *)
  Lemma threedma_partial n (D : dia) (b : vec) :
    4 <= n -> leading_nonsingular n (dia_entry (kind_offsets KThreeDMA) D) ->
    (forall j, 4 <= j < n -> D 2 j = D 1 j) ->
    solves n (dia_entry (kind_offsets KThreeDMA) D)
      (snd (call K (new_solver K KThreeDMA n D) None b)) b.
  Proof.
    intros Hn HN HE. unfold call, new_solver, perform_lu; simpl. unfold threedma_solve.
    assert (Hd : forall i, i < n -> D 0 i <> f0) by (apply (upper_diag n KThreeDMA); auto).
    set (D' := fun k j => if k =? 2 then D 1 j else D k j).
    apply (solves_ext K n (dia_entry (kind_offsets KThreeDMA) D')).
    - intros i j Hi Hj. unfold dia_entry, kind_offsets. simpl. unfold D'.
      zeqbs. simpl. symmetry. apply HE. lia.
    - apply (threedma_fixed_correct K n D' b Hn). exact Hd.
  Qed.

  (** ** reuse *)
  Lemma calls_none_factored s (bs : list vec) : s_factored s = true ->
    calls K s (map (fun b => (None, b)) bs)
    = map (fun b => solve_of K (s_kind s) (s_n s) (s_data s) b) bs.
  Proof.
    intros Hf. induction bs as [|b bs IH]; simpl; auto.
    unfold perform_lu. rewrite Hf. f_equal. exact IH.
  Qed.

  Lemma calls_none k n (D : dia) (bs : list vec) :
    calls K (new_solver K k n D) (map (fun b => (None, b)) bs)
    = map (fun b => snd (call K (new_solver K k n D) None b)) bs.
  Proof.
    destruct bs as [|b bs]; simpl; auto. f_equal.
    unfold perform_lu. destruct k; simpl;
      match goal with |- calls K ?s _ = _ => rewrite (calls_none_factored s bs eq_refl) end; reflexivity.
  Qed.

  (** ** constraints *)
  Definition pin_data (k : solver_kind) (D : dia) : dia :=
    s_data (fst (apply_constraint0 K (new_solver K k 0 D) f0 (fun _ => f0))).

  Lemma dia_ext_entry offs : forall m (D D' : dia) i j,
    (forall r, m <= r < m + length offs -> D r j = D' r j) ->
    dia_entry_from m offs D i j = dia_entry_from m offs D' i j.
  Proof.
    induction offs as [|o offs IH]; intros m D D' i j H; simpl; auto.
    destruct (_ =? _)%Z; [apply H; simpl; lia|]. apply IH. intros; apply H; simpl; lia.
  Qed.

  Lemma pin_entry k (D : dia) i j :
    k = KDiagMA \/ k = KTDMA \/ k = KFDMA \/ k = KTwoDMA \/ k = KThreeDMA \/ k = KPDMA \/ k = KHeptaDMA ->
    dia_entry (kind_offsets k) (pin_data k D) i j
    = ident_row0 (dia_entry (kind_offsets k) D) i j.
  Proof.
    intros Hk. unfold ident_row0.
    destruct (Nat.eqb_spec i 0) as [->|Hi].
    - repeat match goal with H : _ \/ _ |- _ => destruct H as [->|H] | H : k = _ |- _ => subst k end;
        unfold pin_data, dia_entry, kind_offsets, apply_constraint0, new_solver; simpl;
        destruct (Nat.eqb_spec j 0); zeqbs; try lia; upds; auto; subst; lia.
    - repeat match goal with H : _ \/ _ |- _ => destruct H as [->|H] | H : k = _ |- _ => subst k end;
        unfold pin_data, dia_entry, kind_offsets, apply_constraint0, new_solver; simpl;
        zeqbs; try lia; upds; auto.
  Qed.

  Lemma ident_row0_pinned n (A : nat -> nat -> K) (x b : vec) val : 0 < n ->
    solves n (ident_row0 A) x (upd b 0 val) -> solves_pinned0 n A val x b.
  Proof.
    intros Hn H. split.
    - pose proof (H 0 Hn) as E. rewrite upd_same in E. rewrite <- E.
      rewrite (fsum_ext K n _ (fun j => if j =? 0 then x j else f0)).
      + rewrite fsum_delta. rewrite (proj2 (Nat.ltb_lt 0 n)) by lia. reflexivity.
      + intros j Hj. unfold ident_row0. simpl. destruct (j =? 0); ring.
    - intros i Hi. pose proof (H i ltac:(lia)) as E. rewrite upd_other in E by lia.
      rewrite <- E. apply fsum_ext. intros j Hj. unfold ident_row0.
      rewrite (proj2 (Nat.eqb_neq i 0)) by lia. reflexivity.
  Qed.

  Definition pin_ok (k : solver_kind) : Prop :=
    k = KDiagMA \/ k = KTDMA \/ k = KFDMA \/ k = KTwoDMA.

  Lemma call_some_fresh k n (D : dia) v (b : vec) : pin_ok k ->
    snd (call K (new_solver K k n D) (Some v) b)
    = snd (call K (new_solver K k n (pin_data k D)) None (upd b 0 v)).
  Proof.
    intros [-> | [-> | [-> | ->]]]; reflexivity.
  Qed.

  Lemma pinned_call k n (D : dia) v (b : vec) :
    pin_ok k -> 0 < n -> kind_min k <= n ->
    leading_nonsingular n (ident_row0 (dia_entry (kind_offsets k) D)) ->
    solves_pinned0 n (dia_entry (kind_offsets k) D) v
      (snd (call K (new_solver K k n D) (Some v) b)) b.
  Proof.
    intros Hk Hn0 Hn HN. apply ident_row0_pinned; auto. rewrite call_some_fresh by auto.
    assert (HE : forall i j, dia_entry (kind_offsets k) (pin_data k D) i j
               = ident_row0 (dia_entry (kind_offsets k) D) i j).
    { intros. apply pin_entry. destruct Hk as [-> | [-> | [-> | ->]]]; tauto. }
    apply (solves_ext K n (dia_entry (kind_offsets k) (pin_data k D))).
    - intros; apply HE.
    - apply fresh_call_solves; auto.
      + destruct Hk as [-> | [-> | [-> | ->]]]; discriminate.
      + eapply leading_ext; [|exact HN]. intros; symmetry; apply HE.
  Qed.

  (** after a constrained call the object is factored and pinning it again changes
      nothing that a solve reads *)
  Lemma upd2_noop {A} (M : nat -> nat -> A) k i v : M k i = v -> forall k' j, upd2 M k i v k' j = M k' j.
  Proof.
    intros E k' j. unfold upd2. destruct (Nat.eqb_spec k' k); destruct (Nat.eqb_spec j i); simpl; subst; auto.
  Qed.

  Lemma for_down_ext {S} cnt (f g : nat -> S -> S) s :
    (forall i s, i < cnt -> f i s = g i s) -> for_down cnt f s = for_down cnt g s.
  Proof.
    revert s. induction cnt as [|c IH]; intros s H; simpl; auto.
    rewrite H by lia. apply IH. intros; apply H; lia.
  Qed.

  Lemma back3_ext n (d u1 u2 d' u1' u2' u : vec) :
    (forall i, d i = d' i) -> (forall i, u1 i = u1' i) -> (forall i, u2 i = u2' i) ->
    back3 K n d u1 u2 u = back3 K n d' u1' u2' u.
  Proof.
    intros H0 H1 H2. unfold back3. cbv zeta. rewrite !H0, !H1.
    apply for_down_ext. intros. now rewrite H0, H1, H2.
  Qed.

  Lemma solve_of_ext k n (D D' : dia) (b : vec) : pin_ok k ->
    (forall r j, D r j = D' r j) -> solve_of K k n D b = solve_of K k n D' b.
  Proof.
    intros Hk HD. destruct Hk as [-> | [-> | [-> | ->]]]; simpl.
    - unfold diagma_solve. apply for_up_ext. intros. now rewrite HD.
    - unfold tdma_solve. cbv zeta. rewrite !HD.
      rewrite (for_up_ext (n - 2) 2 _
        (fun i (u : vec) => upd u i (fsub (u i) (fmul (D' 0 (i - 2)) (u (i - 2)))))) by (intros; now rewrite HD).
      apply for_down_ext. intros. now rewrite !HD.
    - unfold fdma_solve. cbv zeta.
      rewrite (for_up_ext (n - 2) 2 _
        (fun i (u : vec) => upd u i (fsub (u i) (fmul (D' 0 (i - 2)) (u (i - 2)))))) by (intros; now rewrite HD).
      apply back3_ext; intros; apply HD.
    - unfold twodma_solve. cbv zeta. rewrite !HD. apply for_down_ext. intros. now rewrite !HD.
  Qed.

  (** the storage after factorisation still has an identity first row *)
  Definition pinned_state (k : solver_kind) (D : dia) : Prop :=
    forall r j, pin_data k D r j = D r j.

  Lemma lu_pinned k n (D : dia) : pin_ok k -> kind_min k <= n ->
    pinned_state k (lu_of K k n (pin_data k D)).
  Proof.
    intros Hk Hn r j. destruct Hk as [-> | [-> | [-> | ->]]]; unfold pin_data at 1; simpl in *.
    - apply upd2_noop. unfold pin_data; simpl. apply upd2_same.
    - set (P := pin_data KTDMA D).
      assert (P0 : P 1 0 = f1) by (unfold P, pin_data; simpl; upds; auto).
      assert (P2 : P 2 2 = f0) by (unfold P, pin_data; simpl; upds; auto).
      destruct (tdma_lu_spec K n P) as (H2 & _ & H1).
      rewrite upd2_noop; [apply upd2_noop|].
      + rewrite H1 by lia. auto.
      + rewrite upd2_other by lia. rewrite H2. auto.
    - set (P := pin_data KFDMA D).
      assert (P0 : P 1 0 = f1) by (unfold P, pin_data; simpl; upds; auto).
      assert (P2 : P 2 2 = f0) by (unfold P, pin_data; simpl; upds; auto).
      assert (P3 : P 3 4 = f0) by (unfold P, pin_data; simpl; upds; auto).
      destruct (fdma_lu_spec K n P) as (H3 & _ & H1 & H2).
      rewrite upd2_noop; [rewrite upd2_noop; [apply upd2_noop|]|].
      + rewrite H1 by lia. auto.
      + rewrite upd2_other by lia. rewrite H2 by lia. auto.
      + rewrite !upd2_other by lia. rewrite H3. auto.
    - rewrite upd2_noop; [apply upd2_noop|]; unfold pin_data; simpl; upds; auto.
  Qed.

  Lemma calls_some_factored k n (L : dia) (h : list (K * vec)) :
    pin_ok k -> pinned_state k L ->
    calls K (mkSolver k n L true) (map (fun cb => (Some (fst cb), snd cb)) h)
    = map (fun cb => solve_of K k n L (upd (snd cb) 0 (fst cb))) h.
  Proof.
    intros Hk. revert L. induction h as [|[v b] h IH]; intros L HL; [reflexivity|].
    cbn [map calls fst snd].
    assert (EA : apply_constraint0 K (mkSolver k n L true) v b
                 = (mkSolver k n (pin_data k L) true, upd b 0 v))
      by (destruct Hk as [-> | [-> | [-> | ->]]]; reflexivity).
    unfold call at 1. rewrite EA. unfold perform_lu. cbn [s_kind s_n s_data s_factored].
    rewrite (solve_of_ext k n (pin_data k L) L _ Hk HL). f_equal.
    rewrite IH.
    - apply map_ext. intros [v' b']. simpl. apply solve_of_ext; auto.
    - intros r j. assert (E : forall M M' : dia, (forall r j, M r j = M' r j) ->
                      forall r j, pin_data k M r j = pin_data k M' r j).
      { intros M M' HM r0 j0. destruct Hk as [-> | [-> | [-> | ->]]]; unfold pin_data; simpl;
          unfold upd2; repeat match goal with |- (if ?c then _ else _) = (if ?c then _ else _) => destruct c end; auto. }
      apply E. exact HL.
  Qed.

  Lemma calls_some k n (D : dia) (h : list (K * vec)) :
    pin_ok k -> kind_min k <= n ->
    calls K (new_solver K k n D) (map (fun cb => (Some (fst cb), snd cb)) h)
    = map (fun cb => snd (call K (new_solver K k n D) (Some (fst cb)) (snd cb))) h.
  Proof.
    intros Hk Hn. destruct h as [|[v b] h]; [reflexivity|].
    pose proof (lu_pinned k n D Hk Hn) as HP.
    assert (EF : forall v b, call K (new_solver K k n D) (Some v) b
      = (mkSolver k n (lu_of K k n (pin_data k D)) true,
         solve_of K k n (lu_of K k n (pin_data k D)) (upd b 0 v))).
    { intros v' b'. destruct Hk as [-> | [-> | [-> | ->]]]; reflexivity. }
    cbn [map calls fst snd]. rewrite EF. cbn [snd]. f_equal.
    rewrite calls_some_factored; auto. apply map_ext. intros [v' b']. cbn [fst snd]. rewrite EF. reflexivity.
  Qed.
End P.
