(** SolversProofs3.v -- the PDMA and HeptaDMA factorisation loops. *)
From Coq Require Import Arith ZArith List Bool Lia Field.
From Verif Require Import Base Fld SolversModel SolversSpec SolversProofs SolversProofs2.
Local Open Scope nat_scope.

Section P.
  Variable K : Fld.
  Add Field KF : (flaws K).
  Notation "x +' y" := (@fadd K x y) (at level 50, left associativity).
  Notation "x -' y" := (@fsub K x y) (at level 50, left associativity).
  Notation "x *' y" := (@fmul K x y) (at level 40, left associativity).
  Notation "x /' y" := (@fdiv K x y) (at level 40, left associativity).
  Notation vec := (nat -> K).
  Notation dia := (nat -> nat -> K).
  Notation gd := (gd K).

  Ltac ltbs :=
    repeat match goal with
    | |- context [Nat.ltb ?a ?b] =>
        first [ rewrite (proj2 (Nat.ltb_lt a b)) by lia
              | rewrite (proj2 (Nat.ltb_ge a b)) by lia ]
    | |- context [Nat.leb ?a ?b] =>
        first [ rewrite (proj2 (Nat.leb_le a b)) by lia
              | rewrite (proj2 (Nat.leb_gt a b)) by lia ]
    end.
  Ltac ltbs_in H :=
    repeat match type of H with
    | context [Nat.ltb ?a ?b] =>
        first [ rewrite (proj2 (Nat.ltb_lt a b)) in H by lia
              | rewrite (proj2 (Nat.ltb_ge a b)) in H by lia ]
    | context [Nat.leb ?a ?b] =>
        first [ rewrite (proj2 (Nat.leb_le a b)) in H by lia
              | rewrite (proj2 (Nat.leb_gt a b)) in H by lia ]
    end.
  Ltac rd_step :=
    match goal with
    | |- context [subm K ?D ?k ?c ?lam ?k2 ?c2 ?k' ?j] =>
        first [ rewrite (subm_other K D k c lam k2 c2 k' j) by lia
              | replace (subm K D k c lam k2 c2 k' j) with (D k c -' lam *' D k2 c2) by
                  (replace k' with k by lia; replace j with c by lia; symmetry; apply subm_same) ]
    | |- context [upd2 ?a ?k ?i ?v ?k' ?j] =>
        first [ rewrite (upd2_other a k i v k' j) by lia
              | replace (upd2 a k i v k' j) with v by
                (replace k' with k by lia; replace j with i by lia; symmetry; apply upd2_same) ]
    end.
  Ltac rds := repeat rd_step.

  (** what one elimination step does to each storage row *)
  Record step_char (n i : nat) (M M' : dia) : Prop := {
    sc0 : forall j, M' 0 j = if j =? i then M 0 i /' M 2 i else M 0 j;
    sc1 : forall j, M' 1 j = if j =? i then M 1 i /' M 2 i
                 else if j =? i + 2 then M 1 (i + 2) -' (M 0 i /' M 2 i) *' M 3 (i + 2) else M 1 j;
    sc2 : forall j, M' 2 j = if j =? i + 2 then M 2 (i + 2) -' (M 1 i /' M 2 i) *' M 3 (i + 2)
                 else if j =? i + 4 then M 2 (i + 4) -' (M 0 i /' M 2 i) *' M 4 (i + 4) else M 2 j;
    sc3 : forall j, j < n -> M' 3 j = if j =? i + 4 then M 3 (i + 4) -' (M 1 i /' M 2 i) *' M 4 (i + 4)
                 else if j =? i + 6 then M 3 (i + 6) -' (M 0 i /' M 2 i) *' M 5 (i + 6) else M 3 j;
    sc4 : forall j, j < n -> M' 4 j = if j =? i + 6 then M 4 (i + 6) -' (M 1 i /' M 2 i) *' M 5 (i + 6)
                 else if j =? i + 8 then M 4 (i + 8) -' (M 0 i /' M 2 i) *' M 6 (i + 8) else M 4 j;
    sc5 : forall j, j < n -> M' 5 j = if j =? i + 8 then M 5 (i + 8) -' (M 1 i /' M 2 i) *' M 6 (i + 8)
                 else M 5 j;
    sc6 : forall j, M' 6 j = M 6 j
  }.

  Ltac eqbs := repeat match goal with
    | |- context [Nat.eqb ?a ?b] => destruct (Nat.eqb_spec a b); subst
    end.

  Lemma hepta_body_char n i M : i < n - 4 -> step_char n i M (hepta_lu_body K n i M).
  Proof.
    intros Hi. unfold hepta_lu_body. cbv zeta.
    destruct (Nat.ltb_spec i (n - 6)) as [C6|C6]; destruct (Nat.ltb_spec i (n - 8)) as [C8|C8]; try lia;
      constructor; intros j; try intros Hj; eqbs; try lia; rds;
      try (replace (i + 2 + 2) with (i + 4) by lia); try (replace (i + 2 + 4) with (i + 6) by lia);
      try (replace (i + 2 + 6) with (i + 8) by lia); try (replace (i + 4 + 2) with (i + 6) by lia);
      try (replace (i + 4 + 4) with (i + 8) by lia); rds; reflexivity.
  Qed.

  (** PDMA storage seen as HeptaDMA storage with two zero diagonals *)
  Definition ext5 (D : dia) : dia := fun k j => if k <? 5 then D k j else f0.

  Lemma pdma_body_char n i M : step_char n i (ext5 M) (ext5 (pdma_lu_body K i M)).
  Proof.
    unfold pdma_lu_body, ext5. cbv zeta.
    constructor; intros j; try intros Hj; simpl; eqbs; try lia; rds;
      try (replace (i + 2 + 2) with (i + 4) by lia); rds; try reflexivity; ring.
  Qed.

  Record lu_inv (n : nat) (D : dia) (i : nat) (M : dia) : Prop := {
    li0 : forall j, j < i -> M 0 j = D 0 j /' M 2 j;
    li0' : forall j, i <= j -> M 0 j = D 0 j;
    li1 : forall j, j < i -> M 1 j = (D 1 j -' gd (2 <=? j) (M 0 (j - 2) *' M 3 j)) /' M 2 j;
    li1' : forall j, i <= j < i + 2 -> M 1 j = D 1 j -' gd (2 <=? j) (M 0 (j - 2) *' M 3 j);
    li1'' : forall j, i + 2 <= j -> M 1 j = D 1 j;
    li2 : forall j, j < i + 2 -> M 2 j = D 2 j -' gd (4 <=? j) (M 0 (j - 4) *' M 4 j)
                                            -' gd (2 <=? j) (M 1 (j - 2) *' M 3 j);
    li2' : forall j, i + 2 <= j < i + 4 -> M 2 j = D 2 j -' gd (4 <=? j) (M 0 (j - 4) *' M 4 j);
    li2'' : forall j, i + 4 <= j -> M 2 j = D 2 j;
    li3 : forall j, j < n -> j < i + 4 -> M 3 j = D 3 j -' gd (6 <=? j) (M 0 (j - 6) *' M 5 j)
                                            -' gd (4 <=? j) (M 1 (j - 4) *' M 4 j);
    li3' : forall j, j < n -> i + 4 <= j < i + 6 -> M 3 j = D 3 j -' gd (6 <=? j) (M 0 (j - 6) *' M 5 j);
    li3'' : forall j, j < n -> i + 6 <= j -> M 3 j = D 3 j;
    li4 : forall j, j < n -> j < i + 6 -> M 4 j = D 4 j -' gd (8 <=? j) (M 0 (j - 8) *' M 6 j)
                                            -' gd (6 <=? j) (M 1 (j - 6) *' M 5 j);
    li4' : forall j, j < n -> i + 6 <= j < i + 8 -> M 4 j = D 4 j -' gd (8 <=? j) (M 0 (j - 8) *' M 6 j);
    li4'' : forall j, j < n -> i + 8 <= j -> M 4 j = D 4 j;
    li5 : forall j, j < n -> j < i + 8 -> M 5 j = D 5 j -' gd (8 <=? j) (M 1 (j - 8) *' M 6 j);
    li5'' : forall j, j < n -> i + 8 <= j -> M 5 j = D 5 j;
    li6 : forall j, M 6 j = D 6 j
  }.

  Lemma lu_inv_init n D : lu_inv n D 0 D.
  Proof.
    constructor; intros; try lia; auto; ltbs; unfold SolversProofs2.gd; ring.
  Qed.

  Ltac neqbs :=
    repeat match goal with
    | |- context [Nat.eqb ?a ?b] =>
        first [ rewrite (proj2 (Nat.eqb_eq a b)) by lia
              | rewrite (proj2 (Nat.eqb_neq a b)) by lia ]
    end.

  Ltac hh := first [ reflexivity | field; auto | idtac ].

  Lemma lu_inv_step n D i M M' : i < n - 4 ->
    lu_inv n D i M -> step_char n i M M' -> lu_inv n D (S i) M'.
  Proof.
    intros Hi I C.
    assert (X3 : forall j, j < i + 4 -> j < n -> M' 3 j = M 3 j)
      by (intros; rewrite (sc3 _ _ _ _ C) by lia; neqbs; auto).
    assert (X4 : forall j, j < i + 6 -> j < n -> M' 4 j = M 4 j)
      by (intros; rewrite (sc4 _ _ _ _ C) by lia; neqbs; auto).
    assert (X5 : forall j, j < i + 8 -> j < n -> M' 5 j = M 5 j)
      by (intros; rewrite (sc5 _ _ _ _ C) by lia; neqbs; auto).
    assert (X0 : forall j, j < i -> M' 0 j = M 0 j)
      by (intros; rewrite (sc0 _ _ _ _ C) by lia; neqbs; auto).
    assert (X1 : forall j, j < i -> M' 1 j = M 1 j)
      by (intros; rewrite (sc1 _ _ _ _ C) by lia; neqbs; auto).
    assert (X2 : forall j, j < i + 2 -> M' 2 j = M 2 j)
      by (intros; rewrite (sc2 _ _ _ _ C) by lia; neqbs; auto).
    assert (Y0 : M' 0 i = M 0 i /' M 2 i) by (rewrite (sc0 _ _ _ _ C); neqbs; auto).
    assert (Y1 : M' 1 i = M 1 i /' M 2 i) by (rewrite (sc1 _ _ _ _ C); neqbs; auto).
    constructor.
    - intros j Hj. destruct (Nat.eq_dec j i) as [->|].
      + rewrite Y0, X2, (li0' _ _ _ _ I) by lia. auto.
      + rewrite X0, X2 by lia. apply (li0 _ _ _ _ I); lia.
    - intros j Hj. rewrite (sc0 _ _ _ _ C). neqbs. apply (li0' _ _ _ _ I); lia.
    - intros j Hj. destruct (Nat.eq_dec j i) as [->|].
      + rewrite Y1, (li1' _ _ _ _ I) by lia. rewrite X2, X3 by lia.
        destruct (Nat.leb_spec 2 i); unfold SolversProofs2.gd; [rewrite X0 by lia|]; auto.
      + rewrite X1, X2, X3 by lia. rewrite (li1 _ _ _ _ I) by lia.
        destruct (Nat.leb_spec 2 j); unfold SolversProofs2.gd; [rewrite X0 by lia|]; auto.
    - intros j Hj. rewrite (sc1 _ _ _ _ C). rewrite X3 by lia.
      assert (Hc : j = i + 1 \/ j = i + 2) by lia. destruct Hc as [-> | ->]; neqbs.
      + rewrite (li1' _ _ _ _ I) by lia.
        destruct (Nat.leb_spec 2 (i + 1)); unfold SolversProofs2.gd; [rewrite X0 by lia|]; auto.
      + ltbs. unfold SolversProofs2.gd. replace (i + 2 - 2) with i by lia. rewrite Y0.
        rewrite (li1'' _ _ _ _ I) by lia. auto.
    - intros j Hj. rewrite (sc1 _ _ _ _ C). neqbs. apply (li1'' _ _ _ _ I); lia.
    - intros j Hj. rewrite X3, X4 by lia.
      destruct (Nat.eq_dec j (i + 2)) as [->|].
      + rewrite (sc2 _ _ _ _ C). neqbs. rewrite (li2' _ _ _ _ I) by lia.
        rewrite (proj2 (Nat.leb_le 2 (i + 2))) by lia. replace (i + 2 - 2) with i by lia.
        rewrite Y1. unfold SolversProofs2.gd.
        destruct (Nat.leb_spec 4 (i + 2)); [rewrite X0 by lia|]; auto.
      + rewrite X2 by lia. rewrite (li2 _ _ _ _ I) by lia. unfold SolversProofs2.gd.
        destruct (Nat.leb_spec 4 j); [rewrite X0 by lia|];
          (destruct (Nat.leb_spec 2 j); [rewrite X1 by lia|]); auto.
    - intros j Hj. rewrite X4 by lia. rewrite (sc2 _ _ _ _ C).
      assert (Hc : j = i + 3 \/ j = i + 4) by lia. destruct Hc as [-> | ->]; neqbs.
      + rewrite (li2' _ _ _ _ I) by lia.
        unfold SolversProofs2.gd. destruct (Nat.leb_spec 4 (i + 3)); [rewrite X0 by lia|]; auto.
      + ltbs. unfold SolversProofs2.gd. replace (i + 4 - 4) with i by lia. rewrite Y0.
        rewrite (li2'' _ _ _ _ I) by lia. auto.
    - intros j Hj. rewrite (sc2 _ _ _ _ C). neqbs. apply (li2'' _ _ _ _ I); lia.
    - intros j Hn Hj. rewrite X5, X4 by lia.
      destruct (Nat.eq_dec j (i + 4)) as [->|].
      + rewrite (sc3 _ _ _ _ C) by lia. neqbs. rewrite (li3' _ _ _ _ I) by lia.
        rewrite (proj2 (Nat.leb_le 4 (i + 4))) by lia. replace (i + 4 - 4) with i by lia.
        rewrite Y1. unfold SolversProofs2.gd.
        destruct (Nat.leb_spec 6 (i + 4)); [rewrite X0 by lia|]; auto.
      + rewrite X3 by lia. rewrite (li3 _ _ _ _ I) by lia. unfold SolversProofs2.gd.
        destruct (Nat.leb_spec 6 j); [rewrite X0 by lia|];
          (destruct (Nat.leb_spec 4 j); [rewrite X1 by lia|]); auto.
    - intros j Hn Hj. rewrite X5 by lia. rewrite (sc3 _ _ _ _ C) by lia.
      assert (Hc : j = i + 5 \/ j = i + 6) by lia. destruct Hc as [-> | ->]; neqbs.
      + rewrite (li3' _ _ _ _ I) by lia.
        unfold SolversProofs2.gd. destruct (Nat.leb_spec 6 (i + 5)); [rewrite X0 by lia|]; auto.
      + ltbs. unfold SolversProofs2.gd. replace (i + 6 - 6) with i by lia. rewrite Y0.
        rewrite (li3'' _ _ _ _ I) by lia. auto.
    - intros j Hn Hj. rewrite (sc3 _ _ _ _ C) by lia. neqbs. apply (li3'' _ _ _ _ I); lia.
    - intros j Hn Hj. rewrite X5, (sc6 _ _ _ _ C) by lia.
      destruct (Nat.eq_dec j (i + 6)) as [->|].
      + rewrite (sc4 _ _ _ _ C) by lia. neqbs. rewrite (li4' _ _ _ _ I) by lia.
        rewrite (proj2 (Nat.leb_le 6 (i + 6))) by lia. replace (i + 6 - 6) with i by lia.
        rewrite Y1. unfold SolversProofs2.gd.
        destruct (Nat.leb_spec 8 (i + 6)); [rewrite X0 by lia|]; auto.
      + rewrite X4 by lia. rewrite (li4 _ _ _ _ I) by lia. unfold SolversProofs2.gd.
        destruct (Nat.leb_spec 8 j); [rewrite X0 by lia|];
          (destruct (Nat.leb_spec 6 j); [rewrite X1 by lia|]); auto.
    - intros j Hn Hj. rewrite (sc6 _ _ _ _ C). rewrite (sc4 _ _ _ _ C) by lia.
      assert (Hc : j = i + 7 \/ j = i + 8) by lia. destruct Hc as [-> | ->]; neqbs.
      + rewrite (li4' _ _ _ _ I) by lia.
        unfold SolversProofs2.gd. destruct (Nat.leb_spec 8 (i + 7)); [rewrite X0 by lia|]; auto.
      + ltbs. unfold SolversProofs2.gd. replace (i + 8 - 8) with i by lia. rewrite Y0.
        rewrite (li4'' _ _ _ _ I) by lia. auto.
    - intros j Hn Hj. rewrite (sc4 _ _ _ _ C) by lia. neqbs. apply (li4'' _ _ _ _ I); lia.
    - intros j Hn Hj. rewrite (sc6 _ _ _ _ C). rewrite (sc5 _ _ _ _ C) by lia.
      destruct (Nat.eq_dec j (i + 8)) as [->|]; neqbs.
      + rewrite (li5'' _ _ _ _ I) by lia. ltbs. replace (i + 8 - 8) with i by lia. rewrite Y1.
        unfold SolversProofs2.gd. auto.
      + rewrite (li5 _ _ _ _ I) by lia. unfold SolversProofs2.gd.
        destruct (Nat.leb_spec 8 j); [rewrite X1 by lia|]; auto.
    - intros j Hn Hj. rewrite (sc5 _ _ _ _ C) by lia. neqbs. apply (li5'' _ _ _ _ I); lia.
    - intros j. rewrite (sc6 _ _ _ _ C). apply (li6 _ _ _ _ I).
  Qed.

  (** the two remaining steps i = n-4, n-3 *)
  Lemma lu_tail n D M : 4 <= n -> lu_inv n D (n - 4) M ->
    hepta_fact K n D (pdma_lu_tail K (n - 3) (pdma_lu_tail K (n - 4) M)).
  Proof.
    intros Hn I.
    set (M1 := pdma_lu_tail K (n - 4) M). set (M2 := pdma_lu_tail K (n - 3) M1).
    assert (A0 : forall k j, k <> 1 -> k <> 2 -> M2 k j = M k j).
    { intros k j H1 H2. unfold M2, M1, pdma_lu_tail. cbv zeta. rds. auto. }
    assert (A1 : forall j, j < n - 4 -> M2 1 j = M 1 j).
    { intros j Hj. unfold M2, M1, pdma_lu_tail. cbv zeta. rds. auto. }
    assert (A2 : forall j, j < n - 2 -> M2 2 j = M 2 j).
    { intros j Hj. unfold M2, M1, pdma_lu_tail. cbv zeta. rds. auto. }
    assert (A14 : M2 1 (n - 4) = M 1 (n - 4) /' M 2 (n - 4)).
    { unfold M2, M1, pdma_lu_tail. cbv zeta. rds. auto. }
    assert (A13 : M2 1 (n - 3) = M 1 (n - 3) /' M 2 (n - 3)).
    { unfold M2, M1, pdma_lu_tail. cbv zeta. rds. auto. }
    assert (A22 : M2 2 (n - 2) = M 2 (n - 2) -' M2 1 (n - 4) *' M 3 (n - 2)).
    { rewrite A14. unfold M2, M1, pdma_lu_tail. cbv zeta.
      replace (n - 4 + 2) with (n - 2) by lia. replace (n - 3 + 2) with (n - 1) by lia. rds. auto. }
    assert (A21 : M2 2 (n - 1) = M 2 (n - 1) -' M2 1 (n - 3) *' M 3 (n - 1)).
    { rewrite A13. unfold M2, M1, pdma_lu_tail. cbv zeta.
      replace (n - 4 + 2) with (n - 2) by lia. replace (n - 3 + 2) with (n - 1) by lia. rds. auto. }
    constructor.
    - intros j Hj. rewrite A0, A2 by lia. apply (li0 _ _ _ _ I); lia.
    - intros j Hj. rewrite !(A0 0), !(A0 3), A2 by lia.
      assert (Hc : j < n - 4 \/ j = n - 4 \/ j = n - 3) by lia.
      destruct Hc as [Hc | [-> | ->]].
      + rewrite A1 by lia. apply (li1 _ _ _ _ I); lia.
      + rewrite A14. rewrite (li1' _ _ _ _ I) by lia. auto.
      + rewrite A13. rewrite (li1' _ _ _ _ I) by lia. auto.
    - intros j Hj. rewrite !(A0 0), !(A0 3), !(A0 4) by lia.
      assert (Hc : j < n - 2 \/ j = n - 2 \/ j = n - 1) by lia.
      destruct Hc as [Hc | [-> | ->]].
      + rewrite A2 by lia. unfold SolversProofs2.gd.
        destruct (Nat.leb_spec 2 j); [rewrite A1 by lia|];
          rewrite (li2 _ _ _ _ I) by lia; ltbs; reflexivity.
      + rewrite A22. rewrite (li2' _ _ _ _ I) by lia.
        rewrite (proj2 (Nat.leb_le 2 (n - 2))) by lia.
        replace (n - 2 - 2) with (n - 4) by lia. reflexivity.
      + rewrite A21. rewrite (li2' _ _ _ _ I) by lia.
        rewrite (proj2 (Nat.leb_le 2 (n - 1))) by lia.
        replace (n - 1 - 2) with (n - 3) by lia. reflexivity.
    - intros j Hj. rewrite !(A0 0), !(A0 3), !(A0 4), !(A0 5) by lia.
      unfold SolversProofs2.gd at 2.
      destruct (Nat.leb_spec 4 j); [rewrite A1 by lia|];
        rewrite (li3 _ _ _ _ I) by lia; ltbs; reflexivity.
    - intros j Hj. rewrite !(A0 0), !(A0 4), !(A0 5), !(A0 6) by lia.
      unfold SolversProofs2.gd at 2.
      destruct (Nat.leb_spec 6 j); [rewrite A1 by lia|];
        rewrite (li4 _ _ _ _ I) by lia; ltbs; reflexivity.
    - intros j Hj. rewrite !(A0 5), !(A0 6) by lia.
      unfold SolversProofs2.gd.
      destruct (Nat.leb_spec 8 j); [rewrite A1 by lia|];
        rewrite (li5 _ _ _ _ I) by lia; ltbs; reflexivity.
    - intros j. rewrite A0 by lia. apply (li6 _ _ _ _ I).
  Qed.

  Lemma hepta_lu_fact n D : 4 <= n -> hepta_fact K n D (hepta_lu K n D).
  Proof.
    intros Hn. unfold hepta_lu. cbv zeta. apply lu_tail; auto.
    apply (for_up_inv (lu_inv n D) (n - 4) 0).
    - apply lu_inv_init.
    - intros i s Hi HI. eapply lu_inv_step; eauto; try lia. apply hepta_body_char; lia.
  Qed.

  Lemma fact_ext n D L L' : (forall k j, L k j = L' k j) -> hepta_fact K n D L -> hepta_fact K n D L'.
  Proof.
    intros E [H0 H1 H2 H3 H4 H5 H6]. constructor; intros; rewrite <- ?E; auto.
  Qed.

  Lemma pdma_lu_fact n D : 4 <= n -> hepta_fact K n (ext5 D) (ext5 (pdma_lu K n D)).
  Proof.
    intros Hn. unfold pdma_lu. cbv zeta.
    set (M := for_up (n - 4) 0 _ D).
    apply (fact_ext _ _ (pdma_lu_tail K (n - 3) (pdma_lu_tail K (n - 4) (ext5 M)))).
    - intros k j. unfold pdma_lu_tail, ext5, subm, upd2. cbv zeta. simpl.
      do 5 (destruct k as [|k]; [reflexivity|]). reflexivity.
    - apply lu_tail; auto. unfold M.
      apply (for_up_inv (fun i s => lu_inv n (ext5 D) i (ext5 s)) (n - 4) 0).
      + apply lu_inv_init.
      + intros i s Hi HI. eapply lu_inv_step; eauto; try lia. apply pdma_body_char; lia.
  Qed.

  (** back substitution loops *)
  Lemma pdma_back n (d e f y : vec) : 4 <= n -> (forall i, i < n -> d i <> f0) ->
    let u := upd y (n - 1) (y (n - 1) /' d (n - 1)) in
    let u := upd u (n - 2) (u (n - 2) /' d (n - 2)) in
    let u := upd u (n - 3) ((u (n - 3) -' e (n - 3) *' u (n - 1)) /' d (n - 3)) in
    let u := upd u (n - 4) ((u (n - 4) -' e (n - 4) *' u (n - 2)) /' d (n - 4)) in
    let x := for_down (n - 4) (fun k u =>
      upd u k ((u k -' e k *' u (k + 2) -' f k *' u (k + 4)) /' d k)) u in
    forall i, i < n -> urow K n d e f (fun _ => f0) (fun _ => f0) x i = y i.
  Proof. intros Hn Hd. cbv zeta. exact (back3_spec K n d e f y Hn Hd). Qed.

  Lemma hepta_back n (d e f g h y : vec) : 8 <= n -> (forall i, i < n -> d i <> f0) ->
    let u := upd y (n - 1) (y (n - 1) /' d (n - 1)) in
    let u := upd u (n - 2) (u (n - 2) /' d (n - 2)) in
    let u := upd u (n - 3) ((u (n - 3) -' e (n - 3) *' u (n - 1)) /' d (n - 3)) in
    let u := upd u (n - 4) ((u (n - 4) -' e (n - 4) *' u (n - 2)) /' d (n - 4)) in
    let u := upd u (n - 5) ((u (n - 5) -' e (n - 5) *' u (n - 3) -' f (n - 5) *' u (n - 1)) /' d (n - 5)) in
    let u := upd u (n - 6) ((u (n - 6) -' e (n - 6) *' u (n - 4) -' f (n - 6) *' u (n - 2)) /' d (n - 6)) in
    let u := upd u (n - 7) ((u (n - 7) -' e (n - 7) *' u (n - 5) -' f (n - 7) *' u (n - 3)
                             -' g (n - 7) *' u (n - 1)) /' d (n - 7)) in
    let u := upd u (n - 8) ((u (n - 8) -' e (n - 8) *' u (n - 6) -' f (n - 8) *' u (n - 4)
                             -' g (n - 8) *' u (n - 2)) /' d (n - 8)) in
    let x := for_down (n - 8) (fun k u =>
      upd u k ((u k -' e k *' u (k + 2) -' f k *' u (k + 4) -' g k *' u (k + 6)
                -' h k *' u (k + 8)) /' d k)) u in
    forall i, i < n -> urow K n d e f g h x i = y i.
  Proof.
    intros Hn Hd u1 u2 u3 u4 u5 u6 u7 u8 x.
    assert (E1 : forall j, j < n - 1 -> u1 j = y j) by (intros; unfold u1; upds; auto).
    assert (E2 : forall j, j < n - 2 -> u2 j = y j) by (intros; unfold u2; upds; apply E1; lia).
    assert (E3 : forall j, j < n - 3 -> u3 j = y j) by (intros; unfold u3; upds; apply E2; lia).
    assert (E4 : forall j, j < n - 4 -> u4 j = y j) by (intros; unfold u4; upds; apply E3; lia).
    assert (E5 : forall j, j < n - 5 -> u5 j = y j) by (intros; unfold u5; upds; apply E4; lia).
    assert (E6 : forall j, j < n - 6 -> u6 j = y j) by (intros; unfold u6; upds; apply E5; lia).
    assert (E7 : forall j, j < n - 7 -> u7 j = y j) by (intros; unfold u7; upds; apply E6; lia).
    assert (E8 : forall j, j < n - 8 -> u8 j = y j) by (intros; unfold u8; upds; apply E7; lia).
    assert (V1 : u8 (n - 1) = u1 (n - 1)) by (unfold u8, u7, u6, u5, u4, u3, u2; upds; auto).
    assert (V2 : u8 (n - 2) = u2 (n - 2)) by (unfold u8, u7, u6, u5, u4, u3; upds; auto).
    assert (V3 : u8 (n - 3) = u3 (n - 3)) by (unfold u8, u7, u6, u5, u4; upds; auto).
    assert (V4 : u8 (n - 4) = u4 (n - 4)) by (unfold u8, u7, u6, u5; upds; auto).
    assert (V5 : u8 (n - 5) = u5 (n - 5)) by (unfold u8, u7, u6; upds; auto).
    assert (V6 : u8 (n - 6) = u6 (n - 6)) by (unfold u8, u7; upds; auto).
    assert (V7 : u8 (n - 7) = u7 (n - 7)) by (unfold u8; upds; auto).
    assert (W1 : u1 (n - 1) = y (n - 1) /' d (n - 1)) by (unfold u1; upds; auto).
    assert (W2 : u2 (n - 2) = y (n - 2) /' d (n - 2)).
    { unfold u2. rewrite upd_same, E1 by lia. auto. }
    assert (W3 : u3 (n - 3) = (y (n - 3) -' e (n - 3) *' u8 (n - 1)) /' d (n - 3)).
    { rewrite V1. unfold u3. rewrite upd_same, E2 by lia. unfold u2 at 1. upds. auto. }
    assert (W4 : u4 (n - 4) = (y (n - 4) -' e (n - 4) *' u8 (n - 2)) /' d (n - 4)).
    { rewrite V2. unfold u4. rewrite upd_same, E3 by lia. unfold u3 at 1. upds. auto. }
    assert (W5 : u5 (n - 5) = (y (n - 5) -' e (n - 5) *' u8 (n - 3) -' f (n - 5) *' u8 (n - 1)) /' d (n - 5)).
    { rewrite V3, V1. unfold u5. rewrite upd_same, E4 by lia. unfold u4, u3, u2. upds. auto. }
    assert (W6 : u6 (n - 6) = (y (n - 6) -' e (n - 6) *' u8 (n - 4) -' f (n - 6) *' u8 (n - 2)) /' d (n - 6)).
    { rewrite V4, V2. unfold u6. rewrite upd_same, E5 by lia. unfold u5, u4, u3. upds. auto. }
    assert (W7 : u7 (n - 7) = (y (n - 7) -' e (n - 7) *' u8 (n - 5) -' f (n - 7) *' u8 (n - 3)
                                -' g (n - 7) *' u8 (n - 1)) /' d (n - 7)).
    { rewrite V5, V3, V1. unfold u7. rewrite upd_same, E6 by lia. unfold u6, u5, u4, u3, u2. upds. auto. }
    assert (W8 : u8 (n - 8) = (y (n - 8) -' e (n - 8) *' u8 (n - 6) -' f (n - 8) *' u8 (n - 4)
                                -' g (n - 8) *' u8 (n - 2)) /' d (n - 8)).
    { rewrite V6, V4, V2. unfold u8. rewrite upd_same, E7 by lia. unfold u7, u6, u5, u4, u3. upds. auto. }
    clearbody u8.
    set (P := fun (i : nat) (u : vec) =>
      (forall j, i <= j < n -> urow K n d e f g h u j = y j) /\
      (forall j, j < i -> u j = y j)).
    assert (HP : P 0 x).
    { unfold x. apply for_down_inv; unfold P.
      - split; [|exact E8]. intros j Hj.
        assert (Hc : j = n - 1 \/ j = n - 2 \/ j = n - 3 \/ j = n - 4 \/
                     j = n - 5 \/ j = n - 6 \/ j = n - 7 \/ j = n - 8) by lia.
        unfold urow, SolversProofs2.gd.
        destruct Hc as [-> | [-> | [-> | [-> | [-> | [-> | [-> | ->]]]]]]]; ltbs;
          try replace (n - 3 + 2) with (n - 1) by lia; try replace (n - 4 + 2) with (n - 2) by lia;
          try replace (n - 5 + 2) with (n - 3) by lia; try replace (n - 6 + 2) with (n - 4) by lia;
          try replace (n - 7 + 2) with (n - 5) by lia; try replace (n - 8 + 2) with (n - 6) by lia;
          try replace (n - 5 + 4) with (n - 1) by lia; try replace (n - 6 + 4) with (n - 2) by lia;
          try replace (n - 7 + 4) with (n - 3) by lia; try replace (n - 8 + 4) with (n - 4) by lia;
          try replace (n - 7 + 6) with (n - 1) by lia; try replace (n - 8 + 6) with (n - 2) by lia.
        + rewrite V1, W1. field. apply Hd; lia.
        + rewrite V2, W2. field. apply Hd; lia.
        + rewrite V3, W3. field. apply Hd; lia.
        + rewrite V4, W4. field. apply Hd; lia.
        + rewrite V5, W5. field. apply Hd; lia.
        + rewrite V6, W6. field. apply Hd; lia.
        + rewrite V7, W7. field. apply Hd; lia.
        + rewrite W8. field. apply Hd; lia.
      - intros i u Hi [H1 H2]. split; intros j Hj.
        + destruct (Nat.eq_dec j i) as [->|].
          * unfold urow. ltbs. upds. rewrite H2 by lia. unfold SolversProofs2.gd.
            field. apply Hd; lia.
          * rewrite <- (H1 j) by lia. unfold urow. upds. reflexivity.
        + upds. apply H2; lia. }
    destruct HP as [H1 _]. intros i Hi. apply H1. lia.
  Qed.

  Lemma pdma_correct n (D : dia) (b : vec) :
    4 <= n -> (forall i, i < n -> pdma_lu K n D 2 i <> f0) ->
    solves n (dia_entry (kind_offsets KPDMA) D) (pdma_solve K n (pdma_lu K n D) b) b.
  Proof.
    intros Hn Hd.
    assert (H : solves n (dia_entry (kind_offsets KHeptaDMA) (ext5 D))
                 (pdma_solve K n (pdma_lu K n D) b) b).
    { apply (hepta_rows K n (ext5 D) (ext5 (pdma_lu K n D)) b
               (penta_forward K n (pdma_lu K n D 0) (pdma_lu K n D 1) b)).
      - apply pdma_lu_fact; auto.
      - intros i Hi. unfold ext5. simpl. apply Hd; lia.
      - intros i Hi. unfold ext5. simpl. apply penta_forward_spec; auto.
      - intros i Hi. unfold ext5. simpl. unfold pdma_solve. cbv zeta.
        apply pdma_back; auto. }
    intros i Hi. rewrite <- (H i Hi). apply fsum_ext. intros j Hj. f_equal.
    unfold dia_entry, kind_offsets, ext5. simpl.
    repeat match goal with |- context [(?a =? ?b)%Z] => destruct (Z.eqb_spec a b); auto end.
  Qed.

  Lemma hepta_correct n (D : dia) (b : vec) :
    8 <= n -> (forall i, i < n -> hepta_lu K n D 2 i <> f0) ->
    solves n (dia_entry (kind_offsets KHeptaDMA) D) (hepta_solve K n (hepta_lu K n D) b) b.
  Proof.
    intros Hn Hd.
    apply (hepta_rows K n D (hepta_lu K n D) b
             (penta_forward K n (hepta_lu K n D 0) (hepta_lu K n D 1) b)).
    - apply hepta_lu_fact; lia.
    - intros i Hi. apply Hd; lia.
    - intros i Hi. apply penta_forward_spec; lia.
    - intros i Hi. unfold hepta_solve. cbv zeta. apply hepta_back; auto.
  Qed.
End P.
