From Coq Require Import Arith ZArith List Bool Lia Field.
From Verif Require Import Base Fld SolversModel SolversSpec SolversProofs.
Local Open Scope nat_scope.

Section P.
  Variable K : Fld.
  Add Field KF : (flaws K).
  Notation "x +' y" := (@fadd K x y) (at level 50, left associativity).
  Notation "x -' y" := (@fsub K x y) (at level 50, left associativity).
  Notation "x *' y" := (@fmul K x y) (at level 40, left associativity).
  Notation "x /' y" := (@fdiv K x y) (at level 40, left associativity).
  Notation vec := (nat -> K).
  Notation dia := (nat -> nat -> K).

  Definition gd (c : bool) (v : K) : K := if c then v else f0.

  Ltac ltbs :=
    repeat match goal with
    | |- context [Nat.ltb ?a ?b] =>
        first [ rewrite (proj2 (Nat.ltb_lt a b)) by lia
              | rewrite (proj2 (Nat.ltb_ge a b)) by lia ]
    | |- context [Nat.leb ?a ?b] =>
        first [ rewrite (proj2 (Nat.leb_le a b)) by lia
              | rewrite (proj2 (Nat.leb_gt a b)) by lia ]
    end.
  Ltac ltbs_in H :=
    repeat match type of H with
    | context [Nat.ltb ?a ?b] =>
        first [ rewrite (proj2 (Nat.ltb_lt a b)) in H by lia
              | rewrite (proj2 (Nat.ltb_ge a b)) in H by lia ]
    | context [Nat.leb ?a ?b] =>
        first [ rewrite (proj2 (Nat.leb_le a b)) in H by lia
              | rewrite (proj2 (Nat.leb_gt a b)) in H by lia ]
    end.

  (** ** general back substitution with super-diagonals 2, 4, 6, 8 *)
  Definition urow (n : nat) (d e f g h x : vec) (i : nat) : K :=
    d i *' x i +' gd (i + 2 <? n) (e i *' x (i + 2)) +' gd (i + 4 <? n) (f i *' x (i + 4))
    +' gd (i + 6 <? n) (g i *' x (i + 6)) +' gd (i + 8 <? n) (h i *' x (i + 8)).

  Lemma back3_spec n (d u1 u2 y : vec) : 4 <= n -> (forall i, i < n -> d i <> f0) ->
    forall i, i < n ->
      urow n d u1 u2 (fun _ => f0) (fun _ => f0) (back3 K n d u1 u2 y) i = y i.
  Proof.
    intros Hn Hd.
    set (P := fun (i : nat) (u : vec) =>
      (forall j, i <= j < n -> urow n d u1 u2 (fun _ => f0) (fun _ => f0) u j = y j) /\
      (forall j, j < i -> u j = y j)).
    assert (HP : P 0 (back3 K n d u1 u2 y)).
    { unfold back3. cbv zeta. apply for_down_inv; unfold P.
      - split; intros j Hj.
        + unfold urow.
          assert (Hc : j = n - 1 \/ j = n - 2 \/ j = n - 3 \/ j = n - 4) by lia.
          destruct Hc as [-> | [-> | [-> | ->]]]; ltbs; unfold gd; upds; field; repeat split; apply Hd; lia.
        + upds. reflexivity.
      - intros i u Hi [H1 H2]. split; intros j Hj.
        + destruct (Nat.eq_dec j i) as [->|].
          * unfold urow. ltbs. upds. rewrite H2 by lia. unfold gd.
            destruct (i + 6 <? n); destruct (i + 8 <? n); field; repeat split; apply Hd; lia.
          * rewrite <- (H1 j) by lia. unfold urow. upds. reflexivity.
        + upds. apply H2; lia. }
    destruct HP as [H1 _]. intros i Hi. apply H1. lia.
  Qed.

  (** ** FDMA *)
  Lemma fdma_lu_spec n (D : dia) :
    let L := fdma_lu K n D in
    (forall j, L 3 j = D 3 j) /\
    (forall j, j < n - 2 -> L 0 j = D 0 j /' L 1 j) /\
    (forall j, j < n -> L 1 j = if Nat.ltb j 2 then D 1 j else D 1 j -' L 0 (j - 2) *' L 2 j) /\
    (forall j, j < n -> L 2 j = if Nat.ltb j 4 then D 2 j else D 2 j -' L 0 (j - 4) *' D 3 j).
  Proof.
    intros L.
    set (P := fun (i : nat) (L : dia) =>
      (forall j, L 3 j = D 3 j) /\
      (forall j, j < i - 2 -> L 0 j = D 0 j /' L 1 j) /\
      (forall j, i - 2 <= j -> L 0 j = D 0 j) /\
      (forall j, j < i -> L 1 j = if Nat.ltb j 2 then D 1 j else D 1 j -' L 0 (j - 2) *' L 2 j) /\
      (forall j, i <= j -> L 1 j = D 1 j) /\
      (forall j, j < n -> j < i + 2 -> L 2 j = if Nat.ltb j 4 then D 2 j else D 2 j -' L 0 (j - 4) *' D 3 j) /\
      (forall j, i + 2 <= j -> L 2 j = D 2 j)).
    assert (HP : P (2 + (n - 2)) L).
    { unfold L, fdma_lu. apply for_up_inv; unfold P.
      - repeat split; intros; auto; try lia; ltbs; auto.
      - intros i M Hi (H1 & H2 & H3 & H4 & H5 & H6 & H7). cbv zeta.
        destruct (Nat.ltb_spec i (n - 2)) as [Hb|Hb].
        + repeat split; intros j; [|intros Hj..].
          * upds. apply H1.
          * destruct (Nat.eq_dec j (i - 2)) as [->|]; upds; [now rewrite H3 by lia | apply H2; lia].
          * upds. apply H3; lia.
          * destruct (Nat.eq_dec j i) as [->|].
            -- ltbs. upds. rewrite H5 by lia. replace (i - 2 + 2) with i by lia. reflexivity.
            -- destruct (Nat.ltb_spec j 2); upds; rewrite H4 by lia; ltbs; reflexivity.
          * upds. apply H5; lia.
          * intros Hj'. destruct (Nat.eq_dec j (i + 2)) as [->|].
            -- ltbs. upds. rewrite H7 by lia. rewrite H1.
               replace (i - 2 + 4) with (i + 2) by lia. reflexivity.
            -- destruct (Nat.ltb_spec j 4); upds; rewrite H6 by lia; ltbs; reflexivity.
          * upds. apply H7; lia.
        + repeat split; intros j; [|intros Hj..].
          * upds. apply H1.
          * destruct (Nat.eq_dec j (i - 2)) as [->|]; upds; [now rewrite H3 by lia | apply H2; lia].
          * upds. apply H3; lia.
          * destruct (Nat.eq_dec j i) as [->|].
            -- ltbs. upds. rewrite H5 by lia. replace (i - 2 + 2) with i by lia. reflexivity.
            -- destruct (Nat.ltb_spec j 2); upds; rewrite H4 by lia; ltbs; reflexivity.
          * upds. apply H5; lia.
          * intros Hj'. destruct (Nat.ltb_spec j 4); upds; rewrite H6 by lia; ltbs; reflexivity.
          * upds. apply H7; lia. }
    destruct HP as (H1 & H2 & H3 & H4 & H5 & H6 & H7).
    repeat split; intros; auto.
    - apply H2; lia.
    - apply H4; lia.
    - apply H6; lia.
  Qed.

  Lemma fdma_correct n (D : dia) (b : vec) :
    4 <= n -> (forall i, i < n -> fdma_lu K n D 1 i <> f0) ->
    solves n (dia_entry (kind_offsets KFDMA) D) (fdma_solve K n (fdma_lu K n D) b) b.
  Proof.
    intros Hn Hd i Hi. unfold dia_entry, kind_offsets.
    rewrite dia_row by (repeat constructor; simpl; intuition lia).
    simpl row_terms. change 0%Z with (Z.of_nat 0). change 2%Z with (Z.of_nat 2).
    change 4%Z with (Z.of_nat 4). change (-2)%Z with (- Z.of_nat 2)%Z.
    rewrite !row_term_up, row_term_dn, Nat.add_0_r by lia.
    rewrite (proj2 (Nat.ltb_lt i n)) by lia.
    destruct (fdma_lu_spec n D) as (H3 & H0 & H1 & H2).
    set (L := fdma_lu K n D) in *.
    pose proof (forward1 K 2 n (L 0) b ltac:(lia)) as HF. cbv zeta in HF.
    unfold fdma_solve. cbv zeta.
    set (y := for_up (n - 2) 2 _ b) in *.
    pose proof (back3_spec n (L 1) (fun i => L 2 (i + 2)) (fun i => L 3 (i + 4)) y Hn Hd) as HB.
    set (x := back3 _ _ _ _ _ _) in *. unfold urow in HB.
    pose proof (HF i Hi) as HFi. pose proof (HB i Hi) as HBi. rewrite H3 in HBi.
    destruct (Nat.leb_spec 2 i) as [Hi2|Hi2].
    - ltbs_in HFi. pose proof (HB (i - 2) ltac:(lia)) as HBm. rewrite H3 in HBm.
      pose proof (H1 i Hi) as H1i. ltbs_in H1i.
      assert (H0i : D 0 (i - 2) = L 0 (i - 2) *' L 1 (i - 2)).
      { rewrite H0 by lia. field. apply Hd; lia. }
      assert (H1i' : D 1 i = L 1 i +' L 0 (i - 2) *' L 2 i) by (rewrite H1i; ring).
      rewrite H0i, H1i'.
      replace (i - 2 + 2) with i in * by lia.
      replace (i - 2 + 4) with (i + 2) in * by lia.
      replace (i - 2 + 6) with (i + 4) in * by lia.
      rewrite (proj2 (Nat.ltb_lt i n)) in HBm by lia.
      transitivity (y i +' L 0 (i - 2) *' y (i - 2)); [| rewrite HFi; ring].
      rewrite <- HBi, <- HBm. unfold gd.
      destruct (Nat.ltb_spec (i + 2) n) as [Hc|Hc].
      + pose proof (H2 (i + 2) Hc) as H2i. ltbs_in H2i. replace (i + 2 - 4) with (i - 2) in H2i by lia.
        assert (H2i' : D 2 (i + 2) = L 2 (i + 2) +' L 0 (i - 2) *' D 3 (i + 2)) by (rewrite H2i; ring).
        rewrite H2i'.
        destruct (i + 4 <? n); destruct (i + 6 <? n); destruct (i + 8 <? n); destruct (i - 2 + 8 <? n); ring.
      + ltbs. ring.
    - ltbs_in HFi. pose proof (H1 i Hi) as H1i. ltbs_in H1i.
      rewrite <- H1i, <- HFi, <- HBi. unfold gd.
      destruct (Nat.ltb_spec (i + 2) n) as [Hc|Hc].
      + pose proof (H2 (i + 2) Hc) as H2i. ltbs_in H2i. rewrite H2i.
        destruct (i + 4 <? n); destruct (i + 6 <? n); destruct (i + 8 <? n); ring.
      + ltbs. ring.
  Qed.

  (** ** ThreeDMA with the third diagonal actually read from the third storage row *)
  Lemma threedma_fixed_correct n (D : dia) (b : vec) :
    4 <= n -> (forall i, i < n -> D 0 i <> f0) ->
    solves n (dia_entry (kind_offsets KThreeDMA) D) (threedma_solve_fixed K n D b) b.
  Proof.
    intros Hn Hd i Hi. unfold dia_entry, kind_offsets.
    rewrite dia_row by (repeat constructor; simpl; intuition lia).
    simpl row_terms. change 0%Z with (Z.of_nat 0). change 2%Z with (Z.of_nat 2).
    change 4%Z with (Z.of_nat 4).
    rewrite !row_term_up, Nat.add_0_r by lia.
    rewrite (proj2 (Nat.ltb_lt i n)) by lia.
    pose proof (back3_spec n (D 0) (fun i => D 1 (i + 2)) (fun i => D 2 (i + 4)) b Hn Hd i Hi) as HB.
    unfold threedma_solve_fixed. etransitivity; [|exact HB]. unfold urow, gd.
    destruct (i + 2 <? n); destruct (i + 4 <? n); destruct (i + 6 <? n); destruct (i + 8 <? n); ring.
  Qed.

  (** ** PDMA and HeptaDMA *)
  Lemma subm_same (D : dia) k c lam k2 c2 : subm K D k c lam k2 c2 k c = D k c -' lam *' D k2 c2.
  Proof. apply upd2_same. Qed.
  Lemma subm_other (D : dia) k c lam k2 c2 k' j :
    (k' <> k \/ j <> c) -> subm K D k c lam k2 c2 k' j = D k' j.
  Proof. apply upd2_other. Qed.

  Ltac rd_step :=
    match goal with
    | |- context [subm K ?D ?k ?c ?lam ?k2 ?c2 ?k' ?j] =>
        first [ rewrite (subm_other D k c lam k2 c2 k' j) by lia
              | replace (subm K D k c lam k2 c2 k' j) with (D k c -' lam *' D k2 c2) by
                  (replace k' with k by lia; replace j with c by lia; symmetry; apply subm_same) ]
    | |- context [upd2 ?a ?k ?i ?v ?k' ?j] =>
        first [ rewrite (upd2_other a k i v k' j) by lia
              | replace (upd2 a k i v k' j) with v by
                (replace k' with k by lia; replace j with i by lia; symmetry; apply upd2_same) ]
    end.
  Ltac rds := repeat rd_step.

  (** what the factor storage satisfies when the decomposition is complete *)
  Record hepta_fact (n : nat) (D L : dia) : Prop := {
    hf0 : forall j, j < n - 4 -> L 0 j = D 0 j /' L 2 j;
    hf1 : forall j, j < n - 2 -> L 1 j = (D 1 j -' gd (2 <=? j) (L 0 (j - 2) *' L 3 j)) /' L 2 j;
    hf2 : forall j, j < n -> L 2 j = D 2 j -' gd (4 <=? j) (L 0 (j - 4) *' L 4 j)
                                        -' gd (2 <=? j) (L 1 (j - 2) *' L 3 j);
    hf3 : forall j, j < n -> L 3 j = D 3 j -' gd (6 <=? j) (L 0 (j - 6) *' L 5 j)
                                        -' gd (4 <=? j) (L 1 (j - 4) *' L 4 j);
    hf4 : forall j, j < n -> L 4 j = D 4 j -' gd (8 <=? j) (L 0 (j - 8) *' L 6 j)
                                        -' gd (6 <=? j) (L 1 (j - 6) *' L 5 j);
    hf5 : forall j, j < n -> L 5 j = D 5 j -' gd (8 <=? j) (L 1 (j - 8) *' L 6 j);
    hf6 : forall j, L 6 j = D 6 j
  }.

  (** forward substitution *)
  Lemma penta_forward_spec n (a b u : vec) : 4 <= n ->
    forall i, i < n ->
      penta_forward K n a b u i
      = u i -' gd (2 <=? i) (b (i - 2) *' penta_forward K n a b u (i - 2))
            -' gd (4 <=? i) (a (i - 4) *' penta_forward K n a b u (i - 4)).
  Proof.
    intros Hn.
    set (P := fun (i : nat) (y : vec) =>
      (forall j, j < i -> y j = u j -' gd (2 <=? j) (b (j - 2) *' y (j - 2))
                                    -' gd (4 <=? j) (a (j - 4) *' y (j - 4))) /\
      (forall j, i <= j -> y j = u j)).
    assert (HP : P (4 + (n - 4)) (penta_forward K n a b u)).
    { unfold penta_forward. cbv zeta. apply for_up_inv; unfold P.
      - split; intros j Hj.
        + assert (Hc : j = 0 \/ j = 1 \/ j = 2 \/ j = 3) by lia.
          destruct Hc as [-> | [-> | [-> | ->]]]; ltbs; unfold gd; simpl; upds; ring.
        + upds. reflexivity.
      - intros i y Hi [H1 H2]. split; intros j Hj.
        + destruct (Nat.eq_dec j i) as [->|].
          * ltbs. unfold gd. upds. rewrite H2 by lia. ring.
          * upds. rewrite H1 at 1 by lia.
            destruct (Nat.leb_spec 2 j); destruct (Nat.leb_spec 4 j); unfold gd; upds; reflexivity.
        + upds. apply H2; lia. }
    destruct HP as [H1 _]. intros i Hi. apply H1. lia.
  Qed.

  Ltac shifts i :=
    replace (i - 2 + 2) with i by lia; replace (i - 2 + 4) with (i + 2) by lia;
    replace (i - 2 + 6) with (i + 4) by lia; replace (i - 2 + 8) with (i + 6) by lia;
    try replace (i - 4 + 2) with (i - 2) by lia; try replace (i - 4 + 4) with i by lia;
    try replace (i - 4 + 6) with (i + 2) by lia; try replace (i - 4 + 8) with (i + 4) by lia.
  Ltac fin n i E3 E4 E5 :=
    destruct (Nat.ltb_spec (i + 2) n) as [C2|C2]; [rewrite (E3 C2)|];
    (destruct (Nat.ltb_spec (i + 4) n) as [C4|C4]; try rewrite (E4 C4));
    (destruct (Nat.ltb_spec (i + 6) n) as [C6|C6]; try rewrite (E5 C6));
    (destruct (Nat.ltb_spec (i + 8) n) as [C8|C8]);
    first [ring | exfalso; lia].

  (** from factorisation + forward + backward substitution to the full row equation *)
  Lemma hepta_rows n (D L : dia) (b y x : vec) :
    hepta_fact n D L ->
    (forall i, i + 1 < n -> L 2 i <> f0) ->
    (forall i, i < n -> y i = b i -' gd (2 <=? i) (L 1 (i - 2) *' y (i - 2))
                                  -' gd (4 <=? i) (L 0 (i - 4) *' y (i - 4))) ->
    (forall i, i < n -> urow n (L 2) (fun i => L 3 (i + 2)) (fun i => L 4 (i + 4))
                             (fun i => L 5 (i + 6)) (fun i => L 6 (i + 8)) x i = y i) ->
    solves n (dia_entry (kind_offsets KHeptaDMA) D) x b.
  Proof.
    intros HL Hd HF HB i Hi. unfold dia_entry, kind_offsets.
    rewrite dia_row by (repeat constructor; simpl; intuition lia).
    simpl row_terms. change 0%Z with (Z.of_nat 0). change 2%Z with (Z.of_nat 2).
    change 4%Z with (Z.of_nat 4). change 6%Z with (Z.of_nat 6). change 8%Z with (Z.of_nat 8).
    change (-2)%Z with (- Z.of_nat 2)%Z. change (-4)%Z with (- Z.of_nat 4)%Z.
    rewrite !row_term_up, !row_term_dn, Nat.add_0_r by lia.
    rewrite (proj2 (Nat.ltb_lt i n)) by lia.
    assert (E2 : D 2 i = L 2 i +' gd (4 <=? i) (L 0 (i - 4) *' L 4 i)
                             +' gd (2 <=? i) (L 1 (i - 2) *' L 3 i)).
    { rewrite (hf2 _ _ _ HL i Hi). ring. }
    assert (E3 : i + 2 < n -> D 3 (i + 2) = L 3 (i + 2) +' gd (4 <=? i) (L 0 (i - 4) *' L 5 (i + 2))
                             +' gd (2 <=? i) (L 1 (i - 2) *' L 4 (i + 2))).
    { intros Hc. pose proof (hf3 _ _ _ HL (i + 2) Hc) as E.
      replace (6 <=? i + 2) with (4 <=? i) in E by (destruct (Nat.leb_spec 4 i); ltbs; auto).
      replace (4 <=? i + 2) with (2 <=? i) in E by (destruct (Nat.leb_spec 2 i); ltbs; auto).
      replace (i + 2 - 6) with (i - 4) in E by lia. replace (i + 2 - 4) with (i - 2) in E by lia.
      rewrite E. ring. }
    assert (E4 : i + 4 < n -> D 4 (i + 4) = L 4 (i + 4) +' gd (4 <=? i) (L 0 (i - 4) *' L 6 (i + 4))
                             +' gd (2 <=? i) (L 1 (i - 2) *' L 5 (i + 4))).
    { intros Hc. pose proof (hf4 _ _ _ HL (i + 4) Hc) as E.
      replace (8 <=? i + 4) with (4 <=? i) in E by (destruct (Nat.leb_spec 4 i); ltbs; auto).
      replace (6 <=? i + 4) with (2 <=? i) in E by (destruct (Nat.leb_spec 2 i); ltbs; auto).
      replace (i + 4 - 8) with (i - 4) in E by lia. replace (i + 4 - 6) with (i - 2) in E by lia.
      rewrite E. ring. }
    assert (E5 : i + 6 < n -> D 5 (i + 6) = L 5 (i + 6) +' gd (2 <=? i) (L 1 (i - 2) *' L 6 (i + 6))).
    { intros Hc. pose proof (hf5 _ _ _ HL (i + 6) Hc) as E.
      replace (8 <=? i + 6) with (2 <=? i) in E by (destruct (Nat.leb_spec 2 i); ltbs; auto).
      replace (i + 6 - 8) with (i - 2) in E by lia.
      rewrite E. ring. }
    assert (E0 : 4 <= i -> D 0 (i - 4) = L 0 (i - 4) *' L 2 (i - 4)).
    { intros. rewrite (hf0 _ _ _ HL) by lia. field. apply Hd; lia. }
    assert (E1 : 2 <= i -> D 1 (i - 2) = L 1 (i - 2) *' L 2 (i - 2)
                                       +' gd (4 <=? i) (L 0 (i - 4) *' L 3 (i - 2))).
    { intros. rewrite (hf1 _ _ _ HL) by lia.
      replace (2 <=? i - 2) with (4 <=? i) by (destruct (Nat.leb_spec 4 i); ltbs; auto).
      replace (i - 2 - 2) with (i - 4) by lia. field. apply Hd; lia. }
    rewrite E2. rewrite <- !(hf6 _ _ _ HL).
    transitivity (y i +' gd (2 <=? i) (L 1 (i - 2) *' y (i - 2))
                      +' gd (4 <=? i) (L 0 (i - 4) *' y (i - 4)));
      [| rewrite (HF i Hi); ring].
    rewrite <- (HB i Hi).
    assert (Hc3 : i < 2 \/ 2 <= i < 4 \/ 4 <= i) by lia.
    destruct Hc3 as [H2 | [H2 | H4]].
    - ltbs. ltbs_in E3. ltbs_in E4. ltbs_in E5. unfold urow, gd in *. fin n i E3 E4 E5.
    - ltbs. ltbs_in E3. ltbs_in E4. ltbs_in E5. specialize (E1 ltac:(lia)). ltbs_in E1.
      rewrite <- (HB (i - 2)) by lia. rewrite E1. unfold urow, gd in *. shifts i. ltbs. fin n i E3 E4 E5.
    - ltbs. ltbs_in E3. ltbs_in E4. ltbs_in E5. specialize (E1 ltac:(lia)). ltbs_in E1.
      specialize (E0 ltac:(lia)).
      rewrite <- (HB (i - 2)) by lia. rewrite <- (HB (i - 4)) by lia.
      rewrite E1, E0. unfold urow, gd in *. shifts i. ltbs. fin n i E3 E4 E5.
  Qed.
End P.
