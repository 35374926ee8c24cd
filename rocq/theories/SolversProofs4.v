(** SolversProofs4.v -- pivots, uniqueness, solver objects. *)
From Coq Require Import Arith ZArith List Bool Lia Field.
From Verif Require Import Base Fld SolversModel SolversSpec SolversProofs SolversProofs2 SolversProofs3.
Local Open Scope nat_scope.

Section P.
  Variable K : Fld.
  Add Field KF : (flaws K).
  Notation "x +' y" := (@fadd K x y) (at level 50, left associativity).
  Notation "x -' y" := (@fsub K x y) (at level 50, left associativity).
  Notation "x *' y" := (@fmul K x y) (at level 40, left associativity).
  Notation "x /' y" := (@fdiv K x y) (at level 40, left associativity).
  Notation vec := (nat -> K).
  Notation dia := (nat -> nat -> K).
  Notation gd := (gd K).

  Ltac ltbs :=
    repeat match goal with
    | |- context [Nat.ltb ?a ?b] =>
        first [ rewrite (proj2 (Nat.ltb_lt a b)) by lia
              | rewrite (proj2 (Nat.ltb_ge a b)) by lia ]
    | |- context [Nat.leb ?a ?b] =>
        first [ rewrite (proj2 (Nat.leb_le a b)) by lia
              | rewrite (proj2 (Nat.leb_gt a b)) by lia ]
    end.

  Lemma hepta_fact_mono n m D L : m <= n -> hepta_fact K n D L -> hepta_fact K m D L.
  Proof. intros Hm [H0 H1 H2 H3 H4 H5 H6]. constructor; intros; auto; try (apply H0; lia); try (apply H1; lia);
    try (apply H2; lia); try (apply H3; lia); try (apply H4; lia); try (apply H5; lia). Qed.

  (** kernel vector of an upper triangular band matrix whose last pivot is 0 *)
  Lemma urow_kernel k (d e f g h : vec) :
    (forall i, i < k -> d i <> f0) -> d k = f0 ->
    exists x : vec, x k = f1 /\ forall i, i < S k -> urow K (S k) d e f g h x i = f0.
  Proof.
    intros Hd Hk.
    assert (G : forall m, m <= k -> exists x : vec, x k = f1 /\
       forall i, k - m <= i < S k -> urow K (S k) d e f g h x i = f0).
    { induction m as [|m IH]; intros Hm.
      - exists (fun j => if j =? k then f1 else f0). split.
        + now rewrite Nat.eqb_refl.
        + intros i Hi. replace i with k by lia. unfold urow, SolversProofs2.gd. ltbs.
          rewrite Nat.eqb_refl, Hk. ring.
      - destruct IH as (x & Hx1 & Hx2); [lia|].
        set (i0 := k - S m).
        exists (upd x i0 ((x i0) -' (urow K (S k) d e f g h x i0) /' d i0)). split.
        + upds. auto.
        + intros i Hi. destruct (Nat.eq_dec i i0) as [->|].
          * unfold urow. upds. unfold SolversProofs2.gd.
            destruct (i0 + 2 <? S k); destruct (i0 + 4 <? S k); destruct (i0 + 6 <? S k);
              destruct (i0 + 8 <? S k); field; apply Hd; lia.
          * rewrite <- (Hx2 i) by lia. unfold urow. upds. reflexivity. }
    destruct (G k (le_n k)) as (x & H1 & H2). exists x. split; auto.
    intros i Hi. apply H2. lia.
  Qed.

  Lemma gd_zero c (v : K) : v = f0 -> gd c v = f0.
  Proof. intros ->. destruct c; reflexivity. Qed.

  Lemma hepta_pivots n D L : hepta_fact K n D L ->
    leading_nonsingular n (dia_entry (kind_offsets KHeptaDMA) D) ->
    forall i, i < n -> L 2 i <> f0.
  Proof.
    intros HL HN i. induction i as [i IH] using lt_wf_ind. intros Hi Hz.
    destruct (urow_kernel i (L 2) (fun i => L 3 (i + 2)) (fun i => L 4 (i + 4))
                (fun i => L 5 (i + 6)) (fun i => L 6 (i + 8))) as (x & Hx1 & Hx2); auto.
    { intros j Hj. apply IH; lia. }
    assert (S0 : solves (S i) (dia_entry (kind_offsets KHeptaDMA) D) x (fun _ => f0)).
    { apply (hepta_rows K (S i) D L (fun _ => f0) (fun _ => f0) x).
      - apply hepta_fact_mono with n; auto.
      - intros j Hj. apply IH; lia.
      - intros j Hj. rewrite !gd_zero by ring. ring.
      - exact Hx2. }
    assert (E : x i = f0) by (apply (HN (S i)); auto; lia).
    rewrite Hx1 in E. exact (f1_neq_0 K E).
  Qed.

  (** non-zero pivots give uniqueness *)
  Lemma hepta_unique n D L : hepta_fact K n D L -> (forall i, i < n -> L 2 i <> f0) ->
    leading_nonsingular n (dia_entry (kind_offsets KHeptaDMA) D).
  Proof.
    intros HL Hd k Hk x Hx.
    set (y := urow K k (L 2) (fun i => L 3 (i + 2)) (fun i => L 4 (i + 4))
                (fun i => L 5 (i + 6)) (fun i => L 6 (i + 8)) x).
    set (b := fun i => y i +' gd (2 <=? i) (L 1 (i - 2) *' y (i - 2))
                           +' gd (4 <=? i) (L 0 (i - 4) *' y (i - 4))).
    assert (Sb : solves k (dia_entry (kind_offsets KHeptaDMA) D) x b).
    { apply (hepta_rows K k D L b y x).
      - apply hepta_fact_mono with n; auto.
      - intros i Hi. apply Hd; lia.
      - intros i Hi. unfold b. ring.
      - intros i Hi. reflexivity. }
    assert (Hb : forall i, i < k -> b i = f0).
    { intros i Hi. rewrite <- (Sb i Hi). apply Hx; auto. }
    assert (Hy : forall i, i < k -> y i = f0).
    { intros i. induction i as [i IH] using lt_wf_ind. intros Hi.
      pose proof (Hb i Hi) as E. unfold b in E.
      destruct (Nat.leb_spec 2 i) as [H2|H2];
        [rewrite (IH (i - 2)) in E by lia | ];
        (destruct (Nat.leb_spec 4 i) as [H4|H4]; [rewrite (IH (i - 4)) in E by lia|]);
        unfold SolversProofs2.gd in E; rewrite <- E; ring. }
    assert (G : forall m, forall j, j < k -> k <= j + m -> x j = f0).
    { induction m as [|m IH]; intros j Hj Hm; [lia|].
      destruct (Nat.eq_dec (j + S m) k) as [He|].
      2:{ apply IH; lia. }
      pose proof (Hy j Hj) as E. unfold y, urow in E.
      assert (Z : forall s, 0 < s -> j + s < k -> x (j + s) = f0) by (intros; apply IH; lia).
      apply (fmul_integral K (x j) (L 2 j)).
      - rewrite <- E. unfold SolversProofs2.gd.
        destruct (Nat.ltb_spec (j + 2) k); [rewrite (Z 2) by lia|];
        (destruct (Nat.ltb_spec (j + 4) k); [rewrite (Z 4) by lia|]);
        (destruct (Nat.ltb_spec (j + 6) k); [rewrite (Z 6) by lia|]);
        (destruct (Nat.ltb_spec (j + 8) k); [rewrite (Z 8) by lia|]); ring.
      - apply Hd; lia. }
    intros j Hj. apply (G k); lia.
  Qed.

  Lemma leading_ext n (A B : nat -> nat -> K) :
    (forall i j, i < n -> j < n -> A i j = B i j) ->
    leading_nonsingular n A -> leading_nonsingular n B.
  Proof.
    intros E H k Hk x Hx. apply (H k Hk x). intros i Hi. rewrite <- (Hx i Hi).
    apply fsum_ext. intros j Hj. now rewrite E by lia.
  Qed.

  Lemma solves_ext n (A B : nat -> nat -> K) (x b : vec) :
    (forall i j, i < n -> j < n -> A i j = B i j) ->
    solves n A x b -> solves n B x b.
  Proof.
    intros E H i Hi. rewrite <- (H i Hi). apply fsum_ext. intros j Hj. now rewrite E by lia.
  Qed.

  Lemma nonsingular_unique n (A : nat -> nat -> K) (x y b : vec) :
    leading_nonsingular n A -> solves n A x b -> solves n A y b ->
    forall i, i < n -> x i = y i.
  Proof.
    intros HN Hx Hy i Hi.
    assert (E : (fun j => x j -' y j) i = f0).
    { apply (HN n (le_n n) (fun j => x j -' y j)); auto. intros r Hr.
      rewrite (fsum_ext K n _ (fun j => A r j *' x j -' A r j *' y j)) by (intros; ring).
      rewrite fsum_sub, (Hx r Hr), (Hy r Hr). ring. }
    cbv beta in E. transitivity (x i -' y i +' y i); [ring | rewrite E; ring].
  Qed.

  (** embedding of the narrower storages into the heptadiagonal one *)
  Definition emb1 (D : dia) : dia := fun k j => match k with 2 => D 0 j | _ => f0 end.
  Definition emb2 (D : dia) : dia := fun k j => match k with 2 => D 0 j | 3 => D 1 j | _ => f0 end.
  Definition emb3u (D : dia) : dia :=
    fun k j => match k with 2 => D 0 j | 3 => D 1 j | 4 => D 2 j | _ => f0 end.
  Definition emb3 (D : dia) : dia :=
    fun k j => match k with 1 => D 0 j | 2 => D 1 j | 3 => D 2 j | _ => f0 end.
  Definition emb4 (D : dia) : dia :=
    fun k j => match k with 1 => D 0 j | 2 => D 1 j | 3 => D 2 j | 4 => D 3 j | _ => f0 end.

  Ltac zeqbs := repeat match goal with |- context [(?a =? ?b)%Z] => destruct (Z.eqb_spec a b); auto end.

  Lemma emb1_entry D i j : dia_entry (kind_offsets KHeptaDMA) (emb1 D) i j = dia_entry (kind_offsets KDiagMA) D i j.
  Proof. unfold dia_entry, kind_offsets; simpl. zeqbs; lia. Qed.
  Lemma emb2_entry D i j : dia_entry (kind_offsets KHeptaDMA) (emb2 D) i j = dia_entry (kind_offsets KTwoDMA) D i j.
  Proof. unfold dia_entry, kind_offsets; simpl. zeqbs; lia. Qed.
  Lemma emb3u_entry D i j : dia_entry (kind_offsets KHeptaDMA) (emb3u D) i j = dia_entry (kind_offsets KThreeDMA) D i j.
  Proof. unfold dia_entry, kind_offsets; simpl. zeqbs; lia. Qed.
  Lemma emb3_entry D i j : dia_entry (kind_offsets KHeptaDMA) (emb3 D) i j = dia_entry (kind_offsets KTDMA) D i j.
  Proof. unfold dia_entry, kind_offsets; simpl. zeqbs; lia. Qed.
  Lemma emb4_entry D i j : dia_entry (kind_offsets KHeptaDMA) (emb4 D) i j = dia_entry (kind_offsets KFDMA) D i j.
  Proof. unfold dia_entry, kind_offsets; simpl. zeqbs; lia. Qed.
  Lemma ext5_entry D i j : dia_entry (kind_offsets KHeptaDMA) (ext5 K D) i j = dia_entry (kind_offsets KPDMA) D i j.
  Proof. unfold dia_entry, kind_offsets, ext5; simpl. zeqbs; lia. Qed.

  Lemma emb1_fact n D : (forall i, i < n -> D 0 i <> f0) -> hepta_fact K n (emb1 D) (emb1 D).
  Proof. intros Hd. constructor; intros; unfold emb1, emb2, emb3, emb3u, emb4; cbv beta iota; unfold SolversProofs2.gd;
    repeat match goal with |- context [?a <=? ?b] => destruct (a <=? b) end;
    try ring; field; apply Hd; lia. Qed.
  Lemma emb2_fact n D : (forall i, i < n -> D 0 i <> f0) -> hepta_fact K n (emb2 D) (emb2 D).
  Proof. intros Hd. constructor; intros; unfold emb1, emb2, emb3, emb3u, emb4; cbv beta iota; unfold SolversProofs2.gd;
    repeat match goal with |- context [?a <=? ?b] => destruct (a <=? b) end;
    try ring; field; apply Hd; lia. Qed.
  Lemma emb3u_fact n D : (forall i, i < n -> D 0 i <> f0) -> hepta_fact K n (emb3u D) (emb3u D).
  Proof. intros Hd. constructor; intros; unfold emb1, emb2, emb3, emb3u, emb4; cbv beta iota; unfold SolversProofs2.gd;
    repeat match goal with |- context [?a <=? ?b] => destruct (a <=? b) end;
    try ring; field; apply Hd; lia. Qed.

  Lemma leb_neg_ltb a b : (a <=? b) = negb (b <? a).
  Proof. destruct (Nat.leb_spec a b); destruct (Nat.ltb_spec b a); auto; lia. Qed.

  (** upper triangular: pivots are the diagonal, whatever their value *)
  Lemma upper_pivots n (A : nat -> nat -> K) :
    (forall i j, j < i -> A i j = f0) -> leading_nonsingular n A ->
    forall i, i < n -> A i i <> f0.
  Proof.
    intros HU HN i. induction i as [i IH] using lt_wf_ind. intros Hi Hz.
    assert (G : forall m, m <= i -> exists x : vec, x i = f1 /\ (forall j, i < j -> x j = f0) /\
       forall r, i - m <= r < S i -> fsum (S i) (fun j => A r j *' x j) = f0).
    { induction m as [|m IHm]; intros Hm.
      - exists (fun j => if j =? i then f1 else f0). repeat split.
        + now rewrite Nat.eqb_refl.
        + intros j Hj. rewrite (proj2 (Nat.eqb_neq j i)) by lia. auto.
        + intros r Hr. replace r with i by lia. apply fsum_zero. intros j Hj.
          destruct (Nat.eqb_spec j i) as [->|]; [rewrite Hz|]; ring.
      - destruct IHm as (x & Hx1 & Hx3 & Hx2); [lia|].
        set (r0 := i - S m).
        exists (upd x r0 (x r0 -' fsum (S i) (fun j => A r0 j *' x j) /' A r0 r0)). repeat split.
        + upds. auto.
        + intros j Hj. upds. auto.
        + intros r Hr.
          rewrite (fsum_ext K (S i) _ (fun j => A r j *' x j -'
             (if j =? r0 then A r j *' (fsum (S i) (fun j => A r0 j *' x j) /' A r0 r0) else f0))).
          2:{ intros j Hj. unfold upd. destruct (Nat.eqb_spec j r0) as [->|]; ring. }
          rewrite fsum_sub, fsum_delta. ltbs.
          destruct (Nat.eq_dec r r0) as [->|].
          * field. apply IH; lia.
          * rewrite (Hx2 r) by lia. rewrite (HU r r0) by lia. ring. }
    destruct (G i (le_n i)) as (x & Hx1 & _ & Hx2).
    apply (f1_neq_0 K). rewrite <- Hx1. apply (HN (S i)); try lia.
    intros r Hr. apply Hx2; lia.
  Qed.

  Lemma tdma_fact n D : hepta_fact K n (emb3 D) (emb3 (tdma_lu K n D)).
  Proof.
    destruct (tdma_lu_spec K n D) as (H2 & H0 & H1).
    constructor; intros; unfold emb1, emb2, emb3, emb3u, emb4; cbv beta iota; unfold SolversProofs2.gd; rewrite ?leb_neg_ltb.
    - unfold fdiv. rewrite (Fdiv_def (flaws K)). ring.
    - rewrite H0 by lia. destruct (j <? 2); simpl; rewrite !(Fdiv_def (flaws K)); ring.
    - rewrite (H1 j) by lia. rewrite H2. destruct (j <? 2); destruct (j <? 4); simpl; ring.
    - rewrite H2. destruct (j <? 6); destruct (j <? 4); simpl; ring.
    - destruct (j <? 6); destruct (j <? 8); simpl; ring.
    - destruct (j <? 8); simpl; ring.
    - ring.
  Qed.

  Lemma fdma_fact n D : hepta_fact K n (emb4 D) (emb4 (fdma_lu K n D)).
  Proof.
    destruct (fdma_lu_spec K n D) as (H3 & H0 & H1 & H2).
    constructor; intros; unfold emb1, emb2, emb3, emb3u, emb4; cbv beta iota; unfold SolversProofs2.gd; rewrite ?leb_neg_ltb.
    - rewrite (Fdiv_def (flaws K)). ring.
    - rewrite H0 by lia. destruct (j <? 2); simpl; rewrite !(Fdiv_def (flaws K)); ring.
    - rewrite (H1 j) by lia. destruct (j <? 2); destruct (j <? 4); simpl; ring.
    - rewrite (H2 j) by lia. rewrite H3. destruct (j <? 6); destruct (j <? 4); simpl; ring.
    - rewrite H3. destruct (j <? 6); destruct (j <? 8); simpl; ring.
    - destruct (j <? 8); simpl; ring.
    - ring.
  Qed.

  Lemma tdma_pivots n D : leading_nonsingular n (dia_entry (kind_offsets KTDMA) D) ->
    forall i, i < n -> tdma_lu K n D 1 i <> f0.
  Proof.
    intros H i Hi. apply (hepta_pivots n (emb3 D) (emb3 (tdma_lu K n D)) (tdma_fact n D)); auto.
    eapply leading_ext; [|exact H]. intros. symmetry. apply emb3_entry.
  Qed.
  Lemma fdma_pivots n D : leading_nonsingular n (dia_entry (kind_offsets KFDMA) D) ->
    forall i, i < n -> fdma_lu K n D 1 i <> f0.
  Proof.
    intros H i Hi. apply (hepta_pivots n (emb4 D) (emb4 (fdma_lu K n D)) (fdma_fact n D)); auto.
    eapply leading_ext; [|exact H]. intros. symmetry. apply emb4_entry.
  Qed.
  Lemma pdma_pivots n D : 4 <= n -> leading_nonsingular n (dia_entry (kind_offsets KPDMA) D) ->
    forall i, i < n -> pdma_lu K n D 2 i <> f0.
  Proof.
    intros Hn H i Hi. apply (hepta_pivots n (ext5 K D) (ext5 K (pdma_lu K n D)) (pdma_lu_fact K n D Hn)); auto.
    eapply leading_ext; [|exact H]. intros. symmetry. apply ext5_entry.
  Qed.

  (** TDMA_O *)
  Lemma tdmao_rows n (D L : dia) (b y x : vec) :
    (forall j, L 2 j = D 2 j) ->
    (forall j, j < n - 1 -> L 0 j = D 0 j /' L 1 j) ->
    (forall j, j < n -> L 1 j = if Nat.ltb j 1 then D 1 j else D 1 j -' L 0 (j - 1) *' D 2 j) ->
    (forall i, i + 1 < n -> L 1 i <> f0) ->
    (forall i, i < n -> y i = if Nat.ltb i 1 then b i else b i -' L 0 (i - 1) *' y (i - 1)) ->
    (forall i, i < n -> L 1 i *' x i +' (if Nat.ltb (i + 1) n then L 2 (i + 1) *' x (i + 1) else f0) = y i) ->
    solves n (dia_entry (kind_offsets KTDMA_O) D) x b.
  Proof.
    intros H2 H0 H1 Hd HF HB i Hi. unfold dia_entry, kind_offsets.
    rewrite dia_row by (repeat constructor; simpl; intuition lia).
    simpl row_terms. change 0%Z with (Z.of_nat 0). change 1%Z with (Z.of_nat 1).
    change (-1)%Z with (- Z.of_nat 1)%Z.
    rewrite !row_term_up, row_term_dn, Nat.add_0_r by lia.
    rewrite (proj2 (Nat.ltb_lt i n)) by lia.
    pose proof (HF i Hi) as HFi. pose proof (HB i Hi) as HBi. rewrite H2 in HBi.
    destruct (Nat.leb_spec 1 i) as [Hi2|Hi2].
    - rewrite (proj2 (Nat.ltb_ge i 1)) in HFi by lia.
      pose proof (HB (i - 1) ltac:(lia)) as HBm.
      rewrite (proj2 (Nat.ltb_lt (i - 1 + 1) n)) in HBm by lia.
      rewrite H2 in HBm.
      pose proof (H1 i Hi) as H1i. rewrite (proj2 (Nat.ltb_ge i 1)) in H1i by lia.
      assert (H0i : D 0 (i - 1) = L 0 (i - 1) *' L 1 (i - 1)).
      { rewrite H0 by lia. field. apply Hd; lia. }
      assert (H1i' : D 1 i = L 1 i +' L 0 (i - 1) *' D 2 i) by (rewrite H1i; ring).
      replace (i - 1 + 1) with i in * by lia.
      rewrite H0i, H1i'.
      transitivity (L 0 (i - 1) *' (L 1 (i - 1) *' x (i - 1) +' D 2 i *' x i)
        +' (L 1 i *' x i +' (if (i + 1 <? n)%nat then D 2 (i + 1) *' x (i + 1) else f0))).
      { destruct (i + 1 <? n)%nat; ring. }
      rewrite HBm, HBi, HFi. ring.
    - rewrite (proj2 (Nat.ltb_lt i 1)) in HFi by lia.
      pose proof (H1 i Hi) as H1i. rewrite (proj2 (Nat.ltb_lt i 1)) in H1i by lia.
      rewrite <- H1i, <- HFi, <- HBi. ring.
  Qed.

  Lemma tdmao_pivots n D : leading_nonsingular n (dia_entry (kind_offsets KTDMA_O) D) ->
    forall i, i < n -> tdmao_lu K n D 1 i <> f0.
  Proof.
    intros HN. destruct (tdmao_lu_spec K n D) as (H2 & H0 & H1).
    set (L := tdmao_lu K n D) in *.
    intros i. induction i as [i IH] using lt_wf_ind. intros Hi Hz.
    assert (G : forall m, m <= i -> exists x : vec, x i = f1 /\
       forall r, i - m <= r < S i ->
         L 1 r *' x r +' (if Nat.ltb (r + 1) (S i) then L 2 (r + 1) *' x (r + 1) else f0) = f0).
    { induction m as [|m IHm]; intros Hm.
      - exists (fun j => if j =? i then f1 else f0). split.
        + now rewrite Nat.eqb_refl.
        + intros r Hr. replace r with i by lia. ltbs. rewrite Nat.eqb_refl, Hz. ring.
      - destruct IHm as (x & Hx1 & Hx2); [lia|].
        set (r0 := i - S m).
        exists (upd x r0 (fopp (L 2 (r0 + 1) *' x (r0 + 1)) /' L 1 r0)). split.
        + upds. auto.
        + intros r Hr. destruct (Nat.eq_dec r r0) as [->|].
          * ltbs. upds. field. apply IH; lia.
          * etransitivity; [|apply (Hx2 r); lia]. upds. reflexivity. }
    destruct (G i (le_n i)) as (x & Hx1 & Hx2).
    apply (f1_neq_0 K). rewrite <- Hx1.
    apply (HN (S i)); try lia.
    apply (tdmao_rows (S i) D L (fun _ => f0) (fun _ => f0) x); auto.
    - intros. apply H0; lia.
    - intros. apply H1; lia.
    - intros. apply IH; lia.
    - intros r Hr. destruct (r <? 1); ring.
    - intros r Hr. apply Hx2. lia.
  Qed.

  Lemma tdmao_nonsing n D : (forall i, i < n -> tdmao_lu K n D 1 i <> f0) ->
    leading_nonsingular n (dia_entry (kind_offsets KTDMA_O) D).
  Proof.
    intros Hd k Hk x Hx. destruct (tdmao_lu_spec K n D) as (H2 & H0 & H1).
    set (L := tdmao_lu K n D) in *.
    set (y := fun i => L 1 i *' x i +' (if Nat.ltb (i + 1) k then L 2 (i + 1) *' x (i + 1) else f0)).
    set (b := fun i => if Nat.ltb i 1 then y i else y i +' L 0 (i - 1) *' y (i - 1)).
    assert (Sb : solves k (dia_entry (kind_offsets KTDMA_O) D) x b).
    { apply (tdmao_rows k D L b y x); auto.
      - intros; apply H0; lia.
      - intros; apply H1; lia.
      - intros; apply Hd; lia.
      - intros i Hi. unfold b. destruct (i <? 1); auto; ring. }
    assert (Hb : forall i, i < k -> b i = f0).
    { intros i Hi. rewrite <- (Sb i Hi). apply Hx; auto. }
    assert (Hy : forall i, i < k -> y i = f0).
    { intros i. induction i as [i IH] using lt_wf_ind. intros Hi.
      pose proof (Hb i Hi) as E. unfold b in E.
      destruct (Nat.ltb_spec i 1); auto. rewrite (IH (i - 1)) in E by lia. rewrite <- E. ring. }
    assert (G : forall m, forall j, j < k -> k <= j + m -> x j = f0).
    { induction m as [|m IH]; intros j Hj Hm; [lia|].
      destruct (Nat.eq_dec (j + S m) k) as [He|].
      2:{ apply IH; lia. }
      pose proof (Hy j Hj) as E. unfold y in E.
      apply (fmul_integral K (x j) (L 1 j)).
      - rewrite <- E. destruct (Nat.ltb_spec (j + 1) k); [rewrite (IH (j + 1)) by lia|]; ring.
      - apply Hd; lia. }
    intros j Hj. apply (G k); lia.
  Qed.
End P.
