From Coq Require Import Arith ZArith List Bool Lia Field.
From Verif Require Import Base Fld SolversModel SolversSpec.
Local Open Scope nat_scope.

Section P.
  Variable K : Fld.
  Add Field KF : (flaws K).
  Notation "x +' y" := (@fadd K x y) (at level 50, left associativity).
  Notation "x -' y" := (@fsub K x y) (at level 50, left associativity).
  Notation "x *' y" := (@fmul K x y) (at level 40, left associativity).
  Notation "x /' y" := (@fdiv K x y) (at level 40, left associativity).
  Notation vec := (nat -> K).
  Notation dia := (nat -> nat -> K).

  (** one diagonal's contribution to row i of A x *)
  Definition row_term (n : nat) (o : Z) (r x : vec) (i : nat) : K :=
    let c := (Z.of_nat i + o)%Z in
    if ((0 <=? c) && (c <? Z.of_nat n))%Z then r (Z.to_nat c) *' x (Z.to_nat c) else f0.

  Fixpoint row_terms (n : nat) (k : nat) (offs : list Z) (D : dia) (x : vec) (i : nat) : K :=
    match offs with
    | nil => f0
    | o :: offs => row_term n o (D k) x i +' row_terms n (S k) offs D x i
    end.

  Lemma row_term_sum n o (r x : vec) i :
    fsum n (fun j => if (Z.of_nat j - Z.of_nat i =? o)%Z then r j *' x j else f0)
    = row_term n o r x i.
  Proof.
    unfold row_term. cbv zeta.
    destruct (Z.leb_spec 0 (Z.of_nat i + o)%Z) as [H0|H0]; simpl.
    - rewrite (fsum_ext K n _ (fun j => if Nat.eqb j (Z.to_nat (Z.of_nat i + o))
                                       then r j *' x j else f0)).
      + rewrite fsum_delta.
        destruct (Nat.ltb_spec (Z.to_nat (Z.of_nat i + o)) n);
          destruct (Z.ltb_spec (Z.of_nat i + o)%Z (Z.of_nat n)); auto; lia.
      + intros j Hj.
        destruct (Nat.eqb_spec j (Z.to_nat (Z.of_nat i + o)));
          destruct (Z.eqb_spec (Z.of_nat j - Z.of_nat i)%Z o); auto; lia.
    - apply fsum_zero. intros j Hj.
      destruct (Z.eqb_spec (Z.of_nat j - Z.of_nat i)%Z o); auto; lia.
  Qed.

  Lemma dia_row n offs : forall k (D : dia) (x : vec) i,
    NoDup offs ->
    fsum n (fun j => dia_entry_from k offs D i j *' x j) = row_terms n k offs D x i.
  Proof.
    induction offs as [|o offs IH]; intros k D x i Hnd; simpl.
    - apply fsum_zero. intros; ring.
    - inversion Hnd as [|? ? Hnin Hnd']; subst.
      rewrite <- (IH (S k) D x i Hnd'), <- row_term_sum, <- fsum_add.
      apply fsum_ext. intros j Hj.
      destruct (Z.eqb_spec (Z.of_nat j - Z.of_nat i)%Z o) as [He|He].
      + assert (Hz : dia_entry_from (S k) offs D i j = f0).
        { assert (G : ~ In (Z.of_nat j - Z.of_nat i)%Z offs) by (rewrite He; exact Hnin).
          clear -G. revert G. generalize (S k). induction offs as [|o' offs IH]; intros k' G; simpl; auto.
          destruct (Z.eqb_spec (Z.of_nat j - Z.of_nat i)%Z o').
          - exfalso; apply G; left; auto.
          - apply IH. intro; apply G; right; auto. }
        rewrite Hz. ring.
      + ring.
  Qed.

  (** guarded forms of [row_term] used below *)
  Lemma row_term_up n k (r x : vec) i :
    row_term n (Z.of_nat k) r x i
    = if Nat.ltb (i + k) n then r (i + k) *' x (i + k) else f0.
  Proof.
    unfold row_term. cbv zeta.
    replace (Z.of_nat i + Z.of_nat k)%Z with (Z.of_nat (i + k)) by lia.
    rewrite (proj2 (Z.leb_le 0 _)) by lia. simpl. rewrite Nat2Z.id.
    destruct (Nat.ltb_spec (i + k) n); destruct (Z.ltb_spec (Z.of_nat (i + k)) (Z.of_nat n));
      auto; lia.
  Qed.

  Lemma row_term_dn n k (r x : vec) i : i < n -> 0 < k ->
    row_term n (- Z.of_nat k) r x i
    = if Nat.leb k i then r (i - k) *' x (i - k) else f0.
  Proof.
    intros Hi Hk. unfold row_term. cbv zeta.
    destruct (Nat.leb_spec k i).
    - replace (Z.of_nat i + - Z.of_nat k)%Z with (Z.of_nat (i - k)) by lia.
      rewrite (proj2 (Z.leb_le 0 _)) by lia. simpl. rewrite Nat2Z.id.
      rewrite (proj2 (Z.ltb_lt _ _)) by lia. reflexivity.
    - rewrite (proj2 (Z.leb_gt 0 _)) by lia. reflexivity.
  Qed.

  (** ** DiagMA *)
  Lemma diagma_correct n (D : dia) (b : vec) :
    (forall i, i < n -> D 0 i <> f0) ->
    solves n (dia_entry (kind_offsets KDiagMA) D) (diagma_solve K n D b) b.
  Proof.
    intros Hp.
    set (P := fun (i : nat) (u : vec) =>
                (forall j, j < i -> u j = b j /' D 0 j) /\ (forall j, i <= j -> u j = b j)).
    assert (HP : P (0 + n) (diagma_solve K n D b)).
    { unfold diagma_solve. apply for_up_inv; unfold P.
      - split; intros; [lia | auto].
      - intros i u Hi [H1 H2]. split; intros j Hj.
        + destruct (Nat.eq_dec j i) as [->|]; upds; [ rewrite H2 by lia; auto | apply H1; lia ].
        + upds. apply H2; lia. }
    destruct HP as [HP _]. intros i Hi. simpl in HP.
    unfold dia_entry, kind_offsets. rewrite dia_row by (repeat constructor; simpl; intuition lia).
    simpl row_terms. change 0%Z with (Z.of_nat 0). rewrite row_term_up.
    rewrite Nat.add_0_r. rewrite (proj2 (Nat.ltb_lt _ _)) by lia.
    rewrite HP by lia. field. apply Hp; lia.
  Qed.

  (** ** forward substitution with one sub-diagonal at distance s *)
  Lemma forward1 s n (l b : vec) : 0 < s ->
    let y := for_up (n - s) s (fun i u => upd u i (u i -' l (i - s) *' u (i - s))) b in
    forall i, i < n -> y i = if Nat.ltb i s then b i else b i -' l (i - s) *' y (i - s).
  Proof.
    intros Hs y.
    set (P := fun (i : nat) (u : vec) =>
      (forall j, j < i -> u j = if Nat.ltb j s then b j else b j -' l (j - s) *' u (j - s)) /\
      (forall j, i <= j -> u j = b j)).
    assert (HP : P (s + (n - s)) y).
    { unfold y. apply for_up_inv; unfold P.
      - split; intros; auto. rewrite (proj2 (Nat.ltb_lt _ _)) by lia. auto.
      - intros i u Hi [H1 H2]. split; intros j Hj.
        + destruct (Nat.eq_dec j i) as [->|].
          * rewrite (proj2 (Nat.ltb_ge _ _)) by lia. upds. now rewrite H2 by lia.
          * destruct (Nat.ltb_spec j s); upds; rewrite H1 by lia;
              [ now rewrite (proj2 (Nat.ltb_lt _ _)) by lia
              | now rewrite (proj2 (Nat.ltb_ge _ _)) by lia ].
        + upds. apply H2; lia. }
    destruct HP as [H1 _]. intros i Hi. apply H1. lia.
  Qed.

  (** ** back substitution with one super-diagonal at distance 2 *)
  Lemma back1_2 n (d e y : vec) : 2 <= n -> (forall i, i < n -> d i <> f0) ->
    let x := upd y (n - 1) (y (n - 1) /' d (n - 1)) in
    let x := upd x (n - 2) (x (n - 2) /' d (n - 2)) in
    let x := for_down (n - 2) (fun i u => upd u i ((u i -' e i *' u (i + 2)) /' d i)) x in
    forall i, i < n ->
      d i *' x i +' (if Nat.ltb (i + 2) n then e i *' x (i + 2) else f0) = y i.
  Proof.
    intros Hn Hd x0 x1 x2.
    set (P := fun (i : nat) (u : vec) =>
      (forall j, i <= j < n -> d j *' u j +' (if Nat.ltb (j + 2) n then e j *' u (j + 2) else f0) = y j) /\
      (forall j, j < i -> u j = y j)).
    assert (HP : P 0 x2).
    { unfold x2. apply for_down_inv; unfold P.
      - split; intros j Hj.
        + rewrite (proj2 (Nat.ltb_ge _ _)) by lia.
          unfold x1, x0. destruct (Nat.eq_dec j (n - 1)) as [->|].
          * upds. field. apply Hd; lia.
          * replace j with (n - 2) by lia. upds. field. apply Hd; lia.
        + unfold x1, x0. upds. reflexivity.
      - intros i u Hi [H1 H2]. split; intros j Hj.
        + destruct (Nat.eq_dec j i) as [->|].
          * rewrite (proj2 (Nat.ltb_lt _ _)) by lia. upds. rewrite H2 by lia. field. apply Hd; lia.
          * upds. rewrite <- (H1 j) by lia. reflexivity.
        + upds. apply H2; lia. }
    destruct HP as [H1 _]. intros i Hi. apply H1. lia.
  Qed.

  Lemma back1_1 n (d e y : vec) : 1 <= n -> (forall i, i < n -> d i <> f0) ->
    let x := upd y (n - 1) (y (n - 1) /' d (n - 1)) in
    let x := for_down (n - 1) (fun i u => upd u i ((u i -' e i *' u (i + 1)) /' d i)) x in
    forall i, i < n ->
      d i *' x i +' (if Nat.ltb (i + 1) n then e i *' x (i + 1) else f0) = y i.
  Proof.
    intros Hn Hd x0 x2.
    set (P := fun (i : nat) (u : vec) =>
      (forall j, i <= j < n -> d j *' u j +' (if Nat.ltb (j + 1) n then e j *' u (j + 1) else f0) = y j) /\
      (forall j, j < i -> u j = y j)).
    assert (HP : P 0 x2).
    { unfold x2. apply for_down_inv; unfold P.
      - split; intros j Hj.
        + rewrite (proj2 (Nat.ltb_ge _ _)) by lia.
          unfold x0. replace j with (n - 1) by lia. upds. field. apply Hd; lia.
        + unfold x0. upds. reflexivity.
      - intros i u Hi [H1 H2]. split; intros j Hj.
        + destruct (Nat.eq_dec j i) as [->|].
          * rewrite (proj2 (Nat.ltb_lt _ _)) by lia. upds. rewrite H2 by lia. field. apply Hd; lia.
          * upds. rewrite <- (H1 j) by lia. reflexivity.
        + upds. apply H2; lia. }
    destruct HP as [H1 _]. intros i Hi. apply H1. lia.
  Qed.

  (** ** TwoDMA *)
  Lemma twodma_correct n (D : dia) (b : vec) :
    2 <= n -> (forall i, i < n -> D 0 i <> f0) ->
    solves n (dia_entry (kind_offsets KTwoDMA) D) (twodma_solve K n D b) b.
  Proof.
    intros Hn Hd i Hi. unfold dia_entry, kind_offsets.
    rewrite dia_row by (repeat constructor; simpl; intuition lia).
    simpl row_terms. change 0%Z with (Z.of_nat 0). change 2%Z with (Z.of_nat 2).
    rewrite !row_term_up, Nat.add_0_r. rewrite (proj2 (Nat.ltb_lt i n)) by lia.
    etransitivity; [| exact (back1_2 n (D 0) (fun i => D 1 (i + 2)) b Hn Hd i Hi)].
    cbv beta. unfold twodma_solve. ring.
  Qed.

  (** ** TDMA *)
  Lemma tdma_lu_spec n (D : dia) :
    let L := tdma_lu K n D in
    (forall j, L 2 j = D 2 j) /\
    (forall j, j < n - 2 -> L 0 j = D 0 j /' L 1 j) /\
    (forall j, j < n -> L 1 j = if Nat.ltb j 2 then D 1 j else D 1 j -' L 0 (j - 2) *' D 2 j).
  Proof.
    intros L.
    set (P := fun (i : nat) (L : dia) =>
      (forall j, L 2 j = D 2 j) /\
      (forall j, j < i - 2 -> L 0 j = D 0 j /' L 1 j) /\
      (forall j, i - 2 <= j -> L 0 j = D 0 j) /\
      (forall j, j < i -> L 1 j = if Nat.ltb j 2 then D 1 j else D 1 j -' L 0 (j - 2) *' D 2 j) /\
      (forall j, i <= j -> L 1 j = D 1 j)).
    assert (HP : P (2 + (n - 2)) L).
    { unfold L, tdma_lu. apply for_up_inv; unfold P.
      - repeat split; intros; auto; try lia.
        rewrite (proj2 (Nat.ltb_lt _ _)) by lia; auto.
      - intros i M Hi (H1 & H2 & H3 & H4 & H5). cbv zeta. repeat split; intros j; [|intros Hj..].
        + upds. apply H1.
        + destruct (Nat.eq_dec j (i - 2)) as [->|]; upds.
          * now rewrite H3 by lia.
          * apply H2; lia.
        + upds. apply H3; lia.
        + destruct (Nat.eq_dec j i) as [->|].
          * rewrite (proj2 (Nat.ltb_ge _ _)) by lia. upds.
            rewrite H5 by lia. rewrite H1. replace (i - 2 + 2) with i by lia. reflexivity.
          * destruct (Nat.ltb_spec j 2); upds; rewrite H4 by lia.
            -- now rewrite (proj2 (Nat.ltb_lt _ _)) by lia.
            -- rewrite (proj2 (Nat.ltb_ge _ _)) by lia. reflexivity.
        + upds. apply H5; lia. }
    destruct HP as (H1 & H2 & H3 & H4 & H5).
    repeat split; intros; auto.
    - apply H2; lia.
    - apply H4; lia.
  Qed.

  Lemma tdma_correct n (D : dia) (b : vec) :
    2 <= n -> (forall i, i < n -> tdma_lu K n D 1 i <> f0) ->
    solves n (dia_entry (kind_offsets KTDMA) D) (tdma_solve K n (tdma_lu K n D) b) b.
  Proof.
    intros Hn Hd i Hi. unfold dia_entry, kind_offsets.
    rewrite dia_row by (repeat constructor; simpl; intuition lia).
    simpl row_terms. change 0%Z with (Z.of_nat 0). change 2%Z with (Z.of_nat 2).
    change (-2)%Z with (- Z.of_nat 2)%Z.
    rewrite !row_term_up, row_term_dn, Nat.add_0_r by lia.
    rewrite (proj2 (Nat.ltb_lt i n)) by lia.
    destruct (tdma_lu_spec n D) as (H2 & H0 & H1).
    set (L := tdma_lu K n D) in *.
    pose proof (forward1 2 n (L 0) b ltac:(lia)) as HF. cbv zeta in HF.
    unfold tdma_solve. cbv zeta.
    set (y := for_up (n - 2) 2 _ b) in *.
    pose proof (back1_2 n (L 1) (fun i => L 2 (i + 2)) y Hn Hd) as HB. cbv beta zeta in HB.
    set (x := for_down (n - 2) _ _) in *.
    pose proof (HF i Hi) as HFi. pose proof (HB i Hi) as HBi.
    rewrite H2 in HBi.
    destruct (Nat.leb_spec 2 i) as [Hi2|Hi2].
    - rewrite (proj2 (Nat.ltb_ge i 2)) in HFi by lia.
      pose proof (HB (i - 2) ltac:(lia)) as HBm.
      rewrite (proj2 (Nat.ltb_lt (i - 2 + 2) n)) in HBm by lia.
      rewrite H2 in HBm.
      pose proof (H1 i Hi) as H1i. rewrite (proj2 (Nat.ltb_ge i 2)) in H1i by lia.
      assert (H0i : D 0 (i - 2) = L 0 (i - 2) *' L 1 (i - 2)).
      { rewrite H0 by lia. field. apply Hd; lia. }
      assert (H1i' : D 1 i = L 1 i +' L 0 (i - 2) *' D 2 i) by (rewrite H1i; ring).
      replace (i - 2 + 2) with i in * by lia.
      rewrite H0i, H1i'.
      transitivity (L 0 (i - 2) *' (L 1 (i - 2) *' x (i - 2) +' D 2 i *' x i)
        +' (L 1 i *' x i +' (if (i + 2 <? n)%nat then D 2 (i + 2) *' x (i + 2) else f0))).
      { destruct (i + 2 <? n)%nat; ring. }
      rewrite HBm, HBi, HFi. ring.
    - rewrite (proj2 (Nat.ltb_lt i 2)) in HFi by lia.
      pose proof (H1 i Hi) as H1i. rewrite (proj2 (Nat.ltb_lt i 2)) in H1i by lia.
      rewrite <- H1i, <- HFi, <- HBi. ring.
  Qed.

  (** ** TDMA_O *)
  Lemma tdmao_lu_spec n (D : dia) :
    let L := tdmao_lu K n D in
    (forall j, L 2 j = D 2 j) /\
    (forall j, j < n - 1 -> L 0 j = D 0 j /' L 1 j) /\
    (forall j, j < n -> L 1 j = if Nat.ltb j 1 then D 1 j else D 1 j -' L 0 (j - 1) *' D 2 j).
  Proof.
    intros L.
    set (P := fun (i : nat) (L : dia) =>
      (forall j, L 2 j = D 2 j) /\
      (forall j, j < i - 1 -> L 0 j = D 0 j /' L 1 j) /\
      (forall j, i - 1 <= j -> L 0 j = D 0 j) /\
      (forall j, j < i -> L 1 j = if Nat.ltb j 1 then D 1 j else D 1 j -' L 0 (j - 1) *' D 2 j) /\
      (forall j, i <= j -> L 1 j = D 1 j)).
    assert (HP : P (1 + (n - 1)) L).
    { unfold L, tdmao_lu. apply for_up_inv; unfold P.
      - repeat split; intros; auto; try lia.
        rewrite (proj2 (Nat.ltb_lt _ _)) by lia; auto.
      - intros i M Hi (H1 & H2 & H3 & H4 & H5). cbv zeta. repeat split; intros j; [|intros Hj..].
        + upds. apply H1.
        + destruct (Nat.eq_dec j (i - 1)) as [->|]; upds.
          * now rewrite H3 by lia.
          * apply H2; lia.
        + upds. apply H3; lia.
        + destruct (Nat.eq_dec j i) as [->|].
          * rewrite (proj2 (Nat.ltb_ge _ _)) by lia. upds.
            rewrite H5 by lia. rewrite H1. replace (i - 1 + 1) with i by lia. reflexivity.
          * destruct (Nat.ltb_spec j 1); upds; rewrite H4 by lia.
            -- now rewrite (proj2 (Nat.ltb_lt _ _)) by lia.
            -- rewrite (proj2 (Nat.ltb_ge _ _)) by lia. reflexivity.
        + upds. apply H5; lia. }
    destruct HP as (H1 & H2 & H3 & H4 & H5).
    repeat split; intros; auto.
    - apply H2; lia.
    - apply H4; lia.
  Qed.

  Lemma tdmao_correct n (D : dia) (b : vec) :
    1 <= n -> (forall i, i < n -> tdmao_lu K n D 1 i <> f0) ->
    solves n (dia_entry (kind_offsets KTDMA_O) D) (tdmao_solve K n (tdmao_lu K n D) b) b.
  Proof.
    intros Hn Hd i Hi. unfold dia_entry, kind_offsets.
    rewrite dia_row by (repeat constructor; simpl; intuition lia).
    simpl row_terms. change 0%Z with (Z.of_nat 0). change 1%Z with (Z.of_nat 1).
    change (-1)%Z with (- Z.of_nat 1)%Z.
    rewrite !row_term_up, row_term_dn, Nat.add_0_r by lia.
    rewrite (proj2 (Nat.ltb_lt i n)) by lia.
    destruct (tdmao_lu_spec n D) as (H2 & H0 & H1).
    set (L := tdmao_lu K n D) in *.
    pose proof (forward1 1 n (L 0) b ltac:(lia)) as HF. cbv zeta in HF.
    unfold tdmao_solve. cbv zeta.
    set (y := for_up (n - 1) 1 _ b) in *.
    pose proof (back1_1 n (L 1) (fun i => L 2 (i + 1)) y Hn Hd) as HB. cbv beta zeta in HB.
    set (x := for_down (n - 1) _ _) in *.
    pose proof (HF i Hi) as HFi. pose proof (HB i Hi) as HBi.
    rewrite H2 in HBi.
    destruct (Nat.leb_spec 1 i) as [Hi2|Hi2].
    - rewrite (proj2 (Nat.ltb_ge i 1)) in HFi by lia.
      pose proof (HB (i - 1) ltac:(lia)) as HBm.
      rewrite (proj2 (Nat.ltb_lt (i - 1 + 1) n)) in HBm by lia.
      rewrite H2 in HBm.
      pose proof (H1 i Hi) as H1i. rewrite (proj2 (Nat.ltb_ge i 1)) in H1i by lia.
      assert (H0i : D 0 (i - 1) = L 0 (i - 1) *' L 1 (i - 1)).
      { rewrite H0 by lia. field. apply Hd; lia. }
      assert (H1i' : D 1 i = L 1 i +' L 0 (i - 1) *' D 2 i) by (rewrite H1i; ring).
      replace (i - 1 + 1) with i in * by lia.
      rewrite H0i, H1i'.
      transitivity (L 0 (i - 1) *' (L 1 (i - 1) *' x (i - 1) +' D 2 i *' x i)
        +' (L 1 i *' x i +' (if (i + 1 <? n)%nat then D 2 (i + 1) *' x (i + 1) else f0))).
      { destruct (i + 1 <? n)%nat; ring. }
      rewrite HBm, HBi, HFi. ring.
    - rewrite (proj2 (Nat.ltb_lt i 1)) in HFi by lia.
      pose proof (H1 i Hi) as H1i. rewrite (proj2 (Nat.ltb_lt i 1)) in H1i by lia.
      rewrite <- H1i, <- HFi, <- HBi. ring.
  Qed.
End P.
