(** EvalProofs.v -- lemmas for EvalModel. *)
From Coq Require Import Arith Lia ZArith List Ring Field.
From Verif Require Import Base Fld EvalModel.
Import ListNotations.

Section EvalProofs.
  Variable K : Fld.
  Local Open Scope fld_scope.
  Add Ring KR : (fringlaws K).
  Add Field KF : (flaws K).

  (** Chebyshev polynomials of the first kind *)
  Fixpoint chebK (n : nat) (x : K) : K :=
    match n with
    | O => 1
    | S m => match m with O => x | S p => (1 + 1) * x * chebK m x - chebK p x end
    end.
  Lemma chebK_SS n x : chebK (S (S n)) x = (1 + 1) * x * chebK (S n) x - chebK n x.
  Proof. reflexivity. Qed.

  Lemma fsum_S n (f : nat -> K) : fsum (S n) f = fsum n f + f n.
  Proof. reflexivity. Qed.
  Lemma fsum_ext n (f g : nat -> K) : (forall i, (i < n)%nat -> f i = g i) -> fsum n f = fsum n g.
  Proof. apply gsum_ext. Qed.

  Lemma clenshaw_loop x c N : (2 <= N)%nat ->
    let '(c0, c1) := for_up (N + 1 - 3) 3 (fun i s => let '(c0, c1) := s in (c (N - i)%nat - c1, c0 + c1 * ((1 + 1) * x))) (c (N - 2)%nat, c (N - 1)%nat) in
    c0 + x * c1 = fsum N (fun k => c k * chebK k x).
  Proof.
    intros HN. pose (P := fun (i : nat) (s : K * K) => (i - 1 <= N)%nat /\ (3 <= i)%nat /\
      fsum (N - (i - 1)) (fun k => c k * chebK k x) + fst s * chebK (N - (i - 1)) x + snd s * chebK (S (N - (i - 1))) x = fsum N (fun k => c k * chebK k x)).
    assert (P (3 + (N + 1 - 3))%nat (for_up (N + 1 - 3) 3 (fun i s => let '(c0, c1) := s in (c (N - i)%nat - c1, c0 + c1 * ((1 + 1) * x))) (c (N - 2)%nat, c (N - 1)%nat))) as H.
    { apply for_up_inv.
      - split; [lia|split; [lia|]]. cbn [fst snd]. replace (N - (3 - 1))%nat with (N - 2)%nat by lia.
        assert (forall g : nat -> K, fsum N g = fsum (N - 2) g + g (N - 2)%nat + g (S (N - 2))) as E.
        { intros g. replace N with (S (S (N - 2))) at 1 by lia. reflexivity. }
        rewrite E. replace (S (N - 2)) with (N - 1)%nat by lia. reflexivity.
      - intros i [c0 c1] Hi (H1 & H2 & H3). split; [lia|split; [lia|]]. cbn [fst snd] in *.
        replace (N - (i - 1))%nat with (S (N - i)) in H3 by lia. replace (N - (S i - 1))%nat with (N - i)%nat by lia.
        rewrite <- H3. rewrite fsum_S, chebK_SS. ring. }
    destruct (for_up _ _ _ _) as [c0 c1]. destruct H as (_ & _ & H). cbn [fst snd] in H.
    replace (N - (3 + (N + 1 - 3) - 1))%nat with 0%nat in H by lia. rewrite <- H. cbn [chebK]. change (fsum 0 _) with (0 : K). ring.
  Qed.
  Lemma chebval_correct x c N : (1 <= N)%nat -> chebval K x c N = fsum N (fun k => c k * chebK k x).
  Proof.
    intros HN. unfold chebval. destruct (Nat.eqb_spec N 1) as [->|H1].
    - rewrite fsum_S. change (fsum 0 _) with (0 : K). cbn [chebK]. ring.
    - destruct (Nat.eqb_spec N 2) as [->|H2].
      + rewrite !fsum_S. change (fsum 0 _) with (0 : K). cbn [chebK]. ring.
      + pose proof (clenshaw_loop x c N ltac:(lia)) as H. destruct (for_up _ _ _ _) as [c0 c1]. exact H.
  Qed.
  Lemma chebvalS_correct x c N : (2 <= N)%nat -> chebvalS K x c N = fsum N (fun k => c k * chebK k x).
  Proof.
    intros HN. unfold chebvalS. pose proof (clenshaw_loop x c N HN) as H. destruct (for_up _ _ _ _) as [c0 c1]. rewrite <- H. ring.
  Qed.

  (** ** three term recursions *)
  Definition recursion_of (a : rec_coeffs K) (P : nat -> K -> K) (x : K) (n : nat) : Prop :=
    x * P n x = anm K a n * P (S n) x + ann K a n * P n x + match n with O => 0 | S m => anp K a n * P m x end.
  Section Rec.
    Variables (a : rec_coeffs K) (P : nat -> K -> K) (xj : nat -> K) (Nn N : nat).
    Hypothesis P0 : forall j, (j < N)%nat -> P 0%nat (xj j) = 1.
    Hypothesis Pr0 : forall j, (0 < Nn)%nat -> (j < N)%nat -> recursion_of a P (xj j) 0.
    Hypothesis Pr : forall n j, (S n < Nn)%nat -> (j < N)%nat -> recursion_of a P (xj j) (S n).
    Hypothesis Pn : forall n, (n < Nn)%nat -> anm K a n <> 0.

    Lemma rec_next n j : (S n < Nn)%nat -> (j < N)%nat ->
      P (S (S n)) (xj j) = 1 / anm K a (S n) * (xj j - ann K a (S n)) * P (S n) (xj j) - anp K a (S n) / anm K a (S n) * P n (xj j).
    Proof.
      intros Hn Hj. pose proof (Pr n j Hn Hj) as H. unfold recursion_of in H. pose proof (Pn (S n) Hn) as Hz.
      assert (anm K a (S n) * P (S (S n)) (xj j) = (xj j - ann K a (S n)) * P (S n) (xj j) - anp K a (S n) * P n (xj j)) as E.
      { transitivity (xj j * P (S n) (xj j) - ann K a (S n) * P (S n) (xj j) - anp K a (S n) * P n (xj j)); [|ring]. rewrite H. ring. }
      transitivity (anm K a (S n) * P (S (S n)) (xj j) / anm K a (S n)); [field; exact Hz|]. rewrite E. field. exact Hz.
    Qed.
    (** state before outer iteration k, for points < N *)
    Definition state_ok (k : nat) (s : rec_state K) (j : nat) : Prop :=
      Lnm K s j = P k (xj j) /\ Ln K s j = P (S k) (xj j) /\ Lnp K s j = P (S (S k)) (xj j).
    Lemma rec_start_ok j : (2 <= Nn)%nat -> (j < N)%nat -> state_ok 0 (rec_start K a xj) j.
    Proof.
      intros Hn Hj. assert (P 1%nat (xj j) = (xj j - ann K a 0%nat) / anm K a 0%nat) as E1.
      { pose proof (Pr0 j ltac:(lia) Hj) as H. unfold recursion_of in H. rewrite (P0 j Hj) in H. pose proof (Pn 0 ltac:(lia)) as Hz.
        transitivity ((anm K a 0%nat * P 1%nat (xj j)) / anm K a 0%nat); [field; exact Hz|]. f_equal. transitivity (xj j * 1 - ann K a 0%nat); [rewrite H; ring|ring]. }
      split; [|split]; cbn [rec_start Lnm Ln Lnp].
      - symmetry. apply P0, Hj.
      - symmetry. exact E1.
      - rewrite (rec_next 0 j ltac:(lia) Hj), (P0 j Hj), E1. pose proof (Pn 0 ltac:(lia)). pose proof (Pn 1 ltac:(lia)). field. auto.
    Qed.
    Lemma rec_shift_same k j s : (k + 2 < Nn)%nat -> (j < N)%nat -> state_ok k s j -> state_ok (S k) (rec_shift K a xj k j s) j.
    Proof.
      intros Hk Hj (H1 & H2 & H3). unfold state_ok, rec_shift. cbn [Lnm Ln Lnp]. rewrite !upd_same, H2, H3.
      split; [reflexivity|split; [reflexivity|]]. replace (k + 2)%nat with (S (S k)) in * by lia. symmetry. apply (rec_next (S k) j); lia || auto.
    Qed.
    Lemma rec_shift_other k j s i : i <> j -> Lnm K (rec_shift K a xj k j s) i = Lnm K s i /\ Ln K (rec_shift K a xj k j s) i = Ln K s i /\ Lnp K (rec_shift K a xj k j s) i = Lnp K s i.
    Proof. intros H. unfold rec_shift. cbn [Lnm Ln Lnp]. rewrite !upd_other by exact H. auto. Qed.

    Lemma evaluate_expansion_correct u M : (M + 2 <= Nn)%nat -> forall j, (j < N)%nat ->
      evaluate_expansion_all K a xj u M N j = fsum M (fun k => u k * P k (xj j)).
    Proof.
      intros HM. unfold evaluate_expansion_all.
      set (body := fun k (so : (nat -> K) * rec_state K) => for_up N 0 _ so).
      pose (Q := fun k (so : (nat -> K) * rec_state K) => forall j, (j < N)%nat -> fst so j = fsum k (fun k => u k * P k (xj j)) /\ state_ok k (snd so) j).
      assert (Q (0 + M)%nat (for_up M 0 body (fun _ => 0, rec_start K a xj))) as H.
      { apply for_up_inv.
        - intros j Hj. split; [reflexivity|]. apply rec_start_ok; [lia|exact Hj].
        - intros k so Hk HQ.
          assert (forall c, (c <= N)%nat -> let r := for_up c 0 (fun j so => let '(out, s) := so in (upd out j (out j + Lnm K s j * u k), rec_shift K a xj k j s)) so in
            forall j, (j < N)%nat -> if (j <? c)%nat then fst r j = fsum (S k) (fun k => u k * P k (xj j)) /\ state_ok (S k) (snd r) j else fst r j = fsum k (fun k => u k * P k (xj j)) /\ state_ok k (snd r) j) as HI.
          { induction c as [|c IH]; intros Hc r j Hj.
            - exact (HQ j Hj).
            - specialize (IH ltac:(lia)). unfold r. rewrite for_up_snoc. set (r0 := for_up c 0 _ _) in *. clearbody r0. destruct r0 as [out s]. cbn [Nat.add fst snd] in *.
              destruct (Nat.eq_dec j c) as [->|Hjc].
              + specialize (IH c Hj). rewrite Nat.ltb_irrefl in IH. destruct IH as [I1 I2]. destruct (Nat.ltb_spec c (S c)) as [_|L]; [|lia].
                split; [|apply rec_shift_same; [lia|exact Hj|exact I2]]. rewrite upd_same, fsum_S, I1. destruct I2 as (E & _). rewrite E. ring.
              + specialize (IH j Hj). destruct (rec_shift_other k c s j Hjc) as (S1 & S2 & S3). rewrite upd_other by exact Hjc. unfold state_ok in *. rewrite S1, S2, S3.
                destruct (Nat.ltb_spec j c), (Nat.ltb_spec j (S c)); try lia; exact IH. }
          intros j Hj. specialize (HI N (le_n N) j Hj). destruct (Nat.ltb_spec j N); [exact HI|lia]. }
      intros j Hj. exact (proj1 (H j Hj)).
    Qed.

    (** scalar products, generic in the summand *)
    Lemma inner_sum k (f : nat -> K -> K) s0 : (k + 2 < Nn)%nat -> (forall j, (j < N)%nat -> state_ok k s0 j) ->
      let r := for_up N 0 (fun j so => let '(sum, s) := so in (sum + f j (Lnm K s j), rec_shift K a xj k j s)) (0, s0) in
      fst r = fsum N (fun j => f j (P k (xj j))) /\ forall j, (j < N)%nat -> state_ok (S k) (snd r) j.
    Proof.
      intros Hk H0.
      assert (forall c, (c <= N)%nat -> let r := for_up c 0 (fun j so => let '(sum, s) := so in (sum + f j (Lnm K s j), rec_shift K a xj k j s)) (0, s0) in
        fst r = fsum c (fun j => f j (P k (xj j))) /\ forall j, (j < N)%nat -> if (j <? c)%nat then state_ok (S k) (snd r) j else state_ok k (snd r) j) as HI.
      { induction c as [|c IH]; intros Hc r.
        - split; [reflexivity|]. intros j Hj. exact (H0 j Hj).
        - specialize (IH ltac:(lia)). unfold r. rewrite for_up_snoc. set (r0 := for_up c 0 _ _) in *. clearbody r0. destruct r0 as [sum s]. cbn [Nat.add fst snd] in *. destruct IH as [I1 I2].
          split.
          + rewrite fsum_S, I1. f_equal. specialize (I2 c ltac:(lia)). rewrite Nat.ltb_irrefl in I2. destruct I2 as (E & _). rewrite E. reflexivity.
          + intros j Hj. destruct (Nat.eq_dec j c) as [->|Hjc].
            * specialize (I2 c Hj). rewrite Nat.ltb_irrefl in I2. destruct (Nat.ltb_spec c (S c)); [|lia]. apply rec_shift_same; [lia|exact Hj|exact I2].
            * specialize (I2 j Hj). destruct (rec_shift_other k c s j Hjc) as (S1 & S2 & S3). unfold state_ok in *. rewrite S1, S2, S3.
              destruct (Nat.ltb_spec j c), (Nat.ltb_spec j (S c)); try lia; exact I2. }
      destruct (HI N (le_n N)) as [H1 H2]. split; [exact H1|]. intros j Hj. specialize (H2 j Hj). destruct (Nat.ltb_spec j N); [exact H2|lia].
    Qed.
    Lemma outer_sum (f : nat -> K -> K) M out0 s0 : (M + 2 <= Nn)%nat -> (forall j, (j < N)%nat -> state_ok 0 s0 j) -> forall k, (k < M)%nat ->
      fst (for_up M 0 (fun k so => let '(out, st) := so in
        let '(sum, st) := for_up N 0 (fun j so => let '(sum, s) := so in (sum + f j (Lnm K s j), rec_shift K a xj k j s)) (0, st) in (upd out k sum, st)) (out0, s0)) k
      = fsum N (fun j => f j (P k (xj j))).
    Proof.
      intros HM H0. set (body := fun (k : nat) (so : (nat -> K) * rec_state K) => _).
      pose (Q := fun k (so : (nat -> K) * rec_state K) => (forall i, (i < k)%nat -> fst so i = fsum N (fun j => f j (P i (xj j)))) /\ forall j, (j < N)%nat -> state_ok k (snd so) j).
      assert (Q (0 + M)%nat (for_up M 0 body (out0, s0))) as [H _]; [|intros k Hk; apply H; lia].
      apply for_up_inv.
      - split; [intros i Hi; lia|]. cbn [snd]. exact H0.
      - intros k [out st] Hk [Q1 Q2]. cbn [fst snd] in *. unfold body. destruct (inner_sum k f st ltac:(lia) Q2) as [I1 I2].
        destruct (for_up N 0 _ (0, st)) as [sum st']. cbn [fst snd] in *. split; [|exact I2].
        intros i Hi. cbn [fst]. destruct (Nat.eq_dec i k) as [->|Hik]; [rewrite upd_same; exact I1|rewrite upd_other by exact Hik; apply Q1; lia].
    Qed.
  End Rec.

  (** the restricted product: modes a0, a0+1, .. at the points i0 .. i1-1 *)
  Lemma restricted_cython_correct a P xj Nn u i0 i1 a0 M out0 P0 P1 P2 :
    (forall n j, (S n < Nn)%nat -> (j < i1)%nat -> recursion_of a P (xj j) (S n)) ->
    (forall n, (n < Nn)%nat -> anm K a n <> 0) -> (a0 + M + 2 <= Nn)%nat ->
    (forall j, (j < i1 - i0)%nat -> P0 j = P a0 (xj (i0 + j)%nat) /\ P1 j = P (a0 + 1)%nat (xj (i0 + j)%nat) /\ P2 j = P (a0 + 2)%nat (xj (i0 + j)%nat)) ->
    forall k, (k < M)%nat -> restricted_product_cython K a xj P0 P1 P2 u i0 i1 a0 M out0 k
      = fsum (i1 - i0) (fun j => P (a0 + k)%nat (xj (i0 + j)%nat) * u (i0 + j)%nat).
  Proof.
    intros Pr Pn HM H0 k Hk. unfold restricted_product_cython. cbv zeta.
    apply (outer_sum (mkRec K (fun j => anm K a (a0 + j)%nat) (fun j => ann K a (a0 + j)%nat) (fun j => anp K a (a0 + j)%nat)) (fun n => P (a0 + n)%nat)
      (fun j => xj (i0 + j)%nat) (Nn - a0) (i1 - i0)) with (f := fun j v => v * u (i0 + j)%nat); [| |lia| |exact Hk].
    - intros n j Hn Hj. unfold recursion_of. cbn [anm ann anp]. replace (a0 + S n)%nat with (S (a0 + n)) by lia. replace (a0 + S (S n))%nat with (S (S (a0 + n))) by lia.
      apply (Pr (a0 + n)%nat (i0 + j)%nat); lia.
    - intros n Hn. cbn [anm]. apply Pn. lia.
    - intros j Hj. destruct (H0 j Hj) as (E0 & E1 & E2). unfold state_ok. cbn [Lnm Ln Lnp]. rewrite E0, E1, E2, Nat.add_0_r. auto.
  Qed.
  Lemma restricted_numba_cython a P xj Nn u i0 i1 a0 M out0 P0 P1 P2 :
    (forall n j, (S n < Nn)%nat -> (j < i1)%nat -> recursion_of a P (xj j) (S n)) ->
    (forall n, (n < Nn)%nat -> anm K a n <> 0) -> (a0 + M + 2 <= Nn)%nat ->
    (forall j, (j < i1 - i0)%nat -> P0 j = P a0 (xj (i0 + j)%nat) /\ P1 j = P (a0 + 1)%nat (xj (i0 + j)%nat) /\ P2 j = P (a0 + 2)%nat (xj (i0 + j)%nat)) ->
    forall k, (k < M)%nat -> restricted_product_numba K a xj P0 P1 u i0 i1 a0 M out0 k
      = fsum (i1 - i0) (fun j => P (a0 + k)%nat (xj (i0 + j)%nat) * u (i0 + j)%nat).
  Proof.
    intros Pr Pn HM H0 k Hk. unfold restricted_product_numba. cbv zeta.
    set (ax := mkRec K (fun j => anm K a (a0 + j)%nat) (fun j => ann K a (a0 + j)%nat) (fun j => anp K a (a0 + j)%nat)).
    match goal with |- context [mkRecSt K P0 P1 ?f] => set (L2 := f) end.
    rewrite (for_up_ext M 0 _ (fun k so => let '(out, st) := so in
        let '(sum, st) := for_up (i1 - i0) 0 (fun j so => let '(sum, s) := so in (sum + Lnm K s j * u (i0 + j)%nat, rec_shift K ax (fun j => xj (i0 + j)%nat) k j s)) (0, st) in (upd out k sum, st))).
    - apply (outer_sum ax (fun n => P (a0 + n)%nat) (fun j => xj (i0 + j)%nat) (Nn - a0) (i1 - i0)) with (f := fun j v => v * u (i0 + j)%nat); [| |lia| |exact Hk].
      + intros n j Hn Hj. unfold recursion_of, ax. cbn [anm ann anp]. replace (a0 + S n)%nat with (S (a0 + n)) by lia. replace (a0 + S (S n))%nat with (S (S (a0 + n))) by lia.
        apply (Pr (a0 + n)%nat (i0 + j)%nat); lia.
      + intros n Hn. unfold ax. cbn [anm]. apply Pn. lia.
      + intros j Hj. destruct (H0 j Hj) as (E0 & E1 & E2). unfold state_ok. cbn [Lnm Ln Lnp]. rewrite E0, E1, Nat.add_0_r. split; [reflexivity|]. split; [f_equal; lia|].
        unfold L2. rewrite E0, E1. replace (a0 + 2)%nat with (S (S a0)) by lia. replace (a0 + 1)%nat with (S a0) by lia. replace (1 + a0)%nat with (S a0) by lia.
        pose proof (Pn (S a0) ltac:(lia)). rewrite (rec_next a P xj Nn i1 Pr Pn a0 (i0 + j)%nat) by lia. field. auto.
    - intros k' [out st] _. rewrite (for_up_ext _ 0 _ (fun j so => let '(sum, s) := so in (sum + Lnm K s j * u (i0 + j)%nat, rec_shift K ax (fun j => xj (i0 + j)%nat) k' j s))); [reflexivity|].
      intros j [sum s] _. f_equal. unfold rec_shift, ax. cbn [anm ann anp]. replace (k' + a0 + 2)%nat with (a0 + (k' + 2))%nat by lia. reflexivity.
  Qed.
End EvalProofs.
