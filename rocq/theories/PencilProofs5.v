(** PencilProofs5.v -- round trips, matrices, and when planning succeeds. *)
From Coq Require Import Arith List Bool Lia Permutation.
From Verif Require Import Base Fld PencilModel PencilSpec PencilProofs PencilProofs2 PencilProofs3 PencilProofs4.
Import ListNotations.
Local Open Scope nat_scope.

Section Round.
  Context {V : Type}.
  Notation base := (@base V).
  Variables (bases : list base) (d : base).
  Variable real : V -> Prop.

  Notation undoes := (undoes real).
  Notation keeps_real := (keeps_real real).

  Lemma depends_forward b : base_ok b -> depends (bs_phys b) (@line_forward V b).
  Proof. intros (H1 & H2 & _) l l' H i. unfold line_forward. apply H2. intros j _. apply H1. exact H. Qed.
  Lemma depends_backward b : base_ok b -> depends (bs_spec b) (@line_backward V b).
  Proof.
    intros (H1 & H2 & H3 & H4 & H5) l l' H i. unfold line_backward. apply H5. intros j _. apply H4. exact H.
  Qed.

  Lemma inside_lset sh idx k m v : inside sh idx -> k < length sh -> v < m -> inside (lset sh k m) (lset idx k v).
  Proof.
    intros [H1 H2] Hk Hv. split; [rewrite !lset_length; assumption|].
    rewrite lset_length. intros i Hi. rewrite !nth_lset by lia.
    destruct (i =? k); auto.
  Qed.
  Lemma inside_unset sh idx k m v : inside (lset sh k m) idx -> k < length sh -> v < nth k sh 0 ->
    inside sh (lset idx k v).
  Proof.
    intros H Hk Hv. pose proof (inside_lset _ _ k (nth k sh 0) v H ltac:(rewrite lset_length; assumption) Hv) as Q.
    rewrite lset_lset, lset_id in Q. exact Q.
  Qed.

  Lemma round_trip l : forall sh dt g,
    NoDup l -> (forall k, In k l -> k < length sh /\ base_ok (nth k bases d) /\ undoes (nth k bases d) /\
       keeps_real (nth k bases d) /\ nth k sh 0 = bs_phys (nth k bases d)) ->
    dtypes_ok bases d dt l -> (dt = false -> forall idx, inside sh idx -> real (g idx)) ->
    geq sh (tensor line_backward bases d (rev l) (tensor line_forward bases d l g)) g.
  Proof.
    induction l as [|k l IH]; intros sh dt g HN Hl Hdt Hr; [intros idx _; reflexivity|].
    cbn [rev]. unfold tensor at 1. rewrite fold_left_app. cbn [fold_left].
    fold (@tensor V line_backward bases d (rev l) (tensor line_forward bases d (k :: l) g)).
    change (tensor line_forward bases d (k :: l) g) with
      (tensor line_forward bases d l (along k (line_forward (nth k bases d)) g)).
    set (b := nth k bases d) in *.
    destruct (Hl k (or_introl eq_refl)) as (Hk & Hb & Hu & Hkr & Hph). fold b in Hb, Hu, Hkr, Hph.
    inversion HN as [|? ? N1 N2]; subst.
    cbn [dtypes_ok] in Hdt. fold b in Hdt. destruct Hdt as [Hd1 Hd2].
    set (sh' := lset sh k (bs_spec b)).
    assert (Hreal : dt = false -> forall idx, inside sh' idx -> forall j, j < bs_phys b -> real (g (lset idx k j))).
    { intros E idx Hi j Hj. apply (Hr E). apply inside_unset with (m := bs_spec b); auto. lia. }
    assert (H1 : geq sh' (tensor line_backward bases d (rev l) (tensor line_forward bases d l
                     (along k (line_forward b) g))) (along k (line_forward b) g)).
    { apply IH with (dt := dtype_out b dt); auto.
      - intros j Hj. destruct (Hl j (or_intror Hj)) as (J1 & J2 & J3 & J4 & J5).
        unfold sh'. rewrite lset_length. repeat (split; [assumption|]).
        rewrite nth_lset_other; [assumption|]. intros ->. contradiction.
      - intros E idx Hi. unfold along. unfold dtype_out in E.
        destruct (bs_kind b) eqn:EK; try discriminate.
        apply Hkr; [assumption| |].
        + intros j Hj. apply Hreal; assumption.
        + destruct Hi as [Hi1 Hi2]. unfold sh' in *. rewrite lset_length in *.
          specialize (Hi2 k Hk). rewrite nth_lset_same in Hi2 by assumption. exact Hi2. }
    assert (H2 := along_geq sh' k (bs_phys b) (line_backward b) _ _
      ltac:(unfold sh'; rewrite nth_lset_same by assumption; apply depends_backward; exact Hb)
      ltac:(unfold sh'; rewrite lset_length; exact Hk) H1).
    unfold sh' in H2. rewrite lset_lset, <- Hph, lset_id in H2.
    intros idx Hi. rewrite (H2 idx Hi).
    rewrite (along_compose (bs_phys b) (bs_spec b)); [|apply depends_forward; exact Hb
      |apply depends_backward; exact Hb|destruct Hi; lia].
    unfold along. rewrite Hu.
    - rewrite lset_id. reflexivity.
    - intros EK j Hj. rewrite EK in Hd1. apply (Hr Hd1).
      destruct Hi as [Hi1 Hi2]. split; [rewrite lset_length; assumption|].
      intros i Hi. rewrite nth_lset by lia. destruct (Nat.eqb_spec i k) as [->|]; [lia | auto].
    - rewrite <- Hph. apply Hi. assumption.
  Qed.

  (** the other direction, for transforms that are inverse on all lines *)
  Lemma round_trip_back l : forall sh g,
    NoDup l -> (forall k, In k l -> k < length sh /\ base_ok (nth k bases d) /\
       (forall f i, i < bs_spec (nth k bases d) ->
          line_forward (nth k bases d) (line_backward (nth k bases d) f) i = f i) /\
       nth k sh 0 = bs_spec (nth k bases d)) ->
    geq sh (tensor line_forward bases d (rev l) (tensor line_backward bases d l g)) g.
  Proof.
    induction l as [|k l IH]; intros sh g HN Hl; [intros idx _; reflexivity|].
    cbn [rev]. unfold tensor at 1. rewrite fold_left_app. cbn [fold_left].
    fold (@tensor V line_forward bases d (rev l) (tensor line_backward bases d (k :: l) g)).
    change (tensor line_backward bases d (k :: l) g) with
      (tensor line_backward bases d l (along k (line_backward (nth k bases d)) g)).
    set (b := nth k bases d) in *.
    destruct (Hl k (or_introl eq_refl)) as (Hk & Hb & Hu & Hph). fold b in Hb, Hu, Hph.
    inversion HN as [|? ? N1 N2]; subst.
    set (sh' := lset sh k (bs_phys b)).
    assert (H1 : geq sh' (tensor line_forward bases d (rev l) (tensor line_backward bases d l
                     (along k (line_backward b) g))) (along k (line_backward b) g)).
    { apply IH; auto.
      intros j Hj. destruct (Hl j (or_intror Hj)) as (J1 & J2 & J3 & J4).
      unfold sh'. rewrite lset_length. repeat (split; [assumption|]).
      rewrite nth_lset_other; [assumption|]. intros ->. contradiction. }
    assert (H2 := along_geq sh' k (bs_spec b) (line_forward b) _ _
      ltac:(unfold sh'; rewrite nth_lset_same by assumption; apply depends_forward; exact Hb)
      ltac:(unfold sh'; rewrite lset_length; exact Hk) H1).
    unfold sh' in H2. rewrite lset_lset, <- Hph, lset_id in H2.
    intros idx Hi. rewrite (H2 idx Hi).
    rewrite (along_compose (bs_spec b) (bs_phys b)); [|apply depends_backward; exact Hb
      |apply depends_forward; exact Hb|destruct Hi; lia].
    unfold along. rewrite Hu.
    - rewrite lset_id. reflexivity.
    - rewrite <- Hph. apply Hi. assumption.
  Qed.
End Round.

(** ** matrices *)
Section Matrix.
  Variable K : Fld.
  Add Field KF5 : (flaws K).
  Notation garr := (list nat -> K).

  Definition ten (T : nat -> (nat -> K) -> nat -> K) (l : list nat) (g : garr) : garr :=
    fold_left (fun g k => along k (T k) g) l g.
  Definition linear (n : nat -> nat) (M : nat -> nat -> nat -> K) (T : nat -> (nat -> K) -> nat -> K) : Prop :=
    forall k l i, T k l i = fsum (n k) (fun j => fmul (M k i j) (l j)).

  Variables (n : nat -> nat) (M : nat -> nat -> nat -> K) (T : nat -> (nat -> K) -> nat -> K).
  Hypothesis HT : linear n M T.

  Definition eqn (N : nat) (g h : garr) : Prop := forall idx, length idx = N -> g idx = h idx.

  Lemma ten_eqn N l : forall g h, eqn N g h -> eqn N (ten T l g) (ten T l h).
  Proof.
    induction l as [|k l IH]; intros g h H; [exact H|]. cbn [ten fold_left]. apply IH.
    intros idx Hl. unfold along. rewrite !HT. apply fsum_ext. intros j _. rewrite H; [reflexivity|].
    rewrite lset_length. exact Hl.
  Qed.

  Lemma fsum_swap a b (f : nat -> nat -> K) :
    fsum a (fun i => fsum b (fun j => f i j)) = fsum b (fun j => fsum a (fun i => f i j)).
  Proof.
    revert f. induction a as [|a IH]; intros f.
    - cbn. symmetry. unfold fsum. induction b as [|b IHb]; [reflexivity|]. cbn. rewrite IHb. cbn. ring.
    - cbn [fsum gsum]. change (gsum 0%fld fadd a (fun i => fsum b (fun j => f i j)))
        with (fsum a (fun i => fsum b (fun j => f i j))). rewrite IH.
      unfold fsum. clear IH. induction b as [|b IHb].
      + cbn. ring.
      + cbn [gsum]. rewrite <- IHb. cbn [gsum]. ring.
  Qed.
  Lemma fsum_scal a c (f : nat -> K) : fmul c (fsum a f) = fsum a (fun i => fmul c (f i)).
  Proof. unfold fsum. induction a as [|a IH]; cbn [gsum]; [ring|]. rewrite <- IH. ring. Qed.

  Lemma along_swap k k' g : k <> k' -> forall idx,
    along k (T k) (along k' (T k') g) idx = along k' (T k') (along k (T k) g) idx.
  Proof.
    intros Hne idx. unfold along. rewrite !HT.
    transitivity (fsum (n k) (fun j => fsum (n k') (fun j' =>
      fmul (M k (nth k idx 0) j) (fmul (M k' (nth k' idx 0) j') (g (lset (lset idx k j) k' j')))))).
    - apply fsum_ext. intros j _. rewrite HT, fsum_scal. apply fsum_ext. intros j' _.
      rewrite nth_lset_other by auto. reflexivity.
    - rewrite fsum_swap. apply fsum_ext. intros j' _. rewrite HT, fsum_scal. apply fsum_ext. intros j _.
      rewrite nth_lset_other by auto. rewrite (lset_comm idx k k' j j' Hne). ring.
  Qed.

  Lemma ten_perm N l l' : Permutation l l' -> NoDup l -> forall g, eqn N (ten T l g) (ten T l' g).
  Proof.
    induction 1 as [|k l l' HP IH|k k' l|l l' l'' HP IH HP' IH']; intros HN g.
    - intros idx _. reflexivity.
    - inversion HN; subst. apply IH. assumption.
    - cbn [ten fold_left]. apply ten_eqn. intros idx _. apply along_swap.
      inversion HN as [|? ? Hk _]; subst. intros ->. apply Hk. left. reflexivity.
    - intros idx Hl. rewrite IH by assumption. apply IH'; [|assumption].
      eapply Permutation_NoDup; eassumption.
  Qed.
End Matrix.

Section Matrix2.
  Variable K : Fld.
  Notation garr := (list nat -> K).

  Lemma lset_cons_S i idx k v : lset (i :: idx) (S k) v = i :: lset idx k v.
  Proof.
    apply list_ext; [cbn [length]; rewrite !lset_length; reflexivity|].
    rewrite lset_length. intros j Hj. rewrite nth_lset by assumption.
    destruct j as [|j]; [reflexivity|]. cbn [nth]. rewrite nth_lset by (cbn in Hj; lia). reflexivity.
  Qed.
  Lemma lset_cons_0 i idx v : lset (i :: idx) 0 v = v :: idx.
  Proof.
    apply list_ext; [cbn [length]; rewrite !lset_length; reflexivity|].
    rewrite lset_length. intros j Hj. rewrite nth_lset by assumption.
    destruct j as [|j]; reflexivity.
  Qed.

  Lemma ten_cons T l : (forall k, exists n, depends n (T k)) -> forall (g : garr) j idx,
    ten K T (map S l) g (j :: idx) = ten K (fun k => T (S k)) l (fun r => g (j :: r)) idx.
  Proof.
    intros HT. induction l as [|k l IH]; intros g j idx; [reflexivity|].
    cbn [map]. cbn [ten fold_left].
    fold (ten K T (map S l) (along (S k) (T (S k)) g)).
    fold (ten K (fun k => T (S k)) l (along k (T (S k)) (fun r => g (j :: r)))).
    rewrite IH.
    assert (E : forall l' (g' h' : garr), (forall r, g' r = h' r) ->
      forall r, ten K (fun k => T (S k)) l' g' r = ten K (fun k => T (S k)) l' h' r).
    { clear -HT. induction l' as [|q l' IH]; intros g' h' H r; [apply H|]. cbn [ten fold_left].
      apply IH. intros r'. unfold along. destruct (HT (S q)) as [m Hm]. apply Hm. intros i _. apply H. }
    apply E. intros r. unfold along. cbn [nth]. destruct (HT (S k)) as [m Hm]. apply Hm.
    intros i _. rewrite lset_cons_S. reflexivity.
  Qed.

  Lemma ten_matrix N : forall (n : nat -> nat) M T, linear K n M T -> forall (g : garr) idx, length idx = N ->
    ten K T (rev (seq 0 N)) g idx = matrix_transform (map (fun k => (n k, M k)) (seq 0 N)) g idx.
  Proof.
    induction N as [|N IH]; intros n M T HT g idx Hl.
    - destruct idx; [reflexivity | discriminate].
    - destruct idx as [|i idx]; [discriminate|].
      change (seq 0 (S N)) with (0 :: seq 1 N). cbn [rev map].
      rewrite <- (seq_shift N 0) at 1.
      unfold ten at 1. rewrite fold_left_app. cbn [fold_left].
      fold (ten K T (rev (map S (seq 0 N))) g).
      rewrite <- map_rev. cbn [matrix_transform].
      unfold along. rewrite HT. cbn [nth]. apply fsum_ext. intros j _. f_equal.
      rewrite lset_cons_0.
      rewrite ten_cons.
      + rewrite (IH (fun k => n (S k)) (fun k => M (S k)) (fun k => T (S k))).
        * rewrite <- (seq_shift N 0), map_map. reflexivity.
        * intros k l q. apply HT.
        * cbn in Hl. lia.
      + intros k. exists (n k). intros l l' H q. rewrite !HT. apply fsum_ext. intros r Hr.
        rewrite H by assumption. reflexivity.
  Qed.
End Matrix2.

(** ** planning succeeds *)
Section Defined.
  Variable dims : list nat.
  Context {V : Type}.
  Notation base := (@base V).
  Variables (bases : list base) (d : base).
  Hypothesis Hlen : length bases = length dims.
  Hypothesis Hpos : forall i, i < length dims -> 1 <= nth i dims 1.

  Notation roomy := (roomy dims).

  Lemma mk_pencil_ok sub sh k : roomy sh -> k < length dims ->
    (forall i, i < length dims -> nth i sub 0 < length dims) ->
    nth (nth k sub 0) dims 1 = 1 -> mk_pencil dims sub sh k = Some (mkPencil sub sh k).
  Proof.
    intros [H1 H2] Hk Hsub Hs. unfold mk_pencil. rewrite H1, (proj2 (Nat.ltb_lt _ _) Hk).
    unfold psize at 1. cbn [p_sub]. rewrite Hs. cbn [andb Nat.eqb].
    rewrite (proj2 (forallb_forall _ _)); [reflexivity|].
    intros i Hi. apply in_seq in Hi. apply andb_true_iff. split; apply Nat.leb_le.
    - specialize (H2 i k ltac:(lia) Hk). specialize (Hpos k Hk). lia.
    - unfold psize. cbn [p_sub]. apply H2; [lia | apply Hsub; lia].
  Qed.

  Lemma roomy_lset sh k m : roomy sh -> (forall j, j < length dims -> nth j dims 1 <= m) -> roomy (lset sh k m).
  Proof.
    intros [H1 H2] Hm. split; [rewrite lset_length; assumption|]. intros i j Hi Hj.
    rewrite nth_lset by lia. destruct (i =? k); auto.
  Qed.

  Lemma pencil_to_ok pA k : pwf dims pA -> roomy (p_shape pA) -> k < length dims -> k <> p_axis pA ->
    exists pB, pencil_to dims pA k = Some pB.
  Proof.
    intros (P1 & P2 & P3 & P4 & P5 & P6) Hr Hk Hne. unfold pencil_to. eexists. apply mk_pencil_ok; auto.
    - intros i Hi. rewrite !nth_lset by (rewrite ?lset_length; lia).
      destruct (i =? p_axis pA); [apply P4; lia|]. destruct (i =? k); apply P4; lia.
    - rewrite nth_lset_other by auto. rewrite nth_lset_same by lia. exact P6.
  Qed.

  (** condition on a group of axes *)
  Definition gplan (g : list nat) : Prop :=
    g <> [] /\ (forall k, In k g -> k < length dims /\
      forall j, j < length dims -> nth j dims 1 <= bs_spec (nth k bases d)) /\
    (2 <= length g -> is_fourier (nth (last g 0) bases d) = true) /\
    (forall k, In k (removelast g) -> bs_kind (nth k bases d) = C2C).

  Lemma dtypes_c2c l : forall dt r, (forall k, In k l -> bs_kind (nth k bases d) = C2C) ->
    dtypes_ok bases d dt (l ++ r) -> (l <> [] -> dt = true) /\ dtypes_ok bases d dt r.
  Proof.
    induction l as [|k l IH]; intros dt r Hl H; [split; [contradiction|exact H]|].
    cbn [app dtypes_ok] in H. unfold dtype_out in H. rewrite (Hl k (or_introl eq_refl)) in H.
    destruct H as [-> H]. split; [auto|]. apply IH; [intros j Hj; apply Hl; right; assumption | exact H].
  Qed.

  Lemma gplan_plan g dt rest sh : gplan g -> dtypes_ok bases d dt (rev g ++ rest) ->
    (exists s, plan (with_base bases d g) (last g 0) (nth (last g 0) bases d) sh dt = Some s /\
               s_pdt s = dt /\ s_sdt s = dtype_out (nth (last g 0) bases d) dt) /\
    dtypes_ok bases d (dtype_out (nth (last g 0) bases d) dt) rest.
  Proof.
    intros (G1 & G2 & G3 & G4) H. destruct (split_last g G1) as (i & k & E & El & Er).
    rewrite El in *. rewrite Er in G4. rewrite E, rev_app_distr in H. cbn [rev app dtypes_ok] in H.
    destruct H as [H1 H2]. split.
    - unfold plan. assert (EP : plan_ok (with_base bases d g) (nth k bases d) dt = true).
      { unfold plan_ok. destruct (bs_kind (nth k bases d)) eqn:EK.
        - rewrite H1. reflexivity.
        - exact H1.
        - destruct i as [|i0 i]; [rewrite E; reflexivity|].
          unfold is_fourier in G3. rewrite EK in G3.
          discriminate G3. rewrite E, app_length. cbn. lia. }
      rewrite EP. eexists. split; [reflexivity|]. auto.
    - destruct (dtypes_c2c (rev i) _ _ ltac:(intros q Hq; apply G4; apply in_rev; exact Hq) H2) as [_ Q].
      exact Q.
  Qed.

  Lemma plan_rest_defined gs : forall pA dt,
    pwf dims pA -> roomy (p_shape pA) -> NoDup (concat gs) -> ~ In (p_axis pA) (concat gs) ->
    (forall g, In g gs -> gplan g) -> dtypes_ok bases d dt (concat (map (@rev nat) gs)) ->
    exists r, plan_rest dims bases d pA dt gs = Some r.
  Proof.
    induction gs as [|g gs IH]; intros pA dt HpA Hr HN Hax Hg Hdt; [eexists; reflexivity|].
    cbn [plan_rest]. set (k := last g 0). set (b := nth k bases d).
    pose proof (Hg g (or_introl eq_refl)) as Gg. pose proof Gg as (G1 & G2 & G3 & G4).
    assert (Hkin : In k g) by (apply last_in; assumption).
    cbn [concat] in *. destruct (NoDup_app_inv _ _ HN) as (N1 & N2 & N3).
    assert (Hne : k <> p_axis pA).
    { intros Q. apply Hax. rewrite <- Q. apply in_or_app. left. assumption. }
    destruct (G2 k Hkin) as [Kd Ks].
    destruct (pencil_to_ok pA k HpA Hr Kd Hne) as [pB EB]. rewrite EB.
    destruct (pencil_to_swapped dims pA k pB HpA ltac:(auto) EB) as (Hsw & HBax & _).
    unfold mk_transfer. rewrite HBax. destruct (Nat.eqb_spec (p_axis pA) k) as [Q|_]; [congruence|].
    cbn [map concat] in Hdt.
    destruct (gplan_plan g dt _ (subshape dims pB) Gg Hdt) as [(s & Es & Ed1 & Ed2) Hdt'].
    change (with_base bases d g) with (with_base bases d g).
    fold k b in Es, Ed2, Hdt'. rewrite Es.
    assert (HpB : pwf dims pB) by apply Hsw.
    assert (Esh : p_shape pB = p_shape pA) by (symmetry; apply Hsw).
    assert (HR : roomy (lset (p_shape pB) k (bs_spec b))).
    { apply roomy_lset; [rewrite Esh; exact Hr | exact Ks]. }
    assert (EA : (if (nth k (p_shape pB) 0 =? bs_spec b) && eqb (s_pdt s) (s_sdt s) then Some pB
       else mk_pencil dims (p_sub pB) (lset (p_shape pB) k (bs_spec b)) k) = Some (pset pB k (bs_spec b))).
    { destruct (Nat.eqb_spec (nth k (p_shape pB) 0) (bs_spec b)) as [Q|Q]; cbn [andb].
      - destruct (eqb _ _).
        + rewrite <- Q. rewrite pset_id. reflexivity.
        + pose proof HpB as (B1 & B2 & B3 & B4 & B5 & B6). rewrite HBax in B6.
          rewrite mk_pencil_ok by assumption. unfold pset. rewrite HBax. reflexivity.
      - pose proof HpB as (B1 & B2 & B3 & B4 & B5 & B6). rewrite HBax in B6.
        rewrite mk_pencil_ok by assumption. unfold pset. rewrite HBax. reflexivity. }
    rewrite EA. rewrite Ed2.
    destruct (IH (pset pB k (bs_spec b)) (dtype_out b dt)) as [[[ss ts] pe] E].
    - apply pwf_pset. assumption.
    - exact HR.
    - exact N2.
    - cbn [pset p_axis]. rewrite HBax. apply N3. assumption.
    - intros q Hq. apply Hg. right. assumption.
    - exact Hdt'.
    - rewrite E. eexists. reflexivity.
  Qed.

  Lemma configure_defined gs dt : gs <> [] ->
    roomy (map bs_phys bases) -> NoDup (concat gs) -> (forall g, In g gs -> gplan g) ->
    nth (last (concat gs) 0) dims 1 = 1 ->
    dtypes_ok bases d dt (rev (concat gs)) ->
    exists sp, configure dims bases d gs dt = Some sp.
  Proof.
    intros Hne Hr HN Hg H1 Hdt. unfold configure.
    destruct (rev gs) as [|g rest] eqn:Er.
    { exfalso. apply Hne. rewrite <- (rev_involutive gs), Er. reflexivity. }
    assert (Egs : gs = rev rest ++ [g]) by (rewrite <- (rev_involutive gs), Er; reflexivity).
    set (k := last g 0). set (b := nth k bases d). rewrite Hlen.
    assert (Hgin : forall q, In q (g :: rest) -> gplan q).
    { intros q Hq. apply Hg. apply in_rev. rewrite Er. exact Hq. }
    pose proof (Hgin g (or_introl eq_refl)) as Gg. pose proof Gg as (G1 & G2 & G3 & G4).
    assert (Hkin : In k g) by (apply last_in; assumption).
    destruct (G2 k Hkin) as [Kd Ks].
    assert (Hk1 : nth k dims 1 = 1).
    { assert (Ek : last (concat gs) 0 = k).
      { rewrite Egs, concat_app. cbn [concat]. rewrite app_nil_r.
        destruct (split_last g G1) as (i & q & E & El & _). unfold k. rewrite El, E.
        rewrite app_assoc. apply last_last. }
      rewrite <- Ek. exact H1. }
    assert (E0 : mk_pencil dims (seq 0 (length dims)) (map bs_phys bases) k
                 = Some (mkPencil (seq 0 (length dims)) (map bs_phys bases) k)).
    { apply mk_pencil_ok; auto.
      - intros i Hi. rewrite seq_nth by assumption. assumption.
      - rewrite seq_nth by assumption. exact Hk1. }
    rewrite E0. set (p0 := mkPencil _ _ _) in *.
    destruct (pwf_start dims (map bs_phys bases) k p0 ltac:(rewrite map_length; exact Hlen) E0) as (HP & Hax & Hsh & _).
    rewrite <- concat_map_rev, Er in Hdt. cbn [map concat] in Hdt.
    destruct (gplan_plan g dt _ (subshape dims p0) Gg Hdt) as [(s & Es & Ed1 & Ed2) Hdt'].
    fold k b in Es, Ed2, Hdt'. rewrite Es.
    assert (HR : roomy (lset (p_shape p0) k (bs_spec b))) by (apply roomy_lset; [exact Hr | exact Ks]).
    pose proof HP as (B1 & B2 & B3 & B4 & B5 & B6).
    assert (EA : (if (nth k (p_shape p0) 0 =? bs_spec b) && eqb (s_pdt s) (s_sdt s) then Some p0
       else mk_pencil dims (p_sub p0) (lset (p_shape p0) k (bs_spec b)) k) = Some (pset p0 k (bs_spec b))).
    { destruct (Nat.eqb_spec (nth k (p_shape p0) 0) (bs_spec b)) as [Q|Q]; cbn [andb].
      - destruct (eqb _ _).
        + rewrite <- Q. rewrite pset_id. reflexivity.
        + rewrite mk_pencil_ok by assumption. reflexivity.
      - rewrite mk_pencil_ok by assumption. reflexivity. }
    rewrite EA, Ed2.
    assert (HN' : NoDup (concat (g :: rest))) by (rewrite <- Er; apply NoDup_concat_rev; assumption).
    cbn [concat] in HN'. destruct (NoDup_app_inv _ _ HN') as (N1 & N2 & N3).
    destruct (plan_rest_defined rest (pset p0 k (bs_spec b)) (dtype_out b dt)) as [[[ss ts] pe] E].
    - apply pwf_pset. assumption.
    - exact HR.
    - exact N2.
    - apply N3. exact Hkin.
    - intros q Hq. apply Hgin. right. assumption.
    - exact Hdt'.
    - rewrite E. eexists. reflexivity.
  Qed.
End Defined.
