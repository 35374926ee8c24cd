(** PencilProofs.v -- block distributions, list updates, redistributions. *)
From Coq Require Import Arith List Bool Lia Permutation.
From Verif Require Import Base Fld PencilModel PencilSpec.
Import ListNotations.
Local Open Scope nat_scope.

Lemma lset_length l k v : length (lset l k v) = length l.
Proof. unfold lset. rewrite map_length, seq_length. reflexivity. Qed.

Lemma nth_map_seq {A} (f : nat -> A) n i d : i < n -> nth i (map f (seq 0 n)) d = f i.
Proof.
  intros H. rewrite nth_indep with (d' := f 0) by (rewrite map_length, seq_length; lia).
  rewrite map_nth, seq_nth by lia. reflexivity.
Qed.

Lemma nth_lset_same l k v d : k < length l -> nth k (lset l k v) d = v.
Proof. intros H. unfold lset. rewrite nth_map_seq by lia. rewrite Nat.eqb_refl. reflexivity. Qed.
Lemma nth_lset_other l k v i : i <> k -> nth i (lset l k v) 0 = nth i l 0.
Proof.
  intros H. destruct (Nat.lt_ge_cases i (length l)) as [Hi|Hi].
  - unfold lset. rewrite nth_map_seq by lia. destruct (Nat.eqb_spec i k); [contradiction | reflexivity].
  - rewrite !nth_overflow; [reflexivity | lia | rewrite lset_length; lia].
Qed.
Lemma nth_lset l k v i : i < length l -> nth i (lset l k v) 0 = if i =? k then v else nth i l 0.
Proof. intros H. unfold lset. rewrite nth_map_seq by lia. reflexivity. Qed.

Lemma list_ext (l l' : list nat) :
  length l = length l' -> (forall i, i < length l -> nth i l 0 = nth i l' 0) -> l = l'.
Proof. intros. apply nth_ext with (d := 0) (d' := 0); assumption. Qed.

Lemma lset_id l k : lset l k (nth k l 0) = l.
Proof.
  apply list_ext; [apply lset_length |]. rewrite lset_length. intros i Hi.
  rewrite nth_lset by assumption. destruct (Nat.eqb_spec i k); subst; reflexivity.
Qed.
Lemma lset_lset l k v w : lset (lset l k v) k w = lset l k w.
Proof.
  apply list_ext; rewrite !lset_length; [reflexivity|]. intros i Hi.
  rewrite !nth_lset by (rewrite ?lset_length; assumption). destruct (i =? k); reflexivity.
Qed.
Lemma lset_comm l k k' v w : k <> k' -> lset (lset l k v) k' w = lset (lset l k' w) k v.
Proof.
  intros H. apply list_ext; rewrite !lset_length; [reflexivity|]. intros i Hi.
  rewrite !nth_lset by (rewrite ?lset_length; assumption).
  destruct (Nat.eqb_spec i k), (Nat.eqb_spec i k'); subst; congruence.
Qed.

(** ** blocks *)
Lemma bstart_0 N size : bstart N size 0 = 0.
Proof. reflexivity. Qed.
Lemma bstart_S N size r : bstart N size (S r) = bstart N size r + blen N size r.
Proof.
  unfold bstart, blen, blockdist. cbn [fst snd].
  destruct (Nat.ltb_spec r (N mod size)); lia.
Qed.
Lemma bstart_all N size : 0 < size -> bstart N size size = N.
Proof.
  intros H. unfold bstart, blockdist. cbn [fst snd].
  pose proof (Nat.div_mod N size ltac:(lia)). pose proof (Nat.mod_upper_bound N size ltac:(lia)). lia.
Qed.
Lemma bstart_mono N size r r' : r <= r' -> bstart N size r <= bstart N size r'.
Proof. induction 1; [lia|]. rewrite bstart_S. lia. Qed.
Lemma block_bound N size r : r < size -> bstart N size r + blen N size r <= N.
Proof.
  intros H. rewrite <- bstart_S. rewrite <- (bstart_all N size) at 2 by lia.
  apply bstart_mono. lia.
Qed.
Lemma blen_one N : blen N 1 0 = N.
Proof. pose proof (bstart_S N 1 0). rewrite bstart_0, bstart_all in H by lia. lia. Qed.

Lemma owner_exists N size j : forall n, n <= size -> j < bstart N size n ->
  exists r, r < n /\ bstart N size r <= j < bstart N size r + blen N size r.
Proof.
  induction n; intros Hn Hj; [rewrite bstart_0 in Hj; lia|].
  destruct (Nat.lt_ge_cases j (bstart N size n)) as [H|H].
  - destruct (IHn ltac:(lia) H) as (r & ? & ?). exists r. split; [lia | assumption].
  - exists n. rewrite bstart_S in Hj. lia.
Qed.
Lemma owner_spec N size j : 0 < size -> j < N ->
  owner N size j < size /\
  bstart N size (owner N size j) <= j < bstart N size (owner N size j) + blen N size (owner N size j).
Proof.
  intros Hs Hj. unfold owner.
  destruct (owner_exists N size j size (le_n _)) as (r & Hr & Hr2); [rewrite bstart_all; lia|].
  destruct (find _ _) as [q|] eqn:E.
  - apply find_some in E. destruct E as [E1 E2]. apply in_seq in E1.
    apply andb_true_iff in E2. destruct E2 as [E2 E3].
    apply Nat.leb_le in E2. apply Nat.ltb_lt in E3. lia.
  - exfalso. apply find_none with (x := r) in E; [|apply in_seq; lia].
    apply andb_false_iff in E. destruct E as [E|E].
    + apply Nat.leb_gt in E. lia.
    + apply Nat.ltb_ge in E. lia.
Qed.

(** ** pencils *)
Section Grid.
  Variable dims : list nat.

  Definition pwf (p : pencil) : Prop :=
    length (p_sub p) = length (p_shape p) /\ length (p_shape p) = length dims /\
    NoDup (p_sub p) /\ (forall i, i < length dims -> nth i (p_sub p) 0 < length dims) /\
    p_axis p < length dims /\ psize dims p (p_axis p) = 1.

  Lemma psize_grid p i c : pwf p -> i < length dims -> on_grid dims c -> prank p c i < psize dims p i.
  Proof.
    intros (H1 & H2 & H3 & H4 & H5 & H6) Hi (Hc & Hc2). unfold prank, psize.
    apply Hc2. apply H4. assumption.
  Qed.

  Lemma prank_one p i c : pwf p -> i < length dims -> on_grid dims c -> psize dims p i = 1 -> prank p c i = 0.
  Proof. intros H Hi Hc Hs. pose proof (psize_grid p i c H Hi Hc). lia. Qed.

  Lemma plen_one p i c : pwf p -> i < length dims -> on_grid dims c -> psize dims p i = 1 ->
    plen dims p c i = nth i (p_shape p) 0.
  Proof. intros H Hi Hc Hs. unfold plen. rewrite (prank_one p i c) by assumption. rewrite Hs. apply blen_one. Qed.
  Lemma pstart_one p i c : pwf p -> i < length dims -> on_grid dims c -> psize dims p i = 1 ->
    pstart dims p c i = 0.
  Proof. intros H Hi Hc Hs. unfold pstart. rewrite (prank_one p i c) by assumption. reflexivity. Qed.

  Lemma subshape_length p c : length (subshape dims p c) = length (p_shape p).
  Proof. unfold subshape. rewrite map_length, seq_length. reflexivity. Qed.
  Lemma nth_subshape p c i : i < length (p_shape p) -> nth i (subshape dims p c) 0 = plen dims p c i.
  Proof. intros. unfold subshape. rewrite nth_map_seq by assumption. reflexivity. Qed.

  Lemma inside_iff p c idx : inside (subshape dims p c) idx <->
    length idx = length (p_shape p) /\ forall i, i < length (p_shape p) -> nth i idx 0 < plen dims p c i.
  Proof.
    unfold inside. rewrite subshape_length. split; intros [H1 H2]; split; try assumption; intros i Hi.
    - rewrite <- nth_subshape by assumption. auto.
    - rewrite nth_subshape by assumption. auto.
  Qed.

  Lemma global_length p c idx : length (global_index dims p c idx) = length (p_shape p).
  Proof. unfold global_index. rewrite map_length, seq_length. reflexivity. Qed.
  Lemma nth_global p c idx i : i < length (p_shape p) ->
    nth i (global_index dims p c idx) 0 = pstart dims p c i + nth i idx 0.
  Proof. intros. unfold global_index. rewrite nth_map_seq by assumption. reflexivity. Qed.

  Lemma global_inside p c idx : pwf p -> on_grid dims c -> inside (subshape dims p c) idx ->
    inside (p_shape p) (global_index dims p c idx).
  Proof.
    intros Hp Hc Hi. apply inside_iff in Hi. destruct Hi as [H1 H2].
    split; [apply global_length|]. intros i Hi. rewrite nth_global by assumption.
    specialize (H2 i Hi). destruct Hp as (Q1 & Q2 & Q).
    pose proof (psize_grid p i c (conj Q1 (conj Q2 Q)) ltac:(lia) Hc) as Hs.
    pose proof (block_bound (nth i (p_shape p) 0) _ _ Hs).
    unfold plen in H2. unfold pstart. lia.
  Qed.

  Lemma mk_pencil_some sub shape axis p : mk_pencil dims sub shape axis = Some p ->
    p = mkPencil sub shape axis /\ axis < length shape /\ psize dims p axis = 1 /\
    forall i, i < length shape -> 1 <= nth i shape 0 /\ psize dims p i <= nth i shape 0.
  Proof.
    unfold mk_pencil. destruct (_ && _) eqn:E; [|discriminate]. intros H; injection H as <-.
    apply andb_true_iff in E. destruct E as [E E3]. apply andb_true_iff in E. destruct E as [E1 E2].
    apply Nat.ltb_lt in E1. apply Nat.eqb_eq in E2.
    split; [reflexivity|]. split; [assumption|]. split; [assumption|].
    intros i Hi. rewrite forallb_forall in E3. specialize (E3 i ltac:(apply in_seq; lia)).
    apply andb_true_iff in E3. destruct E3 as [E3 E4]. apply Nat.leb_le in E3. apply Nat.leb_le in E4.
    auto.
  Qed.

  (** two pencils that exchange the communicators of their aligned axes *)
  Definition swapped (A B : pencil) : Prop :=
    pwf A /\ pwf B /\ p_shape A = p_shape B /\ p_axis A <> p_axis B /\
    nth (p_axis B) (p_sub A) 0 = nth (p_axis A) (p_sub B) 0 /\
    nth (p_axis A) (p_sub A) 0 = nth (p_axis B) (p_sub B) 0 /\
    forall i, i <> p_axis A -> i <> p_axis B -> nth i (p_sub A) 0 = nth i (p_sub B) 0.

  Lemma swapped_sym A B : swapped A B -> swapped B A.
  Proof.
    intros (H1 & H2 & H3 & H4 & H5 & H6 & H7).
    repeat split; try apply H1; try apply H2; auto.
    intros i Hi Hj. symmetry. apply H7; assumption.
  Qed.

  Lemma NoDup_swap l a b : NoDup l -> a < length l -> b < length l ->
    NoDup (lset (lset l b (nth a l 0)) a (nth b l 0)).
  Proof.
    intros Hl Ha Hb. apply (NoDup_nth _ 0). rewrite !lset_length.
    intros i j Hi Hj. rewrite !nth_lset by (rewrite ?lset_length; assumption).
    pose proof (proj1 (NoDup_nth l 0) Hl) as Q.
    destruct (Nat.eqb_spec i a), (Nat.eqb_spec j a), (Nat.eqb_spec i b), (Nat.eqb_spec j b); subst;
      intros E; try reflexivity; try (apply Q in E; lia); auto.
  Qed.

  Lemma pencil_to_swapped A k B : pwf A -> p_axis A <> k -> pencil_to dims A k = Some B ->
    swapped A B /\ p_axis B = k /\
    (forall i, i <> k -> i <> p_axis A -> psize dims B i = psize dims A i) /\
    psize dims B k = 1.
  Proof.
    intros HA Hk H. unfold pencil_to in H. apply mk_pencil_some in H.
    destruct H as (-> & Hax & Hs & _).
    pose proof HA as (Q1 & Q2 & Q3 & Q4 & Q5 & Q6).
    assert (Lb : k < length (p_sub A)) by lia.
    assert (La : p_axis A < length (p_sub A)) by lia.
    assert (E1 : nth k (lset (lset (p_sub A) k (nth (p_axis A) (p_sub A) 0)) (p_axis A) (nth k (p_sub A) 0)) 0
                 = nth (p_axis A) (p_sub A) 0).
    { rewrite nth_lset_other by auto. apply nth_lset_same; assumption. }
    assert (E2 : nth (p_axis A) (lset (lset (p_sub A) k (nth (p_axis A) (p_sub A) 0)) (p_axis A) (nth k (p_sub A) 0)) 0
                 = nth k (p_sub A) 0).
    { apply nth_lset_same. rewrite lset_length. assumption. }
    assert (E3 : forall i, i <> k -> i <> p_axis A ->
       nth i (lset (lset (p_sub A) k (nth (p_axis A) (p_sub A) 0)) (p_axis A) (nth k (p_sub A) 0)) 0
                 = nth i (p_sub A) 0).
    { intros i Hi Hj. rewrite !nth_lset_other by auto. reflexivity. }
    split; [|split; [reflexivity|split; [|exact Hs]]].
    - split; [exact HA|]. split; [|repeat split; cbn [p_axis p_sub p_shape]; auto].
      + split; [cbn [p_sub p_shape]; rewrite !lset_length; assumption|].
        split; [exact Q2|]. split; [apply NoDup_swap; assumption|].
        split; [|split; [cbn [p_axis]; lia | exact Hs]].
        cbn [p_sub]. intros i Hi. rewrite !nth_lset by (rewrite ?lset_length; lia).
        destruct (i =? p_axis A); [apply Q4; lia|]. destruct (i =? k); apply Q4; lia.
      + intros i Hi Hj. symmetry. apply E3; assumption.
    - intros i Hi Hj. unfold psize. cbn [p_sub]. rewrite E3 by assumption. reflexivity.
  Qed.

  Lemma on_grid_lset c k v : on_grid dims c -> v < nth k dims 1 -> on_grid dims (lset c k v).
  Proof.
    intros [H1 H2] Hv. split; [rewrite lset_length; assumption|]. intros i Hi.
    rewrite nth_lset by lia. destruct (Nat.eqb_spec i k); subst; auto.
  Qed.

  Lemma all_coords_ok ds c : In c (all_coords ds) <->
    length c = length ds /\ forall i, i < length ds -> nth i c 0 < nth i ds 1.
  Proof.
    revert c. induction ds as [|n ds IH]; intros c; cbn [all_coords].
    - cbn. split.
      + intros [<-|[]]. split; [reflexivity | intros; lia].
      + intros [H _]. destruct c; [auto | discriminate].
    - rewrite in_flat_map. split.
      + intros (i & Hi & H). apply in_map_iff in H. destruct H as (c' & <- & H).
        apply IH in H. destruct H as [H1 H2]. apply in_seq in Hi.
        split; [cbn; lia|]. intros [|j] Hj; cbn in *; [lia | apply H2; lia].
      + intros [H1 H2]. destruct c as [|i c]; [discriminate|]. exists i.
        split; [apply in_seq; specialize (H2 0); cbn in H2; lia|].
        apply in_map_iff. exists c. split; [reflexivity|]. apply IH.
        split; [cbn in H1; lia|]. intros j Hj. apply (H2 (S j)). cbn; lia.
  Qed.

  Lemma same_shapes_true f g : same_shapes dims f g = true <-> (forall c, on_grid dims c -> f c = g c).
  Proof.
    unfold same_shapes. rewrite forallb_forall. split.
    - intros H c Hc. specialize (H c). unfold shape_eqb in H.
      destruct (list_eq_dec Nat.eq_dec (f c) (g c)); [assumption|].
      discriminate H. apply all_coords_ok. exact Hc.
    - intros H c Hc. unfold shape_eqb. destruct (list_eq_dec Nat.eq_dec (f c) (g c)); [reflexivity|].
      exfalso. apply n. apply H. apply all_coords_ok. exact Hc.
  Qed.

  Section Values.
    Context {V : Type}.

    Lemma transfer_ok A B dt (x : @buf V) g ds :
      swapped A B -> distributed dims A x g -> b_dt x = dt ->
      (forall c, on_grid dims c -> ds c = subshape dims B c) ->
      exists y, transfer_forward dims (mkTransfer A B dt) x ds dt = Some y /\
                b_shape y = ds /\ b_dt y = dt /\ distributed dims B y g.
    Proof.
      intros HS [Hx1 Hx2] Hdt Hds. unfold transfer_forward. cbn [t_A t_B t_dt].
      rewrite (proj2 (same_shapes_true _ _) Hx1), (proj2 (same_shapes_true _ _) Hds).
      rewrite Hdt, eqb_reflx. cbn [andb].
      eexists. split; [reflexivity|]. cbn [b_shape b_dt]. split; [reflexivity|]. split; [reflexivity|].
      destruct HS as (HA & HB & E1 & E2 & E3 & E4 & E5).
      pose proof HA as (A1 & A2 & A3 & A4 & A5 & A6). pose proof HB as (B1 & B2 & B3 & B4 & B5 & B6).
      split; [exact Hds|]. cbn [b_dat]. intros c idx Hc Hi.
      unfold alltoallw.
      set (a := p_axis A) in *. set (b := p_axis B) in *.
      set (comm := nth b (p_sub A) 0) in *. set (size := nth comm dims 1).
      set (Na := nth a (p_shape A) 0). set (Nb := nth b (p_shape A) 0).
      set (r := nth comm c 0).
      apply inside_iff in Hi. destruct Hi as [Hl Hi].
      assert (Hr : r < size). { apply Hc. apply A4. lia. }
      assert (Hb : nth b idx 0 < Nb).
      { specialize (Hi b ltac:(lia)). rewrite plen_one in Hi by (try assumption; lia).
        unfold Nb. rewrite E1. exact Hi. }
      destruct (owner_spec Nb size (nth b idx 0) ltac:(lia) Hb) as [Ho1 Ho2].
      set (i := owner Nb size (nth b idx 0)) in *.
      assert (Hc' : on_grid dims (lset c comm i)) by (apply on_grid_lset; assumption).
      assert (Hcl : comm < length c). { destruct Hc as [-> _]. apply A4. lia. }
      assert (Rb : prank A (lset c comm i) b = i).
      { unfold prank. fold comm. apply nth_lset_same. assumption. }
      assert (Sb : psize dims A b = size) by reflexivity.
      assert (Ra : prank B c a = r) by (unfold prank; fold a; rewrite <- E3; reflexivity).
      assert (Sa : psize dims B a = size) by (unfold psize; fold a; rewrite <- E3; reflexivity).
      assert (Ro : forall j, j < length dims -> j <> a -> j <> b -> prank A (lset c comm i) j = prank B c j).
      { intros j Hj Ja Jb. unfold prank. rewrite nth_lset_other.
        - rewrite E5 by assumption. reflexivity.
        - unfold comm. intros Q. apply (proj1 (NoDup_nth (p_sub A) 0) A3) in Q; lia. }
      assert (So : forall j, j <> a -> j <> b -> psize dims A j = psize dims B j).
      { intros j Ja Jb. unfold psize. rewrite E5 by assumption. reflexivity. }
      set (idx' := lset (lset idx b (nth b idx 0 - bstart Nb size i)) a (nth a idx 0 + bstart Na size r)).
      assert (Nia : nth a idx' 0 = nth a idx 0 + bstart Na size r).
      { unfold idx'. apply nth_lset_same. rewrite lset_length. lia. }
      assert (Nib : nth b idx' 0 = nth b idx 0 - bstart Nb size i).
      { unfold idx'. rewrite nth_lset_other by auto. apply nth_lset_same. lia. }
      assert (Nio : forall j, j <> a -> j <> b -> nth j idx' 0 = nth j idx 0).
      { intros j Ja Jb. unfold idx'. rewrite !nth_lset_other by auto. reflexivity. }
      assert (Hlia : nth a idx 0 < blen Na size r).
      { specialize (Hi a ltac:(lia)). unfold plen in Hi. rewrite Sa, Ra, <- E1 in Hi. exact Hi. }
      rewrite Hx2; [|assumption|].
      - f_equal. apply list_ext; [rewrite !global_length; lia|].
        rewrite global_length. intros j Hj. rewrite !nth_global by lia.
        destruct (Nat.eq_dec j a) as [->|Ja]; [|destruct (Nat.eq_dec j b) as [->|Jb]].
        + rewrite Nia. rewrite pstart_one by (try assumption; lia).
          unfold pstart. rewrite Sa, Ra, <- E1. fold Na. lia.
        + rewrite Nib. rewrite (pstart_one B) by (try assumption; lia).
          unfold pstart. rewrite Sb, Rb. fold Nb. lia.
        + rewrite Nio by assumption. unfold pstart. rewrite Ro, So, E1 by (try assumption; lia). reflexivity.
      - apply inside_iff. split; [unfold idx'; rewrite !lset_length; lia|].
        intros j Hj.
        destruct (Nat.eq_dec j a) as [->|Ja]; [|destruct (Nat.eq_dec j b) as [->|Jb]].
        + rewrite Nia. rewrite plen_one by (try assumption; lia). fold Na.
          pose proof (block_bound Na size r Hr). lia.
        + rewrite Nib. unfold plen. rewrite Sb, Rb. fold Nb. lia.
        + rewrite Nio by assumption. unfold plen. rewrite Ro, So, E1 by (try assumption; lia).
          apply Hi. lia.
    Qed.

    Definition geq (sh : list nat) (g h : list nat -> V) : Prop := forall idx, inside sh idx -> g idx = h idx.

    Lemma distributed_geq p (x : @buf V) g h : pwf p -> geq (p_shape p) g h ->
      distributed dims p x g -> distributed dims p x h.
    Proof.
      intros Hp H [H1 H2]. split; [exact H1|]. intros c idx Hc Hi.
      rewrite H2 by assumption. apply H. apply global_inside; assumption.
    Qed.

    (** pencil with the number of entries along one axis replaced *)
    Definition pset (p : pencil) (k m : nat) : pencil := mkPencil (p_sub p) (lset (p_shape p) k m) (p_axis p).

    Lemma pwf_pset p k m : pwf p -> pwf (pset p k m).
    Proof.
      intros (H1 & H2 & H3 & H4 & H5 & H6). unfold pset. repeat split; cbn [p_sub p_shape p_axis]; auto.
      - rewrite lset_length. assumption.
      - rewrite lset_length. assumption.
    Qed.

    Lemma plen_pset p k m c i : i < length (p_shape p) -> i <> k -> plen dims (pset p k m) c i = plen dims p c i.
    Proof.
      intros H Hi. unfold plen, psize, prank, pset. cbn [p_sub p_shape].
      rewrite nth_lset_other by assumption. reflexivity.
    Qed.
    Lemma pstart_pset p k m c i : i <> k -> pstart dims (pset p k m) c i = pstart dims p c i.
    Proof.
      intros Hi. unfold pstart, psize, prank, pset. cbn [p_sub p_shape].
      rewrite nth_lset_other by assumption. reflexivity.
    Qed.

    Lemma subshape_pset p k m c : pwf p -> k < length dims -> on_grid dims c -> psize dims p k = 1 ->
      lset (subshape dims p c) k m = subshape dims (pset p k m) c.
    Proof.
      intros Hp Hk Hc Hs. pose proof Hp as (H1 & H2 & _).
      apply list_ext.
      - rewrite lset_length, !subshape_length. unfold pset. cbn [p_shape]. rewrite lset_length. reflexivity.
      - rewrite lset_length, subshape_length. intros i Hi.
        rewrite nth_lset by (rewrite subshape_length; assumption).
        rewrite (nth_subshape (pset p k m)) by (cbn [pset p_shape]; rewrite lset_length; assumption).
        destruct (Nat.eqb_spec i k) as [->|Hn].
        + rewrite plen_one; [|apply pwf_pset; assumption|assumption|assumption|exact Hs].
          cbn [pset p_shape]. rewrite nth_lset_same by lia. reflexivity.
        + rewrite nth_subshape by assumption. symmetry. apply plen_pset; assumption.
    Qed.

    Lemma along_ok p (x : @buf V) g k m F sh dt :
      pwf p -> k < length dims -> psize dims p k = 1 -> depends (nth k (p_shape p) 0) F ->
      distributed dims p x g ->
      (forall c, on_grid dims c -> sh c = lset (subshape dims p c) k m) ->
      distributed dims (pset p k m) (mkBuf sh dt (along_d k F (b_dat x))) (along k F g).
    Proof.
      intros Hp Hk Hs HF [Hx1 Hx2] Hsh.
      split; cbn [b_shape b_dat].
      - intros c Hc. rewrite Hsh by assumption. apply subshape_pset; assumption.
      - intros c idx Hc Hi. unfold along_d, along. pose proof Hp as (H1 & H2 & _).
        apply inside_iff in Hi. cbn [pset p_shape] in Hi. rewrite lset_length in Hi.
        destruct Hi as [Hl Hi].
        rewrite nth_global by (cbn [pset p_shape]; rewrite lset_length; lia).
        rewrite pstart_one; [|apply pwf_pset; assumption|assumption|assumption|exact Hs].
        rewrite Nat.add_0_l. apply HF. intros j Hj.
        rewrite Hx2; [|assumption|].
        + f_equal. apply list_ext.
          * rewrite lset_length, !global_length. cbn [pset p_shape]. rewrite lset_length. reflexivity.
          * rewrite global_length. intros i Hi'. rewrite nth_global by assumption.
            rewrite (nth_lset (global_index _ _ _ _))
              by (rewrite global_length; cbn [pset p_shape]; rewrite lset_length; assumption).
            destruct (Nat.eqb_spec i k) as [->|Hn].
            -- rewrite nth_lset_same by lia. rewrite pstart_one by assumption. lia.
            -- rewrite nth_lset_other by assumption.
               rewrite nth_global by (cbn [pset p_shape]; rewrite lset_length; assumption).
               rewrite pstart_pset by assumption. reflexivity.
        + apply inside_iff. split; [rewrite lset_length; lia|]. intros i Hi'.
          rewrite nth_lset by lia. destruct (Nat.eqb_spec i k) as [->|Hn].
          * rewrite plen_one by assumption. assumption.
          * rewrite <- (plen_pset p k m) by assumption. apply Hi. assumption.
    Qed.
  End Values.
End Grid.
