(** CompositeProofs.v -- lemmas for CompositeModel *)
From Coq Require Import Arith ZArith List Bool Lia.
From Verif Require Import Base CompositeModel.
Import ListNotations.

(** ** offsets *)
Lemma fold_num l o : fold_left (fun o s => o + num_components s) l o = o + length (flat_map flatten l).
Proof. revert o. induction l as [|s l IH]; intros o; [cbn; lia|]. cbn [fold_left flat_map]. rewrite IH, app_length. unfold num_components. lia. Qed.
Lemma range_offset_eq l i : range_offset l i = length (flat_map flatten (firstn (Z.to_nat i) l)).
Proof. unfold range_offset. rewrite fold_num. reflexivity. Qed.
Lemma flat_map_split (l : list space) n s : nth_error l n = Some s ->
  flat_map flatten l = flat_map flatten (firstn n l) ++ flatten s ++ flat_map flatten (skipn (S n) l).
Proof.
  revert n. induction l as [|x l IH]; intros n H; [destruct n; discriminate|]. destruct n as [|n].
  - cbn in H. injection H as ->. reflexivity.
  - cbn in H. cbn [firstn skipn flat_map]. rewrite <- app_assoc. f_equal. apply IH, H.
Qed.
Lemma py_nth_pos {A} (l : list A) i : (0 <= i)%Z -> py_nth l i = nth_error l (Z.to_nat i).
Proof. intros H. unfold py_nth. destruct (Z.ltb_spec i 0); [lia|reflexivity]. Qed.
(** the components of [sub] sit at positions [o .. o + num sub) of [s] *)
Definition sits (s sub : space) (o : nat) : Prop :=
  o + num_components sub <= num_components s /\ forall k, k < num_components sub -> nth_error (flatten s) (o + k) = nth_error (flatten sub) k.
Lemma sits_refl s : sits s s 0.
Proof. split; [lia|reflexivity]. Qed.
Lemma sits_trans a b c o o' : sits a b o -> sits b c o' -> sits a c (o + o').
Proof.
  intros [H1 H2] [H3 H4]. split; [lia|]. intros k Hk. rewrite <- Nat.add_assoc, H2 by lia. apply H4, Hk.
Qed.
Lemma sits_item l i s : (0 <= i)%Z -> py_nth l i = Some s -> sits (Comp l) s (range_offset l i).
Proof.
  intros Hi H. rewrite py_nth_pos in H by exact Hi. pose proof (flat_map_split l _ s H) as E. unfold sits, num_components. cbn [flatten]. rewrite E, range_offset_eq, !app_length.
  split; [lia|]. intros k Hk. rewrite nth_error_app2 by lia. replace (_ + k - _) with k by lia. apply nth_error_app1, Hk.
Qed.
Lemma basis_path_sits p : forall s o sub off, Forall (fun i => 0 <= i)%Z p -> basis_path (s, o) p = Some (sub, off) -> o <= off /\ sits s sub (off - o).
Proof.
  induction p as [|i p IH]; intros s o sub off Hp H; cbn [basis_path] in H.
  - injection H as -> ->. rewrite Nat.sub_diag. split; [lia|apply sits_refl].
  - inversion Hp as [|? ? Hi Hp']; subst. destruct s as [a|l]; cbn [basis_item fst snd] in H; [discriminate|]. destruct (py_nth l i) as [s'|] eqn:E; [|discriminate].
    destruct (IH _ _ _ _ Hp' H) as [L S]. split; [lia|]. replace (off - o) with (range_offset l i + (off - (o + range_offset l i))) by lia.
    apply (sits_trans _ s'); [apply sits_item; assumption|exact S].
Qed.
(** induction on spaces *)
Fixpoint height (s : space) : nat := match s with Leaf _ => 0 | Comp l => S (fold_right (fun s m => Nat.max (height s) m) 0 l) end.
Lemma height_in l s : In s l -> height s < height (Comp l).
Proof.
  cbn. intros H. apply Nat.lt_succ_r. induction l as [|x l IH]; [contradiction|]. cbn [fold_right]. destruct H as [->|H]; [lia|]. specialize (IH H). lia.
Qed.
Lemma space_ind' (P : space -> Prop) : (forall a, P (Leaf a)) -> (forall l, (forall s, In s l -> P s) -> P (Comp l)) -> forall s, P s.
Proof.
  intros H1 H2. assert (forall n s, height s < n -> P s) as A.
  { induction n as [|n IH]; intros s Hs; [lia|]. destruct s as [a|l]; [apply H1|]. apply H2. intros s Hin. apply IH. pose proof (height_in l s Hin). lia. }
  intros s. apply (A (S (height s))). lia.
Qed.
Lemma locate (l : list space) k : k < length (flat_map flatten l) ->
  exists n s j, nth_error l n = Some s /\ j < num_components s /\ k = length (flat_map flatten (firstn n l)) + j.
Proof.
  revert k. induction l as [|x l IH]; intros k H; [cbn in H; lia|]. cbn [flat_map] in H. rewrite app_length in H.
  destruct (Nat.lt_ge_cases k (length (flatten x))).
  - exists 0, x, k. cbn. auto.
  - destruct (IH (k - length (flatten x))) as (n & s & j & H1 & H2 & H3); [lia|]. exists (S n), s, j. cbn [nth_error firstn flat_map]. rewrite app_length. repeat split; [exact H1|exact H2|lia].
Qed.
Lemma basis_path_complete s : forall o k, k < num_components s ->
  exists p axes, Forall (fun i => 0 <= i)%Z p /\ basis_path (s, o) p = Some (Leaf axes, o + k) /\ nth_error (flatten s) k = Some axes.
Proof.
  induction s as [a|l IH] using space_ind'; intros o k Hk.
  - unfold num_components in Hk. cbn in Hk. exists [], a. assert (k = 0) as -> by lia. rewrite Nat.add_0_r. repeat split. constructor.
  - destruct (locate l k Hk) as (n & s & j & H1 & H2 & H3).
    destruct (IH s (nth_error_In _ _ H1) (o + range_offset l (Z.of_nat n)) j H2) as (p & axes & P1 & P2 & P3).
    exists (Z.of_nat n :: p), axes. split; [constructor; [lia|exact P1]|]. cbn [basis_path basis_item fst snd]. rewrite py_nth_pos, Nat2Z.id, H1 by lia. rewrite P2.
    rewrite range_offset_eq, Nat2Z.id. split; [do 2 f_equal; lia|]. subst k. cbn [flatten]. rewrite (flat_map_split l n s H1). rewrite nth_error_app2 by lia.
    replace (_ + j - _) with j by lia. rewrite nth_error_app1 by exact H2. exact P3.
Qed.
Lemma prefix_len (l : list space) n s m : nth_error l n = Some s -> n < m -> length (flat_map flatten (firstn n l)) + num_components s <= length (flat_map flatten (firstn m l)).
Proof.
  revert n m. induction l as [|x l IH]; intros n m H Hm; [destruct n; discriminate|]. destruct m as [|m]; [lia|]. destruct n as [|n].
  - cbn in H. injection H as ->. cbn [firstn flat_map]. rewrite app_length. unfold num_components. cbn. lia.
  - cbn [firstn flat_map]. rewrite !app_length. specialize (IH n m H). lia.
Qed.
Lemma basis_path_leaf_unique p : forall s o p' a a' off, Forall (fun i => 0 <= i)%Z p -> Forall (fun i => 0 <= i)%Z p' ->
  basis_path (s, o) p = Some (Leaf a, off) -> basis_path (s, o) p' = Some (Leaf a', off) -> p = p'.
Proof.
  induction p as [|i p IH]; intros s o p' a a' off Hp Hp' H H'.
  - cbn in H. injection H as -> ->. destruct p'; [reflexivity|]. cbn in H'. discriminate.
  - destruct p' as [|i' p'].
    { cbn in H'. injection H' as -> ->. cbn in H. discriminate. }
    inversion Hp as [|? ? Hi Hq]; subst. inversion Hp' as [|? ? Hi' Hq']; subst. cbn [basis_path] in H, H'.
    destruct s as [|l]; cbn [basis_item fst snd] in H, H'; [discriminate|].
    destruct (py_nth l i) as [s|] eqn:E; [|discriminate]. destruct (py_nth l i') as [s'|] eqn:E'; [|discriminate].
    destruct (basis_path_sits _ _ _ _ _ Hq H) as [L1 [S1 _]]. destruct (basis_path_sits _ _ _ _ _ Hq' H') as [L2 [S2 _]]. change (num_components (Leaf a)) with 1 in S1. change (num_components (Leaf a')) with 1 in S2.
    rewrite py_nth_pos in E, E' by assumption.
    assert (i = i') as ->.
    { rewrite !range_offset_eq in *. destruct (Z.lt_trichotomy i i') as [C|[C|C]]; [|exact C|].
      - pose proof (prefix_len l _ _ (Z.to_nat i') E ltac:(lia)). lia.
      - pose proof (prefix_len l _ _ (Z.to_nat i) E' ltac:(lia)). lia. }
    rewrite E in E'. injection E' as ->. f_equal. eapply IH; eassumption.
Qed.
(** views *)
Lemma view_path_basis p : forall v o, vscalar v = false -> voffset v = o -> vstart v = o -> Forall (fun i => 0 <= i)%Z p -> forall v', view_path v p = Some v' ->
  basis_path (vspace v, o) p = Some (vspace v', voffset v') /\ vstart v' = voffset v'.
Proof.
  assert (forall p v o, voffset v = o -> vstart v = o -> forall v', view_path v p = Some v' ->
    basis_path (vspace v, o) p = Some (vspace v', voffset v') /\ vstart v' = voffset v') as A.
  { clear. induction p as [|i p IH]; intros v o H1 H2 v' H; cbn [view_path basis_path] in *.
    - injection H as <-. rewrite H1, H2. split; reflexivity.
    - destruct v as [s st vo sc]. cbn [vspace vstart voffset] in *. subst o. subst st. unfold view_item in H. cbn [vspace vscalar vstart voffset] in H.
      destruct s as [|l]; [discriminate|]. destruct sc; [discriminate|]. cbn [basis_item fst snd]. destruct (py_nth l i) as [s|]; [|discriminate]. cbv zeta in H.
      apply (IH _ (range_offset l i + vo)) in H; [|reflexivity|cbn; lia]. cbn [vspace] in H. rewrite (Nat.add_comm vo). exact H. }
  intros v o _ H1 H2 _ v' H. eapply A; eassumption.
Qed.

(** ** slices *)
Lemma enum_length s : length (enum s) = prod (map sel_size s).
Proof.
  induction s as [|x s IH]; [reflexivity|]. destruct x as [j|a b]; cbn [enum map sel_size prod fold_right].
  - rewrite map_length, IH. unfold prod. lia.
  - change (fold_right Nat.mul 1 (map sel_size s)) with (prod (map sel_size s)). rewrite <- IH. generalize (b - a) at 1 2. intros n. revert a. induction n as [|n IHn]; intros a; [reflexivity|].
    cbn [seq flat_map]. rewrite app_length, map_length, IHn. lia.
Qed.
Lemma enum_in s idx : In idx (enum s) <-> Forall2 (fun x k => match x with Fix j => k = j | Rng a b => a <= k < b end) s idx.
Proof.
  revert idx. induction s as [|x s IH]; intros idx.
  - cbn. split; [intros [<-|[]]; constructor|]. intros H. inversion H. auto.
  - destruct x as [j|a b]; cbn [enum].
    + rewrite in_map_iff. split.
      * intros (y & <- & Hy). constructor; [reflexivity|apply IH, Hy].
      * intros H. inversion H as [|? ? ? ? H1 H2]; subst. exists l'. split; [reflexivity|apply IH, H2].
    + rewrite in_flat_map. split.
      * intros (i & Hi & H). apply in_map_iff in H. destruct H as (y & <- & Hy). apply in_seq in Hi. constructor; [lia|apply IH, Hy].
      * intros H. inversion H as [|? k ? l' H1 H2]; subst. exists k. split; [apply in_seq; lia|]. apply in_map, IH, H2.
Qed.
Lemma map_cons_NoDup (i : nat) (l : list (list nat)) : NoDup l -> NoDup (map (cons i) l).
Proof.
  induction 1 as [|x l H N IH]; [constructor|]. cbn. constructor; [|exact IH]. rewrite in_map_iff. intros (y & E & Hy). injection E as ->. contradiction.
Qed.
Lemma NoDup_app' {A} (l r : list A) : NoDup l -> NoDup r -> (forall x, In x l -> ~ In x r) -> NoDup (l ++ r).
Proof.
  induction 1 as [|x l H N IH]; intros Hr D; [exact Hr|]. cbn. constructor.
  - rewrite in_app_iff. intros [C|C]; [contradiction|]. exact (D x (or_introl eq_refl) C).
  - apply IH; [exact Hr|]. intros y Hy. apply D. right. exact Hy.
Qed.
Lemma enum_NoDup s : NoDup (enum s).
Proof.
  induction s as [|x s IH]; [constructor; [intros []|constructor]|]. destruct x as [j|a b]; cbn [enum]; [apply map_cons_NoDup, IH|].
  generalize (b - a) as n. intros n. revert a. induction n as [|n IHn]; intros a; [constructor|]. cbn [seq flat_map]. apply NoDup_app'; [apply map_cons_NoDup, IH|apply IHn|].
  intros y H1 H2. apply in_map_iff in H1. destruct H1 as (z & <- & _). apply in_flat_map in H2. destruct H2 as (i & Hi & H2). apply in_seq in Hi. apply in_map_iff in H2. destruct H2 as (w & E & _). injection E as E1 _. lia.
Qed.
Lemma idx_eqb_spec a b : reflect (a = b) (idx_eqb a b).
Proof.
  revert b. induction a as [|x a IH]; intros [|y b]; cbn; try (constructor; congruence). destruct (Nat.eqb_spec x y); cbn; [|constructor; congruence].
  destruct (IH b); constructor; congruence.
Qed.
Lemma cumsum_nth l : forall c i, i <= length l -> nth i (cumsum_from c l) 0 = c + list_sum (firstn i l).
Proof.
  induction l as [|x l IH]; intros c i H; cbn [cumsum_from].
  - cbn in H. assert (i = 0) as -> by lia. cbn. lia.
  - destruct i as [|i]; [cbn; lia|]. cbn [nth firstn]. cbn in H. rewrite IH by lia. change (list_sum (x :: firstn i l)) with (x + list_sum (firstn i l)). lia.
Qed.
Lemma masked_sizes axes mask js : length mask = length axes -> length js = length (filter (fun b => b) mask) ->
  masked_dims axes mask = map sel_size (ndiag_sel axes mask js).
Proof.
  revert mask js. induction axes as [|a axes IH]; intros [|m mask] js H1 H2; try discriminate; [reflexivity|]. cbn [masked_dims ndiag_sel]. cbn in H1. destruct m; cbn in H2.
  - destruct js as [|j js]; [discriminate|]. cbn. injection H1 as H1. injection H2 as H2. rewrite (IH mask js) by assumption. reflexivity.
  - cbn. injection H1 as H1. rewrite (IH mask js) by assumption. reflexivity.
Qed.

(** ** the dofs in the order of the flattened vector *)
Definition slots (n : nat) (sl : list (list sel)) : list (nat * list nat) := flat_map (fun i => map (pair i) (enum (nth i sl []))) (seq 0 n).
Lemma slots_S n sl : slots (S n) sl = slots n sl ++ map (pair n) (enum (nth n sl [])).
Proof. unfold slots. rewrite seq_S, flat_map_app. cbn. rewrite app_nil_r. reflexivity. Qed.
Lemma slots_in n sl i idx : In (i, idx) (slots n sl) <-> i < n /\ In idx (enum (nth i sl [])).
Proof.
  unfold slots. rewrite in_flat_map. split.
  - intros (k & Hk & H). apply in_map_iff in H. destruct H as (y & E & Hy). injection E as -> ->. apply in_seq in Hk. split; [lia|exact Hy].
  - intros [H1 H2]. exists i. split; [apply in_seq; lia|apply in_map, H2].
Qed.
Lemma slots_NoDup n sl : NoDup (slots n sl).
Proof.
  induction n as [|n IH]; [constructor|]. rewrite slots_S. apply NoDup_app'; [exact IH| |].
  - pose proof (enum_NoDup (nth n sl [])) as H. induction H as [|x l H N IH']; [constructor|]. cbn. constructor; [|exact IH']. rewrite in_map_iff. intros (y & E & Hy). injection E as ->. contradiction.
  - intros [i idx] H1 H2. apply slots_in in H1. apply in_map_iff in H2. destruct H2 as (y & E & _). injection E as -> _. lia.
Qed.
Section Copy.
Context {V : Type}.
Variable sl : list (list sel).
Let sizes := map (fun s => prod (map sel_size s)) sl.
Let dims := cumsum_from 0 sizes.
Lemma dims_slots n : n <= length sl -> nth n dims 0 = length (slots n sl).
Proof.
  intros H. unfold dims. rewrite cumsum_nth by (unfold sizes; rewrite map_length; exact H). rewrite Nat.add_0_l. induction n as [|n IH]; [reflexivity|].
  rewrite slots_S, app_length, map_length, <- IH by lia. rewrite enum_length.
  assert (nth_error sizes n = Some (prod (map sel_size (nth n sl [])))) as E.
  { unfold sizes. rewrite nth_error_map. rewrite (nth_error_nth' sl [] ) by lia. reflexivity. }
  clear IH. revert E. generalize (prod (map sel_size (nth n sl []))). intros x E. clear H. revert n E. generalize sizes as q. induction q as [|y q IHq]; intros n E; [destruct n; discriminate|].
  destruct n as [|n]; [cbn in E; injection E as ->; cbn; lia|]. specialize (IHq n E). change (firstn (S (S n)) (y :: q)) with (y :: firstn (S n) q). change (firstn (S n) (y :: q)) with (y :: firstn n q).
  change (list_sum (y :: firstn (S n) q)) with (y + list_sum (firstn (S n) q)). change (list_sum (y :: firstn n q)) with (y + list_sum (firstn n q)). lia.
Qed.
Lemma block_size n : n < length sl -> nth (n + 1) dims 0 - nth n dims 0 = length (enum (nth n sl [])).
Proof.
  intros H. rewrite Nat.add_1_r. rewrite !dims_slots by lia. rewrite slots_S, app_length, map_length. lia.
Qed.
Lemma block_write m d (g : nat -> V) f k : for_up m 0 (fun t f => upd f (d + t) (g t)) f k = if (d <=? k) && (k <? d + m) then g (k - d) else f k.
Proof.
  induction m as [|m IH].
  - cbn [for_up]. destruct (Nat.leb_spec d k); cbn [andb]; [|reflexivity]. destruct (Nat.ltb_spec k (d + 0)); [lia|reflexivity].
  - rewrite for_up_snoc. cbn [Nat.add]. unfold upd at 1. destruct (Nat.eqb_spec k (d + m)) as [->|N].
    + replace (d <=? d + m) with true by (symmetry; apply Nat.leb_le; lia). replace (d + m <? d + S m) with true by (symmetry; apply Nat.ltb_lt; lia). cbn [andb]. f_equal. lia.
    + rewrite IH. destruct (Nat.leb_spec d k); cbn [andb]; [|reflexivity]. destruct (Nat.ltb_spec k (d + m)); destruct (Nat.ltb_spec k (d + S m)); try lia; reflexivity.
Qed.
Lemma copy_to_run n (f : nat -> V) u : n <= length sl -> forall k,
  for_up n 0 (fun i f => for_up (nth (i + 1) dims 0 - nth i dims 0) 0 (fun t f => upd f (nth i dims 0 + t) (u i (nth t (enum (nth i sl [])) []))) f) f k
  = match nth_error (slots n sl) k with Some (i, idx) => u i idx | None => f k end.
Proof.
  intros H k. induction n as [|n IH]; [destruct k; reflexivity|]. rewrite for_up_snoc. cbn [Nat.add]. rewrite (block_write _ _ (fun t => u n (nth t (enum (nth n sl [])) []))), block_size, dims_slots by lia.
  rewrite IH by lia. rewrite slots_S. destruct (Nat.leb_spec (length (slots n sl)) k) as [L|L]; cbn [andb].
  - rewrite nth_error_app2 by exact L. rewrite nth_error_map. destruct (Nat.ltb_spec k (length (slots n sl) + length (enum (nth n sl [])))) as [L2|L2].
    + rewrite (nth_error_nth' _ []) by lia. reflexivity.
    + rewrite (proj2 (nth_error_None (slots n sl) k)) by lia. rewrite (proj2 (nth_error_None (enum (nth n sl [])) _)) by lia. reflexivity.
  - rewrite nth_error_app1 by exact L. reflexivity.
Qed.
Lemma copy_to_spec (f : nat -> V) u k : copy_to f dims sl u k = match nth_error (slots (length sl) sl) k with Some (i, idx) => u i idx | None => f k end.
Proof. apply (copy_to_run (length sl)). lia. Qed.
Lemma updm_eq (u : nat -> list nat -> V) i idx v i' idx' : updm u i idx v i' idx' = if (i' =? i) && idx_eqb idx' idx then v else u i' idx'.
Proof. reflexivity. Qed.
Lemma block_read (E : list (list nat)) i (h : nat -> V) (u : nat -> list nat -> V) m : NoDup E -> m <= length E -> forall i' idx,
  (forall t, t < m -> nth_error E t = Some idx -> i' = i -> for_up m 0 (fun t u => updm u i (nth t E []) (h t)) u i' idx = h t) /\
  ((forall t, t < m -> nth_error E t <> Some idx) \/ i' <> i -> for_up m 0 (fun t u => updm u i (nth t E []) (h t)) u i' idx = u i' idx).
Proof.
  intros ND. induction m as [|m IH]; intros Hm i' idx; [split; [intros; lia|reflexivity]|]. destruct (IH ltac:(lia) i' idx) as [A B]. rewrite for_up_snoc. cbn [Nat.add]. rewrite updm_eq.
  assert (nth_error E m = Some (nth m E [])) as EM by (apply nth_error_nth'; lia). split.
  - intros t Ht HE ->. rewrite Nat.eqb_refl. cbn [andb]. destruct (idx_eqb_spec idx (nth m E [])) as [Q|Q].
    + f_equal. rewrite NoDup_nth_error in ND. apply ND; [lia|]. rewrite HE, EM, <- Q. reflexivity.
    + destruct (Nat.eq_dec t m) as [->|N]; [rewrite EM in HE; injection HE as HE; congruence|]. apply A; [lia|exact HE|reflexivity].
  - intros H. destruct (Nat.eqb_spec i' i) as [->|N]; cbn [andb].
    + destruct H as [H|H]; [|congruence]. destruct (idx_eqb_spec idx (nth m E [])) as [Q|Q]; [exfalso; apply (H m); [lia|rewrite EM, Q; reflexivity]|].
      apply B. left. intros t Ht. apply H. lia.
    + apply B. right. exact N.
Qed.
Lemma copy_from_run n (f : nat -> V) u : n <= length sl -> forall i idx,
  let r := for_up n 0 (fun i u => for_up (nth (i + 1) dims 0 - nth i dims 0) 0 (fun t u => updm u i (nth t (enum (nth i sl [])) []) (f (nth i dims 0 + t))) u) u in
  (forall k, nth_error (slots n sl) k = Some (i, idx) -> r i idx = f k) /\ (~ In (i, idx) (slots n sl) -> r i idx = u i idx).
Proof.
  intros H i idx. cbv zeta. induction n as [|n IH]; [split; [intros k Hk; destruct k; discriminate|reflexivity]|]. destruct (IH ltac:(lia)) as [A B].
  rewrite for_up_snoc. cbn [Nat.add]. rewrite slots_S. rewrite block_size, dims_slots by lia.
  destruct (block_read (enum (nth n sl [])) n (fun t => f (length (slots n sl) + t)) (for_up n 0 (fun i u => for_up (nth (i + 1) dims 0 - nth i dims 0) 0 (fun t u => updm u i (nth t (enum (nth i sl [])) []) (f (nth i dims 0 + t))) u) u)
     (length (enum (nth n sl []))) (enum_NoDup _) (le_n _) i idx) as [C D]. split.
  - intros k Hk. destruct (Nat.lt_ge_cases k (length (slots n sl))) as [L|L].
    + rewrite nth_error_app1 in Hk by exact L. rewrite D; [apply A, Hk|]. right. apply nth_error_In, slots_in in Hk. lia.
    + rewrite nth_error_app2 in Hk by exact L. rewrite nth_error_map in Hk. destruct (nth_error (enum (nth n sl [])) (k - length (slots n sl))) as [x|] eqn:E; [|discriminate]. cbn in Hk. injection Hk as <- <-.
      rewrite (C (k - length (slots n sl))); [f_equal; lia| |exact E|reflexivity]. apply nth_error_Some. congruence.
  - intros N. rewrite in_app_iff in N. rewrite D.
    + apply B. tauto.
    + destruct (Nat.eq_dec i n) as [->|]; [|right; assumption]. left. intros t _ Ht. apply N. right. apply in_map. eapply nth_error_In. exact Ht.
Qed.
Lemma copy_from_spec (f : nat -> V) u i idx :
  (forall k, nth_error (slots (length sl) sl) k = Some (i, idx) -> copy_from u f dims sl i idx = f k) /\
  (~ In (i, idx) (slots (length sl) sl) -> copy_from u f dims sl i idx = u i idx).
Proof. apply (copy_from_run (length sl)). lia. Qed.
End Copy.
