(** CompositeProperties.v -- C24: flattening composite functions *)
From Coq Require Import Arith ZArith List Bool Lia.
From Verif Require Import Base CompositeModel CompositeProofs.
Import ListNotations.

(** *** components: indexing with non-negative integers selects consecutive scalar spaces; [flatten s]
    lists the scalar spaces of s from left to right *)
Theorem C24_components_partial : forall s p sub off, Forall (fun i => 0 <= i)%Z p -> basis_path (s, 0) p = Some (sub, off) ->
  off + length (flatten sub) <= length (flatten s) /\ forall k, k < length (flatten sub) -> nth_error (flatten s) (off + k) = nth_error (flatten sub) k.
Proof. intros s p sub off Hp H. destruct (basis_path_sits p s 0 sub off Hp H) as [_ S]. rewrite Nat.sub_0_r in S. exact S. Qed.
Print Assumptions C24_components_partial.
(** every scalar component is reached by exactly one sequence of indices *)
Theorem C24_components_bijection : forall s k, k < length (flatten s) ->
  exists p axes, Forall (fun i => 0 <= i)%Z p /\ basis_path (s, 0) p = Some (Leaf axes, k) /\ nth_error (flatten s) k = Some axes /\
    forall p' axes', Forall (fun i => 0 <= i)%Z p' -> basis_path (s, 0) p' = Some (Leaf axes', k) -> p' = p.
Proof.
  intros s k Hk. destruct (basis_path_complete s 0 k Hk) as (p & axes & H1 & H2 & H3). exists p, axes. split; [exact H1|split; [exact H2|split; [exact H3|]]].
  intros p' axes' Hp' H'. symmetry. exact (basis_path_leaf_unique p s 0 p' axes axes' k H1 Hp' H2 H').
Qed.
Print Assumptions C24_components_bijection.
(** a[-1] of a space with two different components: the space of the last, the position of the first *)
Theorem C24_negative_index_refuted : exists s sub off, basis_path (s, 0) [(-1)%Z] = Some (sub, off) /\ nth_error (flatten s) off <> nth_error (flatten sub) 0 /\
  nth_error (flatten s) 1 = nth_error (flatten sub) 0.
Proof.
  exists (Comp [Leaf [mkAxis 0 4]; Leaf [mkAxis 0 2]]), (Leaf [mkAxis 0 2]), 0. split; [reflexivity|split; [cbn; congruence|reflexivity]].
Qed.
Print Assumptions C24_negative_index_refuted.
(** Functions: the view u[i][j]... shows the components that the offset of the basis function says *)
Theorem C24_views_partial : forall s p v, Forall (fun i => 0 <= i)%Z p -> view_path (mkView s 0 0 false) p = Some v ->
  basis_path (s, 0) p = Some (vspace v, voffset v) /\ vstart v = voffset v /\
  forall k, k < length (flatten (vspace v)) -> nth_error (flatten s) (vstart v + k) = nth_error (flatten (vspace v)) k.
Proof.
  intros s p v Hp H. destruct (view_path_basis p (mkView s 0 0 false) 0 eq_refl eq_refl eq_refl Hp v H) as [H1 H2]. cbn [vspace] in H1. split; [exact H1|split; [exact H2|]].
  rewrite H2. apply (C24_components_partial s p _ _ Hp H1).
Qed.
Print Assumptions C24_views_partial.
(** the same restricted to integers that do exist fails for a nested space with a single component *)
Theorem C24_views_singleton_refuted : exists s sub off, basis_path (s, 0) [0%Z; 0%Z] = Some (sub, off) /\ view_path (mkView s 0 0 false) [0%Z; 0%Z] = None.
Proof. exists (Comp [Comp [Leaf [mkAxis 0 4]]; Leaf [mkAxis 0 4]]), (Leaf [mkAxis 0 4]), 0. split; reflexivity. Qed.
Print Assumptions C24_views_singleton_refuted.
Example C24_components_example : basis_path (Comp [Comp [Leaf [mkAxis 0 4]; Leaf [mkAxis 0 6]]; Leaf [mkAxis 1 5]], 0) [0%Z; 1%Z] = Some (Leaf [mkAxis 0 6], 1)
  /\ basis_path (Comp [Comp [Leaf [mkAxis 0 4]; Leaf [mkAxis 0 6]]; Leaf [mkAxis 1 5]], 0) [1%Z] = Some (Leaf [mkAxis 1 5], 2)
  /\ exists v, view_path (mkView (Comp [Comp [Leaf [mkAxis 0 4]; Leaf [mkAxis 0 6]]; Leaf [mkAxis 1 5]]) 0 0 false) [0%Z; 1%Z] = Some v.
Proof. split; [reflexivity|split; [reflexivity|eexists; reflexivity]]. Qed.

(** *** the flattened vector of one key js of the diagonal (Fourier) axes.
    [fits]: every component has the axes described by the mask, js has one index per diagonal axis *)
Definition fits (s : space) (mask : list bool) (js : list nat) : Prop :=
  (forall axes, In axes (flatten s) -> length axes = length mask) /\ length js = length (filter (fun b => b) mask).
(** the degrees of freedom of component i that belong to the key js: indices inside the slices of the non-diagonal
    axes, equal to js on the diagonal ones *)
Fixpoint dof_of (axes : list axis) (mask : list bool) (js idx : list nat) : Prop :=
  match axes, mask, idx with
  | [], [], [] => js = []
  | a :: axes, true :: mask, k :: idx => match js with j :: js => k = j /\ dof_of axes mask js idx | [] => False end
  | a :: axes, false :: mask, k :: idx => alo a <= k < ahi a /\ dof_of axes mask js idx
  | _, _, _ => False
  end.
Lemma dof_enum axes : forall mask js idx, length axes = length mask -> length js = length (filter (fun b => b) mask) ->
  (In idx (enum (ndiag_sel axes mask js)) <-> dof_of axes mask js idx).
Proof.
  induction axes as [|a axes IH]; intros [|m mask] js idx H1 H2; try discriminate.
  - cbn in H2. apply length_zero_iff_nil in H2. subst js. cbn. destruct idx; split; intros H; [reflexivity|auto|destruct H as [H|[]]; discriminate|contradiction].
  - injection H1 as H1. destruct m; cbn in H2.
    + destruct js as [|j js]; [discriminate|]. injection H2 as H2. rewrite enum_in. cbn [ndiag_sel dof_of]. destruct idx as [|k idx]; split; intros H; try (inversion H; fail); try contradiction.
      * inversion H as [|? ? ? ? E F]; subst. split; [reflexivity|]. apply IH; [exact H1|exact H2|]. apply enum_in. exact F.
      * destruct H as [-> H]. constructor; [reflexivity|]. apply enum_in, IH; assumption.
    + rewrite enum_in. cbn [ndiag_sel dof_of]. destruct idx as [|k idx]; split; intros H; try (inversion H; fail); try contradiction.
      * inversion H as [|? ? ? ? E F]; subst. split; [exact E|]. apply IH; [exact H1|exact H2|]. apply enum_in. exact F.
      * destruct H as [E H]. constructor; [exact E|]. apply enum_in, IH; assumption.
Qed.
(** both ways of computing the cumulated dimensions agree, and each block is as long as what is copied into it *)
Theorem C24_dims : forall s mask js, fits s mask js ->
  let dims := ndiag_cum_dofs s mask in let sl := ndiag_slices s mask js in
  dims = slices_dims sl /\ forall i, i < length (flatten s) -> nth (i + 1) dims 0 - nth i dims 0 = length (enum (nth i sl [])).
Proof.
  intros s mask js [F1 F2] dims sl. assert (dims = slices_dims sl) as E.
  { unfold dims, sl, ndiag_cum_dofs, slices_dims, ndiag_slices. rewrite map_map. f_equal. apply map_ext_in. intros axes H. f_equal. apply masked_sizes; [symmetry; apply F1, H|exact F2]. }
  split; [exact E|]. intros i Hi. rewrite E. apply block_size. unfold sl, ndiag_slices. rewrite map_length. exact Hi.
Qed.
Print Assumptions C24_dims.
Lemma nth_slices s mask js i axes : nth_error (flatten s) i = Some axes -> nth i (ndiag_slices s mask js) [] = ndiag_sel axes mask js.
Proof. intros H. unfold ndiag_slices. apply nth_error_nth. rewrite nth_error_map, H. reflexivity. Qed.
Lemma slot_dof s mask js i idx : fits s mask js ->
  (In (i, idx) (slots (length (ndiag_slices s mask js)) (ndiag_slices s mask js)) <-> exists axes, nth_error (flatten s) i = Some axes /\ dof_of axes mask js idx).
Proof.
  intros [F1 F2]. rewrite slots_in. unfold ndiag_slices at 1. rewrite map_length. split.
  - intros [H1 H2]. destruct (nth_error (flatten s) i) as [axes|] eqn:E; [|apply nth_error_None in E; lia]. exists axes. split; [reflexivity|]. rewrite (nth_slices _ _ _ _ _ E) in H2.
    apply dof_enum; [apply F1; eapply nth_error_In, E|exact F2|exact H2].
  - intros (axes & E & H). split; [apply nth_error_Some; congruence|]. rewrite (nth_slices _ _ _ _ _ E). apply dof_enum; [apply F1; eapply nth_error_In, E|exact F2|exact H].
Qed.
(** numbering: one slot below the total dimension for every degree of freedom of the key, and conversely *)
Theorem C24_flatten_bijection : forall s mask js, fits s mask js ->
  let dims := ndiag_cum_dofs s mask in let total := last dims 0 in
  exists slot : nat -> nat * list nat,
    (forall k, k < total -> exists axes, nth_error (flatten s) (fst (slot k)) = Some axes /\ dof_of axes mask js (snd (slot k))) /\
    (forall k k', k < total -> k' < total -> slot k = slot k' -> k = k') /\
    (forall i axes idx, nth_error (flatten s) i = Some axes -> dof_of axes mask js idx -> exists k, k < total /\ slot k = (i, idx)) /\
    (forall V (f : nat -> V) u k, copy_to f dims (ndiag_slices s mask js) u k = if k <? total then u (fst (slot k)) (snd (slot k)) else f k).
Proof.
  intros s mask js F dims total. set (sl := ndiag_slices s mask js). assert (dims = slices_dims sl) as E by apply (C24_dims s mask js F).
  assert (total = length (slots (length sl) sl)) as ET.
  { unfold total. rewrite <- dims_slots by lia. fold (slices_dims sl). rewrite <- E.
    assert (length dims = S (length sl)) as L. { rewrite E. unfold slices_dims. generalize 0. unfold sl at 2. clear. fold sl. replace (length sl) with (length (map (fun s => prod (map sel_size s)) sl)) by apply map_length. generalize (map (fun s => prod (map sel_size s)) sl). induction l as [|x l IH]; intros n; [reflexivity|]. cbn [cumsum_from length]. rewrite IH. reflexivity. }
    assert (forall (d : list nat), d <> [] -> last d 0 = nth (length d - 1) d 0) as LN.
    { clear. induction d as [|x d IH]; [congruence|]. intros _. destruct d as [|y d]; [reflexivity|]. change (last (x :: y :: d) 0) with (last (y :: d) 0). rewrite IH by discriminate.
      change (length (x :: y :: d)) with (S (length (y :: d))). change (length (y :: d)) with (S (length d)). replace (S (S (length d)) - 1) with (S (length d)) by lia. replace (S (length d) - 1) with (length d) by lia. reflexivity. }
    rewrite LN by (intros C; rewrite C in L; discriminate). f_equal. lia. }
  exists (fun k => nth k (slots (length sl) sl) (0, [])). rewrite ET. split; [|split; [|split]].
  - intros k Hk. pose proof (nth_In (slots (length sl) sl) (0, []) Hk) as H. destruct (nth k (slots (length sl) sl) (0, [])) as [i idx]. apply (slot_dof s mask js i idx F) in H. exact H.
  - intros k k' Hk Hk' H. pose proof (slots_NoDup (length sl) sl) as N. rewrite (NoDup_nth _ (0, [])) in N. apply N; assumption.
  - intros i axes idx H1 H2. assert (In (i, idx) (slots (length sl) sl)) as H by (apply (slot_dof s mask js i idx F); exists axes; auto).
    apply (In_nth _ _ (0, [])) in H. exact H.
  - intros V f u k. rewrite E. unfold slices_dims. rewrite copy_to_spec. destruct (Nat.ltb_spec k (length (slots (length sl) sl))) as [L|L].
    + rewrite (nth_error_nth' _ (0, [])) by exact L. destruct (nth k (slots (length sl) sl) (0, [])). reflexivity.
    + rewrite (proj2 (nth_error_None _ k) L). reflexivity.
Qed.
Print Assumptions C24_flatten_bijection.
(** to the vector and back: the degrees of freedom of the key are restored, nothing else is touched *)
Theorem C24_round_trip : forall V s mask js (f : nat -> V) u w i idx, fits s mask js ->
  let dims := ndiag_cum_dofs s mask in let sl := ndiag_slices s mask js in
  let r := copy_from w (copy_to f dims sl u) dims sl in
  ((exists axes, nth_error (flatten s) i = Some axes /\ dof_of axes mask js idx) -> r i idx = u i idx) /\
  (~ (exists axes, nth_error (flatten s) i = Some axes /\ dof_of axes mask js idx) -> r i idx = w i idx).
Proof.
  intros V s mask js f u w i idx F dims sl r. assert (dims = slices_dims sl) as E by apply (C24_dims s mask js F). unfold r. rewrite E. unfold slices_dims.
  destruct (copy_from_spec sl (copy_to f (cumsum_from 0 (map (fun s => prod (map sel_size s)) sl)) sl u) w i idx) as [A B]. split.
  - intros H. apply (slot_dof s mask js i idx F) in H. apply In_nth_error in H. destruct H as [k Hk]. rewrite (A k Hk), copy_to_spec. fold sl in Hk. rewrite Hk. reflexivity.
  - intros H. apply B. intros C. apply H. apply (slot_dof s mask js i idx F). exact C.
Qed.
Print Assumptions C24_round_trip.
(** from the vector and back: the vector is restored *)
Theorem C24_round_trip_vector : forall V s mask js (f g : nat -> V) w k, fits s mask js ->
  let dims := ndiag_cum_dofs s mask in let sl := ndiag_slices s mask js in
  k < last dims 0 -> copy_to g dims sl (copy_from w f dims sl) k = f k.
Proof.
  intros V s mask js f g w k F dims sl Hk. destruct (C24_flatten_bijection s mask js F) as (slot & S1 & S2 & S3 & S4). fold dims sl in S1, S2, S3, S4.
  rewrite S4. rewrite (proj2 (Nat.ltb_lt _ _) Hk). assert (dims = slices_dims sl) as E by apply (C24_dims s mask js F).
  destruct (S1 k Hk) as (axes & H1 & H2). assert (In (fst (slot k), snd (slot k)) (slots (length sl) sl)) as H by (apply (slot_dof s mask js _ _ F); exists axes; auto).
  apply In_nth_error in H. destruct H as [k' Hk']. rewrite E. unfold slices_dims. rewrite (proj1 (copy_from_spec sl f w (fst (slot k)) (snd (slot k))) k' Hk'). f_equal.
  (* k' = k: both slots hold the same dof *)
  assert (nth_error (slots (length sl) sl) k = Some (slot k)) as HK.
  { pose proof (S4 (nat * list nat)%type (fun _ => (0, [])) pair k) as P. rewrite (proj2 (Nat.ltb_lt _ _) Hk) in P. rewrite E in P. unfold slices_dims in P. rewrite copy_to_spec in P.
    destruct (nth_error (slots (length sl) sl) k) as [[a b]|] eqn:Q; [|].
    - rewrite P. f_equal. destruct (slot k). reflexivity.
    - exfalso. apply nth_error_None in Q.
      assert (k < length (slots (length sl) sl)); [|lia]. clear - S2 S3 S4 S1 Hk F E Q.
      pose proof (S4 nat (fun _ => 0) (fun _ _ => 1) k) as P. rewrite (proj2 (Nat.ltb_lt _ _) Hk) in P. rewrite E in P. unfold slices_dims in P. rewrite copy_to_spec in P. rewrite (proj2 (nth_error_None _ k) Q) in P. discriminate. }
  pose proof (slots_NoDup (length sl) sl) as N. rewrite NoDup_nth_error in N. apply N; [apply nth_error_Some; congruence|]. rewrite Hk', HK. destruct (slot k). reflexivity.
Qed.
Print Assumptions C24_round_trip_vector.
(** the keys partition the degrees of freedom: each index tuple inside the slices belongs to exactly one key *)
Fixpoint inside (axes : list axis) (mask : list bool) (idx : list nat) : Prop :=
  match axes, mask, idx with
  | [], [], [] => True
  | a :: axes, m :: mask, k :: idx => (m = false -> alo a <= k < ahi a) /\ inside axes mask idx
  | _, _, _ => False
  end.
Theorem C24_keys_partition : forall axes mask idx, inside axes mask idx ->
  exists js, length js = length (filter (fun b => b) mask) /\ dof_of axes mask js idx /\ forall js', dof_of axes mask js' idx -> js' = js.
Proof.
  induction axes as [|a axes IH]; intros [|m mask] [|k idx] H; cbn in H; try contradiction.
  - exists []. repeat split. intros js' H'. exact H'.
  - destruct H as [H1 H2]. destruct (IH mask idx H2) as (js & L & D & U). destruct m.
    + exists (k :: js). cbn. split; [rewrite L; reflexivity|split; [split; [reflexivity|exact D]|]]. intros [|j js'] H; [contradiction|]. destruct H as [-> H]. f_equal. apply U, H.
    + exists js. cbn. split; [exact L|split; [split; [apply H1; reflexivity|exact D]|]]. intros js' [_ H]. apply U, H.
Qed.
Print Assumptions C24_keys_partition.
(** a velocity-pressure space on Fourier x Shen bases (two components with 6 modes, one with 8): key 3 *)
Example C24_flatten_example : let s := Comp [Comp [Leaf [mkAxis 0 5; mkAxis 0 6]; Leaf [mkAxis 0 5; mkAxis 0 6]]; Leaf [mkAxis 0 5; mkAxis 0 8]] in
  fits s [true; false] [3] /\ ndiag_cum_dofs s [true; false] = [0; 6; 12; 20] /\ inside [mkAxis 0 5; mkAxis 0 6] [true; false] [3; 4].
Proof. split; [|split; [reflexivity|cbn; repeat split; lia]]. split; [|reflexivity]. intros axes [<-|[<-|[<-|[]]]]; reflexivity. Qed.
(** *** a scalar space: with at most one diagonal axis as above, with two the slices cannot be formed *)
Theorem C24_scalar_partial : forall axes mask js, length (filter (fun b => b) mask) <= 1 -> ndiag_slices_scalar axes mask js = Some (ndiag_slices (Leaf axes) mask js).
Proof. intros axes mask js H. unfold ndiag_slices_scalar. destruct (length (filter (fun b => b) mask)) as [|[|n]]; [reflexivity|reflexivity|lia]. Qed.
Print Assumptions C24_scalar_partial.
Theorem C24_scalar_refuted : ndiag_slices_scalar [mkAxis 0 4; mkAxis 0 4; mkAxis 0 6] [true; true; false] [1; 2] = None.
Proof. reflexivity. Qed.
Print Assumptions C24_scalar_refuted.
