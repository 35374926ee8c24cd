(** TPProofs.v -- proofs about TPModel. *)
From Coq Require Import Arith ZArith List Lia Bool Field.
From Verif Require Import Base Fld SparseModel SparseSpec SparseProofs TPModel TPSpec.
Import ListNotations.
Local Open Scope nat_scope.

Section P.
  Variable K : Fld.
  Add Field KF : (flaws K).
  Notation arr := (list nat -> K).
  Local Open Scope fld_scope.

  (** value of the diagonal factors at an index *)
  Fixpoint dprod (mats : list (smat K)) (flags : list bool) (idx : list nat) : K :=
    match mats, flags, idx with
    | A :: mats, fl :: flags, i :: idx =>
        (if fl then mat_entry K A i i else 1) * dprod mats flags idx
    | _, _, _ => 1
    end.

  Lemma diag_entry simp (A : smat K) l i : axis_ok K simp A true l i ->
    diag_factor K A i = Some (mat_entry K A i i) /\
    forall (g : nat -> K), fsum (sm_cols K A) (fun j => mat_entry K A i j * g j) = mat_entry K A i i * g i.
  Proof.
    intros (W & Hi & _ & _ & H). destruct (H eq_refl) as [Hsq Hd].
    assert (E : exists d, sm_items K A = [(0%Z, d)] /\ ((exists n f, d = Arr K n f) \/ sm_scale K A = f1)).
    { destruct simp; [|exact Hd]. rewrite Hd. eexists. split; [reflexivity|]. right. reflexivity. }
    destruct E as (d & Ei & Es). split.
    - unfold diag_factor, mat_entry. rewrite Ei. cbn [dict_get lookup Z.eqb].
      replace (Z.of_nat i - Z.of_nat i)%Z with 0%Z by lia.
      destruct (Z.eq_dec 0 0); [|lia]. rewrite Nat.min_id.
      destruct d as [x|n f]; cbn [dget]; auto.
      destruct Es as [(n & f & E')|Es]; [discriminate|]. rewrite Es. f_equal. ring.
    - intros g. rewrite (fsum_single K (sm_cols K A) i); [reflexivity | lia|].
      intros j Hj Hji. unfold mat_entry. rewrite Ei. cbn [lookup].
      destruct (Z.eq_dec 0 (Z.of_nat j - Z.of_nat i)); [lia|]. ring.
  Qed.

  Lemma fold_diag_ok simp : forall mats flags L idx s, axes_ok K simp mats flags L idx ->
    fold_diag K mats flags idx s = Some (s * dprod mats flags idx).
  Proof.
    induction mats as [|A mats IH]; intros [|fl flags] [|l L] [|i idx] s H; simpl in H; try contradiction.
    - simpl. f_equal. ring.
    - destruct H as [HA H]. simpl. destruct fl.
      + rewrite (proj1 (diag_entry _ _ _ _ HA)). rewrite (IH _ _ _ _ H). f_equal. ring.
      + rewrite (IH _ _ _ _ H). f_equal. ring.
  Qed.

  Lemma naxes_shift k flags : naxes_from (S k) flags = map S (naxes_from k flags).
  Proof.
    revert k. induction flags as [|b r IH]; intros k; simpl; auto.
    rewrite map_app, IH. destruct b; reflexivity.
  Qed.

  Notation mref mats a := (nth a mats (zero_mat K)).

  Lemma kron_ext : forall mats idx (v w : arr), (forall r, v r = w r) -> kron K mats idx v = kron K mats idx w.
  Proof.
    induction mats as [|A mats IH]; intros [|i idx] v w H; simpl; auto.
    apply fsum_ext. intros j Hj. f_equal. apply IH. intros; apply H.
  Qed.

  Lemma kron0 simp : forall mats flags L idx v, axes_ok K simp mats flags L idx -> naxes_from 0 flags = [] ->
    kron K mats idx v = dprod mats flags idx * v idx.
  Proof.
    induction mats as [|A mats IH]; intros [|fl flags] [|l L] [|i idx] v H Hn; simpl in H; try contradiction.
    - simpl. ring.
    - destruct H as [HA H]. simpl in Hn. destruct fl; [|discriminate].
      rewrite naxes_shift in Hn. simpl in Hn. apply map_eq_nil in Hn. simpl.
      rewrite (fsum_ext K _ _ (fun j => mat_entry K A i j * (dprod mats flags idx * v (j :: idx)))).
      2:{ intros j Hj. f_equal. rewrite (IH _ _ _ _ H Hn). reflexivity. }
      rewrite (proj2 (diag_entry _ _ _ _ HA)). ring.
  Qed.

  Lemma kron1 simp : forall mats flags L idx a v, axes_ok K simp mats flags L idx -> naxes_from 0 flags = [a] ->
    kron K mats idx v = dprod mats flags idx *
      fsum (sm_cols K (mref mats a)) (fun j => mat_entry K (mref mats a) (nth a idx 0%nat) j * v (set_axis a j idx)).
  Proof.
    induction mats as [|A mats IH]; intros [|fl flags] [|l L] [|i idx] a v H Hn; simpl in H; try contradiction.
    - discriminate.
    - destruct H as [HA H]. simpl in Hn. rewrite naxes_shift in Hn. destruct fl; simpl in Hn.
      + destruct (naxes_from 0 flags) as [|a' [|b' r]] eqn:E; try discriminate.
        injection Hn as <-. simpl.
        rewrite (fsum_ext K _ _ (fun j => mat_entry K A i j * (dprod mats flags idx *
          fsum (sm_cols K (mref mats a')) (fun j' => mat_entry K (mref mats a') (nth a' idx 0%nat) j' * v (j :: set_axis a' j' idx))))).
        2:{ intros j Hj. f_equal. rewrite (IH _ _ _ a' _ H E). reflexivity. }
        rewrite (proj2 (diag_entry _ _ _ _ HA)). ring.
      + injection Hn as <- Hn. apply map_eq_nil in Hn. simpl.
        rewrite (fsum_ext K _ _ (fun j => dprod mats flags idx * (mat_entry K A i j * v (j :: idx)))).
        2:{ intros j Hj. rewrite (kron0 _ _ _ _ _ _ H Hn). ring. }
        rewrite fsum_scal. ring.
  Qed.

  Lemma kron2 simp : forall mats flags L idx a b v, axes_ok K simp mats flags L idx -> naxes_from 0 flags = [a; b] ->
    kron K mats idx v = dprod mats flags idx *
      fsum (sm_cols K (mref mats a)) (fun j => mat_entry K (mref mats a) (nth a idx 0%nat) j *
      fsum (sm_cols K (mref mats b)) (fun j' => mat_entry K (mref mats b) (nth b idx 0%nat) j' *
        v (set_axis b j' (set_axis a j idx)))).
  Proof.
    induction mats as [|A mats IH]; intros [|fl flags] [|l L] [|i idx] a b v H Hn; simpl in H; try contradiction.
    - discriminate.
    - destruct H as [HA H]. simpl in Hn. rewrite naxes_shift in Hn. destruct fl; simpl in Hn.
      + destruct (naxes_from 0 flags) as [|a' [|b' [|c' r]]] eqn:E; try discriminate.
        injection Hn as <- <-. simpl.
        rewrite (fsum_ext K _ _ (fun j => mat_entry K A i j * (dprod mats flags idx *
          fsum (sm_cols K (mref mats a')) (fun j0 => mat_entry K (mref mats a') (nth a' idx 0%nat) j0 *
          fsum (sm_cols K (mref mats b')) (fun j' => mat_entry K (mref mats b') (nth b' idx 0%nat) j' *
            v (j :: set_axis b' j' (set_axis a' j0 idx))))))).
        2:{ intros j Hj. f_equal. rewrite (IH _ _ _ a' b' _ H E). reflexivity. }
        rewrite (proj2 (diag_entry _ _ _ _ HA)). ring.
      + injection Hn as <- Hn.
        destruct (naxes_from 0 flags) as [|b' [|c r]] eqn:E; try discriminate.
        injection Hn as <-. simpl.
        rewrite (fsum_ext K _ _ (fun j => dprod mats flags idx * (mat_entry K A i j *
          fsum (sm_cols K (mref mats b')) (fun j' => mat_entry K (mref mats b') (nth b' idx 0%nat) j' * v (j :: set_axis b' j' idx))))).
        2:{ intros j Hj. rewrite (kron1 _ _ _ _ _ b' _ H E). ring. }
        rewrite fsum_scal. ring.
  Qed.

  (** facts about a nondiagonal axis *)
  Lemma axis_at simp : forall mats flags L idx a, axes_ok K simp mats flags L idx -> In a (naxes_from 0 flags) ->
    axis_ok K simp (mref mats a) false (nth a L 0%nat) (nth a idx 0%nat) /\ (a < length idx)%nat.
  Proof.
    induction mats as [|A mats IH]; intros [|fl flags] [|l L] [|i idx] a H Hn; simpl in H; try contradiction.
    destruct H as [HA H]. simpl in Hn. rewrite naxes_shift in Hn. apply in_app_or in Hn.
    destruct Hn as [Hn|Hn].
    - destruct fl; [contradiction|]. destruct Hn as [<-|[]]. simpl. split; [exact HA | lia].
    - apply in_map_iff in Hn. destruct Hn as (a' & <- & Hn). simpl.
      destruct (IH _ _ _ _ H Hn). split; [assumption | lia].
  Qed.

  Lemma nth_set_same : forall a t idx, (a < length idx)%nat -> nth a (set_axis a t idx) 0%nat = t.
  Proof. induction a as [|a IH]; intros t [|i r] H; simpl in *; try lia; auto. apply IH. lia. Qed.
  Lemma nth_set_other : forall a b t idx, a <> b -> nth b (set_axis a t idx) 0%nat = nth b idx 0%nat.
  Proof.
    induction a as [|a IH]; intros [|b] t [|i r] H; simpl; auto; try lia.
  Qed.
  Lemma set_set_same : forall a t u idx, set_axis a t (set_axis a u idx) = set_axis a t idx.
  Proof. induction a as [|a IH]; intros t u [|i r]; simpl; auto. f_equal. apply IH. Qed.
  Lemma set_set_comm : forall a b t u idx, a <> b -> set_axis a t (set_axis b u idx) = set_axis b u (set_axis a t idx).
  Proof.
    induction a as [|a IH]; intros [|b] t u [|i r] H; simpl; auto; try lia. f_equal. apply IH. lia.
  Qed.
  Lemma set_length : forall a t idx, length (set_axis a t idx) = length idx.
  Proof. induction a as [|a IH]; intros t [|i r]; simpl; auto. Qed.

  Lemma mv_axis_ok simp (A : smat K) l i a v idx : axis_ok K simp A false l i -> nth a idx 0%nat = i ->
    mv_axis K l A a v idx = fsum (sm_cols K A) (fun j => mat_entry K A i j * v (set_axis a j idx)).
  Proof.
    intros (W & Hi & Hr & Hc & _) E. unfold mv_axis.
    destruct (matvec_correct K A l l (fun t => v (set_axis a t idx)) W Hr Hc) as (c & E1 & E2 & _).
    rewrite E1, E. apply E2. exact Hi.
  Qed.

  Lemma simplify_mats_nth : forall mats flags a, In a (naxes_from 0 flags) ->
    mref (simplify_mats K mats flags) a = mref mats a.
  Proof.
    induction mats as [|A mats IH]; intros [|fl flags] a Hn; simpl in *; auto; try contradiction.
    rewrite naxes_shift in Hn. apply in_app_or in Hn.
    destruct Hn as [Hn|Hn].
    - destruct fl; [contradiction|]. destruct Hn as [<-|[]]. reflexivity.
    - apply in_map_iff in Hn. destruct Hn as (a' & <- & Hn). simpl. apply IH. exact Hn.
  Qed.

  Lemma identity_dprod : forall mats flags L idx, axes_ok K true mats flags L idx -> dprod mats flags idx = 1.
  Proof.
    induction mats as [|A mats IH]; intros [|fl flags] [|l L] [|i idx] H; simpl in H; try contradiction; auto.
    destruct H as [HA H]. simpl. rewrite (IH _ _ _ H). destruct fl; [|ring].
    destruct HA as (_ & _ & _ & _ & HA). destruct (HA eq_refl) as [_ E]. rewrite E.
    unfold mat_entry. cbn [sm_items identity_of lookup]. replace (Z.of_nat i - Z.of_nat i)%Z with 0%Z by lia.
    destruct (Z.eq_dec 0 0); [|lia]. cbn [dget sm_scale identity_of]. ring.
  Qed.
  Lemma no_diag_dprod : forall mats flags idx, existsb (fun b => b) flags = false -> dprod mats flags idx = 1.
  Proof.
    induction mats as [|A mats IH]; intros [|fl flags] [|i idx] H; simpl in *; auto.
    apply orb_false_iff in H. destruct H as [-> H]. rewrite (IH _ _ H). ring.
  Qed.

  (** the simplified matrix: its factors on nondiagonal axes and its scale *)
  Lemma simplified_facts L idx (T : tpmat K) : tp_ok K L idx T ->
    naxes K (get_simplified K T) = naxes K T /\
    tp_scale (get_simplified K T) idx = tp_scale T idx * dprod (tp_mats T) (tp_diag T) idx /\
    forall a, In a (naxes K T) -> mref (tp_mats (get_simplified K T)) a = mref (tp_mats T) a.
  Proof.
    intros [H _]. unfold get_simplified, needs_simplify.
    destruct (existsb (fun b => b) (tp_diag T)) eqn:Ed, (tp_simplified T) eqn:Es; simpl.
    - rewrite (identity_dprod _ _ _ _ H). repeat split; auto. ring.
    - split; [reflexivity|]. rewrite (fold_diag_ok _ _ _ _ _ _ H). split; [reflexivity|].
      intros a Ha. apply simplify_mats_nth. exact Ha.
    - rewrite (identity_dprod _ _ _ _ H). repeat split; auto. ring.
    - rewrite (no_diag_dprod _ _ _ Ed). repeat split; auto. ring.
  Qed.

  Theorem tp_matvec_ok L idx first (T : tpmat K) v : tp_ok K L idx T ->
    tp_matvec K L first T v idx = tp_op K T v idx.
  Proof.
    intros HT. destruct (simplified_facts L idx T HT) as (En & Es & Em). destruct HT as [H Hlen].
    unfold tp_matvec. cbv zeta. rewrite En. unfold tp_op.
    unfold naxes in *. destruct (naxes_from 0 (tp_diag T)) as [|a [|b [|c r]]] eqn:E; simpl in Hlen; try lia.
    - rewrite Es, (kron0 _ _ _ _ _ v H E). ring.
    - rewrite Em by (simpl; auto). destruct (axis_at _ _ _ _ _ a H) as [Ha La]; [rewrite E; simpl; auto|].
      rewrite (mv_axis_ok _ _ _ _ a v idx Ha eq_refl), Es, (kron1 _ _ _ _ _ a v H E). ring.
    - destruct (axis_at _ _ _ _ _ a H) as [Ha La]; [rewrite E; simpl; auto|].
      destruct (axis_at _ _ _ _ _ b H) as [Hb Lb]; [rewrite E; simpl; auto|].
      assert (Hab : a <> b).
      { clear -E. revert a b E. generalize (tp_diag T). induction l as [|fl l IH]; intros a b E; simpl in E; [discriminate|].
        rewrite naxes_shift in E. destruct fl; simpl in E.
        - destruct (naxes_from 0 l) as [|x [|y [|z r]]]; try discriminate. injection E as <- <-.
          specialize (IH x y eq_refl). lia.
        - injection E as <- E. destruct (naxes_from 0 l) as [|x [|y r]]; try discriminate. injection E as <-. lia. }
      rewrite (kron2 _ _ _ _ _ a b v H E), Es.
      rewrite !Em by (simpl; auto).
      set (A := mref (tp_mats T) a) in *. set (B := mref (tp_mats T) b) in *.
      assert (G : forall first : bool, (if first then mv_axis K (nth b L 0%nat) B b (mv_axis K (nth a L 0%nat) A a v)
                  else mv_axis K (nth a L 0%nat) A a (mv_axis K (nth b L 0%nat) B b v)) idx =
        fsum (sm_cols K A) (fun j => mat_entry K A (nth a idx 0%nat) j *
        fsum (sm_cols K B) (fun j' => mat_entry K B (nth b idx 0%nat) j' * v (set_axis b j' (set_axis a j idx))))).
      { intros [|].
        - rewrite (mv_axis_ok _ _ _ _ b _ idx Hb eq_refl).
          rewrite (fsum_ext K (sm_cols K B) _ (fun j' => fsum (sm_cols K A) (fun j =>
             mat_entry K B (nth b idx 0%nat) j' * (mat_entry K A (nth a idx 0%nat) j * v (set_axis b j' (set_axis a j idx)))))).
          2:{ intros j' Hj'. rewrite fsum_scal. f_equal.
              rewrite (mv_axis_ok _ A (nth a L 0%nat) (nth a idx 0%nat) a v _ Ha) by (apply nth_set_other; auto).
              apply fsum_ext. intros j Hj. f_equal. f_equal. apply set_set_comm. auto. }
          rewrite fsum_swap. apply fsum_ext. intros j Hj. rewrite <- fsum_scal. apply fsum_ext. intros. ring.
        - rewrite (mv_axis_ok _ _ _ _ a _ idx Ha eq_refl). apply fsum_ext. intros j Hj. f_equal.
          rewrite (mv_axis_ok _ B (nth b L 0%nat) (nth b idx 0%nat) b v _ Hb) by (apply nth_set_other; auto).
          reflexivity. }
      destruct first; [rewrite (G true) | rewrite (G false)]; ring.
  Qed.
End P.
