(** TPProofs3.v -- get_simplified_tpmatrices and BlockMatrix as a whole. *)
From Coq Require Import Arith ZArith List Lia Bool Field.
From Verif Require Import Base Fld SparseModel SparseSpec SparseProofs TPModel TPSpec TPProofs TPProofs2.
Import ListNotations.
Local Open Scope nat_scope.

Section P.
  Variable K : Fld.
  Add Field KF3 : (flaws K).
  Notation arr := (list nat -> K).
  Notation lsum := (lsum K).

  (** simplification allocates one new object for every reference in the list *)
  Lemma simplify_refs_ok : forall rs (s : st K),
    (forall r, In r rs -> r < st_next s /\ needs_simplify K (st_heap s r) = true) ->
    let '(s', rs') := simplify_refs K s rs in
    (forall r, r < st_next s -> st_heap s' r = st_heap s r) /\
    st_next s' = st_next s + length rs /\
    rs' = seq (st_next s) (length rs) /\
    map (fun r => st_heap s' r) rs' = map (fun r => get_simplified K (st_heap s r)) rs.
  Proof.
    induction rs as [|r rs IH]; intros s H; simpl.
    - repeat split; auto.
    - destruct (H r) as [Hr Hn]; [simpl; auto|]. unfold simplify_ref. rewrite Hn.
      set (s1 := mkSt (upd (st_heap s) (st_next s) (get_simplified K (st_heap s r))) (S (st_next s))).
      specialize (IH s1). destruct (simplify_refs K s1 rs) as [s' rs'].
      assert (E1 : forall r, r < st_next s -> st_heap s1 r = st_heap s r).
      { intros q Hq. unfold s1. simpl. apply upd_other. lia. }
      destruct IH as (I1 & I2 & I3 & I4).
      { intros q Hq. destruct (H q) as [Hq1 Hq2]; [simpl; auto|]. rewrite E1 by auto. unfold s1. simpl. split; [lia | auto]. }
      simpl in I2, I3.
      split; [intros q Hq; rewrite I1 by (unfold s1; simpl; lia); apply E1; auto|].
      split; [unfold s1 in *; simpl in *; lia|]. split; [rewrite I3; reflexivity|].
      simpl. f_equal.
      + rewrite I1 by (unfold s1; simpl; lia). unfold s1. simpl. apply upd_same.
      + rewrite I4. apply map_ext_in. intros q Hq. rewrite E1; auto. apply H. simpl. auto.
  Qed.

  (** the simplified object acts as the original *)
  Lemma simplified_matvec L first (T : tpmat K) v : tp_matvec K L first (get_simplified K T) v = tp_matvec K L first T v.
  Proof.
    assert (E : get_simplified K (get_simplified K T) = get_simplified K T).
    { unfold get_simplified at 2 3. destruct (needs_simplify K T) eqn:E; [|unfold get_simplified; rewrite E; reflexivity].
      unfold get_simplified, needs_simplify. simpl. rewrite andb_false_r. reflexivity. }
    unfold tp_matvec. rewrite E. reflexivity.
  Qed.
  Lemma simplified_index (T : tpmat K) : tp_index (get_simplified K T) = tp_index T.
  Proof. unfold get_simplified. destruct (needs_simplify K T); reflexivity. Qed.

  Lemma identity_wf (A : smat K) i : i < sm_rows K A -> sm_rows K A = sm_cols K A -> wf K (identity_of K A).
  Proof.
    intros H E. split; [repeat constructor; simpl; tauto|]. repeat constructor; simpl; lia.
  Qed.
  Lemma simplified_axes : forall mats flags L idx, axes_ok K false mats flags L idx ->
    axes_ok K true (simplify_mats K mats flags) flags L idx.
  Proof.
    induction mats as [|A mats IH]; intros [|fl flags] [|l L] [|i idx] H; simpl in H; try contradiction; auto.
    destruct H as [HA H]. simpl. split; [|apply IH; auto].
    destruct HA as (W & Hi & H1 & H2 & H3). destruct fl.
    - destruct (H3 eq_refl) as [E _]. split; [eapply identity_wf; eauto|]. split; [exact Hi|]. split; [exact H1|].
      split; [exact H2|]. intros _. split; [exact E | reflexivity].
    - split; auto. split; auto. split; auto. split; auto. discriminate.
  Qed.
  Lemma simplified_ok L idx (T : tpmat K) : needs_simplify K T = true -> tp_ok K L idx T ->
    tp_ok K L idx (get_simplified K T).
  Proof.
    intros N [H1 H2]. unfold get_simplified. rewrite N.
    unfold needs_simplify in N. apply andb_true_iff in N. destruct N as [_ N]. apply negb_true_iff in N. rewrite N in H1.
    split; [apply simplified_axes; exact H1 | exact H2].
  Qed.
  Lemma axes_rows simp : forall mats flags L idx, axes_ok K simp mats flags L idx ->
    Forall2 (fun A i => i < sm_rows K A) mats idx.
  Proof.
    induction mats as [|A mats IH]; intros [|fl flags] [|l L] [|i idx] H; simpl in H; try contradiction; constructor.
    - destruct H as [(_ & H & _) _]. exact H.
    - destruct H as [_ H]. eapply IH; eauto.
  Qed.
  Lemma axes_len simp : forall mats flags L idx, axes_ok K simp mats flags L idx -> length mats = length idx.
  Proof.
    induction mats as [|A mats IH]; intros [|fl flags] [|l L] [|i idx] H; simpl in H; try contradiction; simpl; auto.
    f_equal. destruct H. eapply IH; eauto.
  Qed.
  Lemma tp_ok_sbs L idx (A B : tpmat K) : same_but_scale K A B -> tp_ok K L idx B -> tp_ok K L idx A.
  Proof. intros (E1&E2&E3&_) [H1 H2]. unfold tp_ok, naxes in *. rewrite E1, E2, E3. auto. Qed.

  Section Top.
    Variable smeq : smat K -> smat K -> bool.

    (** everything the merging loop needs to know about one selected block *)
    Lemma simplified_tpmatrices_ok L idx first v sel n : forall rs (s : st K),
      rs <> [] ->
      (forall r, In r rs -> r < st_next s /\ needs_simplify K (st_heap s r) = true /\ length (tp_mats (st_heap s r)) = n) ->
      (forall r, In r rs -> sel (tp_index (st_heap s r)) = true -> tp_ok K L idx (st_heap s r)) ->
      good_eq K (fun A => exists r, In r rs /\ In A (tp_mats (get_simplified K (st_heap s r)))) smeq ->
      let '(s', B) := simplified_tpmatrices K smeq s rs in
      (forall r, r < st_next s -> st_heap s' r = st_heap s r) /\
      NoDup B /\ separated K smeq (st_heap s') B /\
      (forall b, In b B -> st_next s <= b /\
         exists r, In r rs /\ same_but_scale K (st_heap s' b) (get_simplified K (st_heap s r))) /\
      lsum (fun b => if sel (tp_index (st_heap s' b)) then tp_matvec K L first (st_heap s' b) v idx else f0) B =
      lsum (fun r => if sel (tp_index (st_heap s r)) then tp_matvec K L first (st_heap s r) v idx else f0) rs.
    Proof.
      intros rs s Hne Hr Hok Hg. unfold simplified_tpmatrices.
      pose proof (simplify_refs_ok rs s) as S1. destruct (simplify_refs K s rs) as [s1 A].
      destruct S1 as (S1 & S2 & S3 & S4); [intros r H; destruct (Hr r H) as (?&?&?); auto|].
      destruct A as [|a A].
      { destruct rs; [congruence | discriminate]. }
      assert (ND : NoDup (a :: A)) by (rewrite S3; apply seq_NoDup).
      set (P := fun A => exists r, In r rs /\ In A (tp_mats (get_simplified K (st_heap s r)))) in *.
      assert (Hin : forall x, In x (a :: A) -> exists r, In r rs /\ st_heap s1 x = get_simplified K (st_heap s r)).
      { intros x Hx. apply (in_map (fun r => st_heap s1 r)) in Hx. rewrite S4 in Hx.
        apply in_map_iff in Hx. destruct Hx as (r & E & Hx). exists r. auto. }
      assert (Lm : forall T, length (tp_mats (get_simplified K T)) = length (tp_mats T)).
      { intros T. unfold get_simplified. destruct (needs_simplify K T); auto. simpl. generalize (tp_diag T).
        induction (tp_mats T) as [|M l IH]; intros [|f fl]; simpl; auto. }
      assert (Fit : forall x, In x (a :: A) -> fit K P n idx sel (st_heap s1 x)).
      { intros x Hx. destruct (Hin x Hx) as (r & Hr' & E). rewrite E. destruct (Hr r Hr') as (R1 & R2 & R3).
        split; [split|].
        - rewrite Lm. exact R3.
        - apply Forall_forall. intros M HM. exists r. auto.
        - rewrite simplified_index. intros Hs. destruct (simplified_ok L idx _ R2 (Hok r Hr' Hs)) as [H1 _].
          eapply axes_rows; eauto. }
      assert (Pm : forall x, In x (A ++ [a]) <-> In x (a :: A)).
      { intros x. rewrite in_app_iff. simpl. tauto. }
      pose proof (merge_all_ok K smeq P Hg n v idx sel A [a] (st_heap s1)) as M.
      destruct (merge_all K smeq (st_heap s1) A [a]) as [h B]. simpl.
      destruct M as (M1 & M2 & M3 & M4 & M5 & M6).
      { inversion ND; subst. rewrite <- (rev_involutive (A ++ [a])). apply NoDup_rev. rewrite rev_app_distr. simpl.
        constructor; [intro X; apply in_rev in X; contradiction | apply NoDup_rev; auto]. }
      { intros x Hx. apply Fit. apply Pm. exact Hx. }
      { intros x y l1 l2 l3 E. destruct l1 as [|? [|? l1]]; try discriminate. injection E as _ E. destruct l2; discriminate. }
      assert (HB : forall b, In b B -> st_next s <= b /\
         exists r, In r rs /\ same_but_scale K (h b) (get_simplified K (st_heap s r))).
      { intros b Hb. apply M3, Pm in Hb. split; [rewrite S3 in Hb; apply in_seq in Hb; lia|]. destruct (Hin b Hb) as (r & Hr' & E). exists r. rewrite <- E. auto. }
      split.
      { intros r Hlt. rewrite M2; [apply S1; auto|]. intros X. apply Pm in X. rewrite S3 in X. apply in_seq in X. lia. }
      split; [exact M4|]. split; [exact M5|]. split; [exact HB|].
      transitivity (lsum (fun x => wop K v idx sel (h x)) B).
      { apply lsum_ext. intros b Hb. unfold wop. destruct (HB b Hb) as (_ & r & Hr' & Sb).
        destruct (sel (tp_index (h b))) eqn:Es; auto. apply tp_matvec_ok.
        destruct (Hr r Hr') as (R1 & R2 & R3). apply (tp_ok_sbs _ _ _ _ Sb). apply simplified_ok; auto. apply Hok; auto.
        destruct Sb as (_&_&_&Ei). rewrite Ei, simplified_index in Es. exact Es. }
      rewrite M6. rewrite lsum_app. simpl.
      transitivity (lsum (fun T => wop K v idx sel T) (map (fun r => st_heap s1 r) (a :: A))).
      { simpl. rewrite lsum_map. ring. }
      rewrite S4, lsum_map. apply lsum_ext. intros r Hr'. unfold wop. rewrite simplified_index.
      destruct (sel (tp_index (st_heap s r))) eqn:Es; auto.
      destruct (Hr r Hr') as (R1 & R2 & R3).
      rewrite <- (tp_matvec_ok K L idx first) by (apply simplified_ok; auto). rewrite simplified_matvec. reflexivity.
    Qed.

    (** ** block tables *)
    Lemma merge_loop_frame : forall B (h : heap K) a,
      (forall x, same_but_scale K (fst (merge_loop K smeq h a B) x) (h x)) /\
      (forall x, ~ In x B -> fst (merge_loop K smeq h a B) x = h x).
    Proof.
      induction B as [|b B IH]; intros h a; simpl.
      - split; intros; [apply sbs_refl | reflexivity].
      - destruct (tp_eq K smeq (h a) (h b)).
        + destruct (IH (upd h b (tp_iadd K (h b) (h a))) a) as [I1 I2]. simpl. split; intros x.
          * eapply sbs_trans; [apply I1|]. unfold upd. destruct (Nat.eqb_spec x b); [subst; repeat split | apply sbs_refl].
          * intros Hx. rewrite I2 by (intro; apply Hx; auto). apply upd_other. intros ->. apply Hx. auto.
        + destruct (IH h a) as [I1 I2]. split; [apply I1 | intros x Hx; apply I2; intro; apply Hx; auto].
    Qed.

    Variable P : smat K -> Prop.
    Hypothesis HP : good_eq K P smeq.

    Definition selb (bi bj : nat) (p : nat * nat) : bool := (fst p =? bi) && (snd p =? bj).
    Lemma block_add_ok n v idx bi bj : forall ms (h : heap K) t,
      NoDup ms ->
      (forall m, In m ms -> factors_in K P n (h m)) ->
      (forall i j x, In x (t i j) -> tp_index (h x) = (i, j) /\ factors_in K P n (h x)) ->
      (forall i j x, In x (t i j) -> ~ In x ms) ->
      (forall x, In x ms \/ In x (t bi bj) -> selb bi bj (tp_index (h x)) = true ->
         Forall2 (fun A i => i < sm_rows K A) (tp_mats (h x)) idx) ->
      NoDup (t bi bj) -> separated K smeq h (t bi bj) ->
      let '(h', t') := block_add K smeq h t ms in
      (forall x, same_but_scale K (h' x) (h x)) /\
      (forall i j x, In x (t' i j) -> In x ms \/ In x (t i j)) /\
      (forall x, In x (t' bi bj) -> tp_index (h x) = (bi, bj)) /\
      lsum (fun x => wop K v idx (selb bi bj) (h' x)) (t' bi bj) =
        fadd (lsum (fun x => wop K v idx (selb bi bj) (h x)) (t bi bj)) (lsum (fun x => wop K v idx (selb bi bj) (h x)) ms).
    Proof.
      intros ms. induction ms as [|m ms IH]; intros h t ND Hm Ht Hd Hf NDt Hs; simpl.
      - repeat split; auto; try (intros; apply sbs_refl).
        + intros x Hx. destruct (Ht _ _ _ Hx). auto.
        + ring.
      - inversion ND as [|? ? Hnm ND']; subst.
        destruct (tp_index (h m)) as [i j] eqn:Ei.
        assert (Wm : (i, j) <> (bi, bj) -> wop K v idx (selb bi bj) (h m) = f0).
        { intros Hne. unfold wop, selb. rewrite Ei. simpl.
          destruct (Nat.eqb_spec i bi), (Nat.eqb_spec j bj); simpl; auto. congruence. }
        assert (Etset : forall l i' j', tset t i j l i' j' = if (i' =? i) && (j' =? j) then l else t i' j') by reflexivity.
        assert (Eb : forall l, tset t i j l bi bj = if (bi =? i) && (bj =? j) then l else t bi bj) by reflexivity.
        destruct (t i j) as [|b0 l0] eqn:Etij.
        + (* first matrix of its block *)
          specialize (IH h (tset t i j [m]) ND').
          destruct (block_add K smeq h (tset t i j [m]) ms) as [h' t'].
          destruct IH as (I1 & I2 & I3 & I4).
          { intros x Hx. apply Hm. simpl. auto. }
          { intros i' j' x. rewrite Etset. destruct (Nat.eqb_spec i' i), (Nat.eqb_spec j' j); simpl; subst; auto.
            intros [<-|[]]. split; [exact Ei | apply Hm; simpl; auto]. }
          { intros i' j' x. rewrite Etset. destruct (Nat.eqb_spec i' i), (Nat.eqb_spec j' j); simpl; subst; auto;
              try (intros Hx X; apply (Hd _ _ _ Hx); simpl; auto).
            intros [<-|[]]. exact Hnm. }
          { intros x Hx. apply Hf. rewrite Etset in Hx. destruct Hx as [Hx|Hx]; [simpl; auto|].
            destruct ((bi =? i) && (bj =? j)); [destruct Hx as [<-|[]]; simpl; auto | auto]. }
          { rewrite Eb. destruct ((bi =? i) && (bj =? j)); [repeat constructor; simpl; tauto | auto]. }
          { rewrite Eb. destruct ((bi =? i) && (bj =? j)); [|auto].
            intros x y l1 l2 l3 E. destruct l1 as [|? [|? l1]]; try discriminate. injection E as _ E. destruct l2; discriminate. }
          split; auto. split.
          { intros i' j' x Hx. apply I2 in Hx. rewrite Etset in Hx. destruct Hx as [Hx|Hx]; auto.
            destruct ((i' =? i) && (j' =? j)); auto. destruct Hx as [<-|[]]. auto. }
          split; auto. rewrite I4, Eb.
          destruct (Nat.eqb_spec bi i) as [<-|Hi], (Nat.eqb_spec bj j) as [<-|Hj]; simpl.
          * rewrite Etij. simpl. ring.
          * rewrite Wm by congruence. ring.
          * rewrite Wm by congruence. ring.
          * rewrite Wm by congruence. ring.
        + (* the block already holds matrices *)
          pose (l := t i j). assert (El : l = b0 :: l0) by exact Etij.
          change (if tp_eq K smeq (h m) (h b0)
            then (fst (merge_loop K smeq (upd h b0 (tp_iadd K (h b0) (h m))) m l0), true)
            else merge_loop K smeq h m l0) with (merge_loop K smeq h m (b0 :: l0)).
          change (b0 :: l0 ++ [m]) with ((b0 :: l0) ++ [m]).
          rewrite <- El. clear El Etij.
          assert (Hml : ~ In m l) by (intro X; apply (Hd _ _ _ X); simpl; auto).
          pose proof (merge_loop_frame l h m) as [F1 F2].
          assert (Dis : forall i' j' x, In x (t i' j') -> (i', j') <> (i, j) -> ~ In x l).
          { intros i' j' x Hx Hne Hx'. destruct (Ht _ _ _ Hx) as [E1 _]. destruct (Ht _ _ _ Hx') as [E2 _]. congruence. }
          assert (Key : bi = i -> bj = j ->
            lsum (fun x => wop K v idx (selb bi bj) (fst (merge_loop K smeq h m l) x)) l =
              fadd (lsum (fun x => wop K v idx (selb bi bj) (h x)) l) (if snd (merge_loop K smeq h m l) then wop K v idx (selb bi bj) (h m) else f0) /\
            (snd (merge_loop K smeq h m l) = false -> forall x, In x l -> tp_eq K smeq (h m) (h x) = false)).
          { intros -> ->. pose proof (merge_loop_ok K smeq P HP n v idx (selb i j) l h m NDt Hml) as M.
            destruct (merge_loop K smeq h m l) as [h1 fnd]. simpl. destruct M as (_ & _ & M3 & M4); auto.
            intros x [<-|Hx].
            - split; [apply Hm; simpl; auto|]. apply Hf. simpl. auto.
            - destruct (Ht _ _ _ Hx). split; auto. }
          assert (Snd : snd (merge_loop K smeq h m l) = false -> fst (merge_loop K smeq h m l) = h).
          { clear. revert h. induction l as [|b l IH]; intros h H; simpl in *; auto.
            destruct (tp_eq K smeq (h m) (h b)); [discriminate | auto]. }
          destruct (merge_loop K smeq h m l) as [h1 found] eqn:EM. simpl in F1, F2, Key, Snd.
          set (t1 := if found then t else tset t i j (l ++ [m])).
          assert (T1 : forall i' j' x, In x (t1 i' j') -> In x (t i' j') \/ (x = m /\ i' = i /\ j' = j)).
          { intros i' j' x. unfold t1. destruct found; auto. rewrite Etset.
            destruct (Nat.eqb_spec i' i), (Nat.eqb_spec j' j); simpl; subst; auto.
            rewrite in_app_iff. simpl. fold l. intuition. }
          specialize (IH h1 t1 ND').
          cbv beta iota. match goal with |- context [block_add K smeq h1 ?X ms] => change X with t1 end.
          destruct (block_add K smeq h1 t1 ms) as [h' t'].
          assert (Fac : forall x, factors_in K P n (h x) -> factors_in K P n (h1 x)).
          { intros x. unfold factors_in. destruct (F1 x) as (-> & _). auto. }
          destruct IH as (I1 & I2 & I3 & I4).
          { intros x Hx. apply Fac, Hm. simpl. auto. }
          { intros i' j' x Hx. destruct (F1 x) as (_ & _ & _ & E3). rewrite E3. apply T1 in Hx. destruct Hx as [Hx|(-> & -> & ->)].
            - destruct (Ht _ _ _ Hx). split; auto.
            - split; [exact Ei | apply Fac, Hm; simpl; auto]. }
          { intros i' j' x Hx X. apply T1 in Hx. destruct Hx as [Hx|(-> & -> & ->)]; [|contradiction].
            apply (Hd _ _ _ Hx). simpl. auto. }
          { intros x Hx. destruct (F1 x) as (E1 & _ & _ & E3). rewrite E1, E3. apply Hf. destruct Hx as [Hx|Hx]; [simpl; auto|].
            apply T1 in Hx. destruct Hx as [Hx|(-> & _)]; simpl; auto. }
          { unfold t1. destruct found; auto. rewrite Eb. destruct (Nat.eqb_spec bi i) as [Hbi|], (Nat.eqb_spec bj j) as [Hbj|]; simpl; auto.
            subst bi bj. fold l in NDt. rewrite <- (rev_involutive (l ++ [m])). apply NoDup_rev. rewrite rev_app_distr. simpl.
            constructor; [intro X; apply in_rev in X; contradiction | apply NoDup_rev; auto]. }
          { assert (Hs1 : separated K smeq h1 (t bi bj)) by (eapply separated_sbs; eauto).
            unfold t1. destruct found; auto. rewrite Eb. destruct (Nat.eqb_spec bi i) as [Hbi|], (Nat.eqb_spec bj j) as [Hbj|]; simpl; auto.
            subst bi bj. apply separated_snoc; auto. intros x Hx.
            rewrite (sbs_eq _ _ _ _ _ _ (F1 m) (F1 x)). destruct Key as [_ Key2]; auto. }
          split; [intros x; eapply sbs_trans; [apply I1 | apply F1]|].
          split.
          { intros i' j' x Hx. apply I2 in Hx. destruct Hx as [Hx|Hx]; auto. apply T1 in Hx. destruct Hx as [Hx|(-> & _)]; auto. }
          split.
          { intros x Hx. apply I3 in Hx. destruct (F1 x) as (_ & _ & _ & E3). congruence. }
          rewrite I4.
          assert (Hms : lsum (fun x => wop K v idx (selb bi bj) (h1 x)) ms = lsum (fun x => wop K v idx (selb bi bj) (h x)) ms).
          { apply lsum_ext. intros x Hx. rewrite F2; auto. intro X. apply (Hd _ _ _ X). simpl. auto. }
          rewrite Hms. unfold t1.
          destruct (Nat.eq_dec bi i) as [Hi|Hi].
          { destruct (Nat.eq_dec bj j) as [Hj|Hj].
            - destruct (Key Hi Hj) as [K1 _]. subst bi bj. fold l.
              destruct found.
              + fold l. rewrite K1. ring.
              + rewrite Eb, !Nat.eqb_refl. simpl. rewrite lsum_app, K1. simpl. rewrite F2 by auto. ring.
            - (destruct found; [| rewrite Eb, (proj2 (Nat.eqb_neq bj j) Hj), andb_false_r];
               rewrite (lsum_ext K (fun x => wop K v idx (selb bi bj) (h1 x)) (fun x => wop K v idx (selb bi bj) (h x)) (t bi bj)) by
                (intros x Hx; rewrite F2; auto; eapply Dis; eauto; congruence); rewrite Wm by congruence; ring). }
          { destruct found; [| rewrite Eb, (proj2 (Nat.eqb_neq bi i) Hi); cbn [andb]];
               rewrite (lsum_ext K (fun x => wop K v idx (selb bi bj) (h1 x)) (fun x => wop K v idx (selb bi bj) (h x)) (t bi bj)) by
                (intros x Hx; rewrite F2; auto; eapply Dis; eauto; congruence); rewrite Wm by congruence; ring. }
    Qed.
  End Top.
End P.
