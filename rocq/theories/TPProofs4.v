(** TPProofs4.v -- rows of block matrices; extracting diagonals. *)
From Coq Require Import Arith ZArith List Lia Bool Field.
From Verif Require Import Base Fld SparseModel SparseSpec SparseProofs TPModel TPSpec TPProofs TPProofs2 TPProofs3.
Import ListNotations.
Local Open Scope nat_scope.

Section P.
  Variable K : Fld.
  Add Field KF4 : (flaws K).
  Notation arr := (list nat -> K).
  Notation lsum := (lsum K).

  Lemma fold_add_lsum {A} (f : A -> K) l c : fold_left (fun c m => fadd c (f m)) l c = fadd c (lsum f l).
  Proof. revert c. induction l as [|x l IH]; intros c; simpl; [|rewrite IH]; ring. Qed.
  Lemma for_up_sum n (f : nat -> K) c : for_up n 0 (fun j c => fadd c (f j)) c = fadd c (fsum n f).
  Proof.
    induction n as [|n IH]; [simpl; change (fsum 0 f) with (f0 : K); ring|]. rewrite for_up_snoc, IH. simpl plus. rewrite fsum_S. ring.
  Qed.
  Lemma block_row_sum L first h t nc v i idx :
    block_row K L first h t nc v i idx =
    fsum nc (fun j => lsum (fun m => tp_matvec K L first (h m) (v j) idx) (t i j)).
  Proof.
    unfold block_row. rewrite (for_up_ext _ _ _ (fun j c => fadd c (lsum (fun m => tp_matvec K L first (h m) (v j) idx) (t i j)))).
    - rewrite for_up_sum. ring.
    - intros j c _. apply (fold_add_lsum (fun m => tp_matvec K L first (h m) (v j) idx)).
  Qed.

  Section B.
    Variable smeq : smat K -> smat K -> bool.
    Variable P : smat K -> Prop.
    Hypothesis HP : good_eq K P smeq.

    (** one block of the table built from a list of distinct objects *)
    Lemma block_add_matvec n L first v idx bi bj ms (h : heap K) :
      NoDup ms ->
      (forall m, In m ms -> factors_in K P n (h m)) ->
      (forall m, In m ms -> selb bi bj (tp_index (h m)) = true -> tp_ok K L idx (h m)) ->
      let '(h', t') := block_add K smeq h (fun _ _ => []) ms in
      (forall x, same_but_scale K (h' x) (h x)) /\
      lsum (fun x => tp_matvec K L first (h' x) v idx) (t' bi bj) =
      lsum (fun m => if selb bi bj (tp_index (h m)) then tp_matvec K L first (h m) v idx else f0) ms.
    Proof.
      intros ND Hm Hok.
      pose proof (block_add_ok K smeq P HP n v idx bi bj ms h (fun _ _ => [])) as B.
      destruct (block_add K smeq h (fun _ _ => []) ms) as [h' t']. destruct B as (B1 & B2 & B3 & B4); auto.
      - intros i j x [].
      - intros x [Hx|[]] Hs. destruct (Hok x Hx Hs) as [H _]. eapply axes_rows; eauto.
      - constructor.
      - intros x y l1 l2 l3 E. destruct l1; discriminate.
      - split; auto.
        transitivity (lsum (fun x => wop K v idx (selb bi bj) (h' x)) (t' bi bj)).
        + apply lsum_ext. intros x Hx. specialize (B3 x Hx). unfold wop.
          destruct (B1 x) as (_ & _ & _ & E). rewrite E, B3. unfold selb at 1. simpl. rewrite !Nat.eqb_refl. simpl.
          apply tp_matvec_ok. apply (tp_ok_sbs _ _ _ _ _ (B1 x)).
          destruct (B2 _ _ _ Hx) as [Hx'|[]]. apply Hok; auto. rewrite B3. unfold selb. simpl. now rewrite !Nat.eqb_refl.
        + rewrite B4. simpl. transitivity (lsum (fun x => wop K v idx (selb bi bj) (h x)) ms); [ring|].
          apply lsum_ext. intros x Hx. unfold wop. destruct (selb bi bj (tp_index (h x))) eqn:Es; auto.
          symmetry. apply tp_matvec_ok; auto.
    Qed.
  End B.

  Definition sel_op (T : tpmat K) (i j : nat) (v : arr) (idx : list nat) : K :=
    if selb i j (tp_index T) then tp_op K T v idx else f0.

  Lemma block_init_row smeq L first v idx n nc bi ms (s : st K) :
    ms <> [] ->
    (forall m, In m ms -> m < st_next s /\ needs_simplify K (st_heap s m) = true /\ length (tp_mats (st_heap s m)) = n) ->
    (exists m r, ms = m :: r /\ naxes K (st_heap s m) <> []) ->
    (forall m, In m ms -> fst (tp_index (st_heap s m)) = bi -> tp_ok K L idx (st_heap s m)) ->
    good_eq K (fun A => exists r, In r ms /\ In A (tp_mats (get_simplified K (st_heap s r)))) smeq ->
    let '(s', t') := block_init K smeq s ms in
    (forall r, r < st_next s -> st_heap s' r = st_heap s r) /\
    block_row K L first (st_heap s') t' nc v bi idx =
    fsum nc (fun j => lsum (fun m => sel_op (st_heap s m) bi j (v j) idx) ms).
  Proof.
    intros Hne Hm (m0 & r0 & E0 & Hn0) Hok Hg. unfold block_init.
    assert (Esimp : (match ms with [] => false | m :: _ => match naxes K (st_heap s m) with [] => false | _ => true end end) = true).
    { rewrite E0. destruct (naxes K (st_heap s m0)); [congruence | reflexivity]. }
    rewrite Esimp. clear Esimp m0 r0 E0 Hn0.
    assert (Hsel : forall j m, selb bi j (tp_index (st_heap s m)) = true -> fst (tp_index (st_heap s m)) = bi).
    { intros j m H. unfold selb in H. apply andb_true_iff in H. destruct H as [H _]. apply Nat.eqb_eq in H. exact H. }
    assert (S : forall j, _) by (intros j; exact (simplified_tpmatrices_ok K smeq L idx first (v j) (selb bi j) n ms s Hne Hm
       (fun r H1 H2 => Hok r H1 (Hsel j r H2)) Hg)).
    destruct (simplified_tpmatrices K smeq s ms) as [s1 B].
    assert (Lm : forall T, length (tp_mats (get_simplified K T)) = length (tp_mats T)).
    { intros T. unfold get_simplified. destruct (needs_simplify K T); auto. simpl. generalize (tp_diag T).
      induction (tp_mats T) as [|M l IH]; intros [|f fl]; simpl; auto. }
    set (P := fun A => exists r, In r ms /\ In A (tp_mats (get_simplified K (st_heap s r)))) in *.
    assert (BA : forall j, _) by (intros j; exact (block_add_matvec smeq P Hg n L first (v j) idx bi j B (st_heap s1))).
    assert (Frame : forall ms (h : heap K) t r, ~ In r ms -> (forall i j, ~ In r (t i j)) -> fst (block_add K smeq h t ms) r = h r).
    { clear. induction ms as [|m ms IH]; intros h t r H1 H2; simpl; auto.
      destruct (tp_index (h m)) as [i j]. destruct (t i j) as [|b l] eqn:Et.
      - apply IH; [intro; apply H1; simpl; auto|]. intros i' j'. unfold tset.
        destruct ((i' =? i) && (j' =? j)); auto. simpl. intros [<-|[]]. apply H1. simpl. auto.
      - pose proof (merge_loop_frame K smeq (t i j) h m) as [_ F].
        change (if tp_eq K smeq (h m) (h b)
                then (fst (merge_loop K smeq (upd h b (tp_iadd K (h b) (h m))) m l), true)
                else merge_loop K smeq h m l) with (merge_loop K smeq h m (b :: l)).
        change (b :: l ++ [m]) with ((b :: l) ++ [m]). rewrite <- Et.
        destruct (merge_loop K smeq h m (t i j)) as [h1 fnd]. simpl in F.
        rewrite IH; [apply F; apply H2 | intro; apply H1; simpl; auto |].
        intros i' j'. destruct fnd; auto. unfold tset. destruct ((i' =? i) && (j' =? j)); auto.
        rewrite in_app_iff. simpl. intros [X|[<-|[]]]; [apply (H2 _ _ X) | apply H1; simpl; auto]. }
    specialize (Frame B (st_heap s1) (fun _ _ => [])).
    destruct (block_add K smeq (st_heap s1) (fun _ _ => []) B) as [h' t']. simpl in *.
    destruct (S 0) as (S1 & S2 & S3 & S4 & _).
    assert (BA' : forall j, (forall x, same_but_scale K (h' x) (st_heap s1 x)) /\
      lsum (fun x => tp_matvec K L first (h' x) (v j) idx) (t' bi j) =
      lsum (fun m => if selb bi j (tp_index (st_heap s1 m)) then tp_matvec K L first (st_heap s1 m) (v j) idx else f0) B).
    { intros j. apply (BA j); auto.
      - intros m Hmb. destruct (S4 m Hmb) as (_ & r & Hr & (E1 & _)). split; rewrite E1.
        + rewrite Lm. apply Hm. auto.
        + apply Forall_forall. intros M HM. exists r. auto.
      - intros m Hmb Hs. destruct (S4 m Hmb) as (_ & r & Hr & Sb). apply (tp_ok_sbs _ _ _ _ _ Sb).
        destruct Sb as (_ & _ & _ & Ei). rewrite Ei, simplified_index in Hs.
        apply simplified_ok; [apply Hm; auto|]. apply Hok; auto. eapply Hsel; eauto. }
    split.
    - intros r Hr. rewrite Frame; [apply S1; auto | | auto].
      intros Hb. destruct (S4 r Hb). lia.
    - rewrite block_row_sum. apply fsum_ext. intros j Hj. rewrite (proj2 (BA' j)).
      destruct (S j) as (_ & _ & _ & _ & S5). rewrite S5. apply lsum_ext. intros m Hmm. unfold sel_op.
      destruct (selb bi j (tp_index (st_heap s m))) eqn:Es; auto. apply tp_matvec_ok. apply Hok; auto. eapply Hsel; eauto.
  Qed.
End P.
