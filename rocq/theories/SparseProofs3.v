(** SparseProofs3.v -- solver choice, cached solvers, equality. *)
From Coq Require Import Arith ZArith List Lia Bool Field Permutation.
From Verif Require Import Base Fld SolversModel SolversSpec SolversProofs5 SparseModel SparseSpec SparseProofs.
Import ListNotations.
Local Open Scope nat_scope.

Lemma insert_perm k l : Permutation (insert_sorted k l) (k :: l).
Proof.
  induction l as [|x l IH]; simpl; auto. destruct (k <=? x)%Z; auto.
  rewrite IH. apply perm_swap.
Qed.
Lemma sort_perm l : Permutation (sort_keys l) l.
Proof.
  induction l as [|k l IH]; simpl; auto. rewrite insert_perm. auto.
Qed.
Lemma sort_In l o : In o (sort_keys l) <-> In o l.
Proof. split; apply Permutation_in; [|symmetry]; apply sort_perm. Qed.
Lemma zlist_eqb_spec a b : zlist_eqb a b = true -> a = b.
Proof.
  unfold zlist_eqb. rewrite andb_true_iff. intros [H1 H2]. apply Nat.eqb_eq in H1.
  revert b H1 H2. induction a as [|x a IH]; intros [|y b] H1 H2; simpl in *; try discriminate; auto.
  apply andb_true_iff in H2. destruct H2 as [H2 H3]. apply Z.eqb_eq in H2. subst. f_equal.
  apply IH; auto.
Qed.
Lemma zlist_eqb_refl a : zlist_eqb a a = true.
Proof.
  unfold zlist_eqb. rewrite Nat.eqb_refl. simpl. induction a; simpl; auto. rewrite Z.eqb_refl. auto.
Qed.

Section P.
  Variable K : Fld.
  Add Field KF : (flaws K).
  Notation vec := (nat -> K).
  Notation dval := (dval K).
  Notation smat := (smat K).

  Lemma dia_entry_data (A : smat) i j :
    forall ks m, (forall r, nth_error ks r = nth_error (sort_keys (map fst (sm_items K A))) (m + r)) ->
    dia_entry_from m ks (dia_data K A) i j
    = if in_dec Z.eq_dec (Z.of_nat j - Z.of_nat i)%Z ks then mat_entry K A i j else f0.
  Proof.
    induction ks as [|o ks IH]; intros m H; simpl; auto.
    rewrite IH.
    2:{ intros r. replace (S m + r) with (m + S r) by lia. rewrite <- H. reflexivity. }
    destruct (Z.eqb_spec (Z.of_nat j - Z.of_nat i) o) as [E|E].
    - destruct (Z.eq_dec o (Z.of_nat j - Z.of_nat i)); [|congruence].
      unfold dia_data. specialize (H 0). rewrite Nat.add_0_r in H. simpl in H. rewrite <- H.
      rewrite dict_get_lookup. unfold mat_entry. rewrite E.
      destruct (lookup K (sm_items K A) o); auto. f_equal. f_equal. lia.
    - destruct (Z.eq_dec o (Z.of_nat j - Z.of_nat i)); [congruence|].
      destruct (in_dec Z.eq_dec _ ks); reflexivity.
  Qed.
  Lemma dia_entry_mat (A : smat) i j :
    dia_entry (sort_keys (map fst (sm_items K A))) (dia_data K A) i j = mat_entry K A i j.
  Proof.
    unfold dia_entry. rewrite dia_entry_data by reflexivity.
    destruct (in_dec Z.eq_dec _ _) as [|n]; auto. rewrite sort_In in n.
    unfold mat_entry. rewrite lookup_not_in; auto.
  Qed.

  Variable is0 : K -> bool.
  Variable deq : dval -> dval -> bool.

  Lemma get_solver_keys (A : smat) k : get_solver K is0 deq A = Some k ->
    sort_keys (map fst (sm_items K A)) = kind_offsets k.
  Proof.
    unfold get_solver. set (ks := sort_keys _). destruct (is0 _); [discriminate|].
    intros H. repeat (match type of H with
      | context [match ?n with O => _ | S _ => _ end] => destruct n; try discriminate H
      | context [if ?b then _ else _] => destruct b eqn:?; try discriminate H
      end); injection H as <-; simpl; apply zlist_eqb_spec; auto.
    all: match goal with H : (_ && _)%bool = true |- _ => apply andb_true_iff in H; tauto end.
  Qed.

  Lemma wf_kind_min (A : smat) k : wf K A -> sm_cols K A = sm_rows K A ->
    sort_keys (map fst (sm_items K A)) = kind_offsets k -> k <> KThreeDMA -> kind_min k <= sm_rows K A.
  Proof.
    intros [_ Hf] Hsq E Hk.
    assert (HB : forall o, In o (kind_offsets k) -> (- Z.of_nat (sm_rows K A) < o < Z.of_nat (sm_rows K A))%Z).
    { intros o Ho. rewrite <- E, sort_In in Ho. apply in_map_iff in Ho. destruct Ho as ([k' v] & <- & Hin).
      eapply Forall_forall in Hf; eauto. rewrite Hsq in Hf. apply Hf. }
    destruct k; simpl in *; try congruence; try lia.
    - pose proof (HB 2%Z ltac:(simpl; auto 12)). lia.
    - pose proof (HB 1%Z ltac:(simpl; auto 12)). lia.
    - pose proof (HB 4%Z ltac:(simpl; auto 12)). lia.
    - pose proof (HB 2%Z ltac:(simpl; auto 12)). lia.
    - pose proof (HB 4%Z ltac:(simpl; auto 12)). lia.
    - pose proof (HB 8%Z ltac:(simpl; auto 12)). lia.
  Qed.

  Lemma solver_solves (A : smat) k b : wf K A -> sm_cols K A = sm_rows K A ->
    get_solver K is0 deq A = Some k -> k <> KThreeDMA ->
    leading_nonsingular (sm_rows K A) (mat_entry K A) ->
    solves (sm_rows K A) (mat_entry K A)
      (snd (call K (new_solver K k (sm_rows K A) (dia_data K A)) None b)) b.
  Proof.
    intros Hw Hsq Hg Hk HN. pose proof (get_solver_keys A k Hg) as E.
    assert (EE : forall i j, dia_entry (kind_offsets k) (dia_data K A) i j = mat_entry K A i j).
    { intros. rewrite <- E. apply dia_entry_mat. }
    assert (H : solves (sm_rows K A) (dia_entry (kind_offsets k) (dia_data K A))
        (snd (call K (new_solver K k (sm_rows K A) (dia_data K A)) None b)) b).
    { apply fresh_call_solves; auto. apply wf_kind_min; auto.
      intros r Hr x Hx. apply (HN r Hr). intros i Hi. rewrite <- (Hx i Hi). apply fsum_ext. intros. now rewrite EE. }
    intros i Hi. rewrite <- (H i Hi). apply fsum_ext. intros. now rewrite EE.
  Qed.

  Lemma fmul_opp1 (w : K) : fmul w (fopp f1) = fopp w.
  Proof. ring. Qed.
  Lemma fdiv_assoc_cancel (x s y : K) : y <> f0 -> fmul (fmul x (fdiv s y)) y = fmul x s.
  Proof. intros. field. auto. Qed.

  Lemma perform_lu_idem s : perform_lu K (perform_lu K s) = perform_lu K s.
  Proof. unfold perform_lu. destruct (s_factored s) eqn:E; [rewrite E|]; reflexivity. Qed.
  Lemma call_perform_lu s b : call K (perform_lu K s) None b = call K s None b.
  Proof. unfold call. rewrite perform_lu_idem. reflexivity. Qed.

  Lemma cached_solves s16 n1 (A : smat) k (bs : list vec) b :
    wf K A -> sm_cols K A = sm_rows K A -> get_solver K is0 deq A = Some k -> k <> KThreeDMA ->
    leading_nonsingular (sm_rows K A) (mat_entry K A) ->
    exists u, snd (mo_step K is0 deq s16 n1 (mo_run K is0 deq s16 n1 (mkMobj K A None) (map (OpSolve K) bs)) (OpSolve K b)) = Some u /\
    solves (sm_rows K A) (mat_entry K A) u b.
  Proof.
    intros Hw Hsq Hg Hk HN.
    set (s0 := new_solver K k (sm_rows K A) (dia_data K A)).
    assert (I : forall bs o, (o = mkMobj K A None \/ o = mkMobj K A (Some (perform_lu K s0))) ->
      let o' := mo_run K is0 deq s16 n1 o (map (OpSolve K) bs) in
      o' = mkMobj K A None \/ o' = mkMobj K A (Some (perform_lu K s0))).
    { induction bs0 as [|b0 bs0 IH]; intros o Ho; simpl; auto. apply IH.
      destruct Ho as [-> | ->]; simpl; [rewrite Hg; simpl; auto|].
      right. rewrite perform_lu_idem. reflexivity. }
    pose proof (solver_solves A k b Hw Hsq Hg Hk HN) as S. fold s0 in S.
    destruct (I bs _ (or_introl eq_refl)) as [E|E]; rewrite E; unfold mo_step; cbn [mo_solver mo_mat].
    - rewrite Hg. fold s0. destruct (call K s0 None b) as [s' u]. simpl in *. eauto.
    - rewrite call_perform_lu. destruct (call K s0 None b) as [s' u]. simpl in *. eauto.
  Qed.

  (** ** equality *)
  Hypothesis is0_spec : forall x, is0 x = true <-> x = f0.

  Lemma filter_same {P} (l : list P) (fa fb : P -> K) :
    (forall p, In p l -> is0 (fa p) = is0 (fb p)) ->
    filter (fun x => negb (is0 x)) (map fa l) = filter (fun x => negb (is0 x)) (map fb l) ->
    forall p, In p l -> fa p = fb p.
  Proof.
    induction l as [|q l IH]; simpl; intros H E p Hp; [tauto|].
    pose proof (H q (or_introl eq_refl)) as Hq. rewrite <- Hq in E.
    destruct (is0 (fa q)) eqn:Eq; simpl in E.
    - destruct Hp as [<-|Hp]; [|apply IH; auto].
      symmetry in Hq. apply is0_spec in Eq, Hq. congruence.
    - injection E as E1 E2. destruct Hp as [<-|Hp]; auto.
  Qed.

  Definition positions (N M : nat) : list (nat * nat) :=
    flat_map (fun i => map (fun j => (i, j)) (seq 0 M)) (seq 0 N).
  Lemma positions_In N M i j : In (i, j) (positions N M) <-> i < N /\ j < M.
  Proof.
    unfold positions. rewrite in_flat_map. split.
    - intros (i' & Hi & Hj). apply in_map_iff in Hj. destruct Hj as (j' & E & Hj).
      injection E as -> ->. apply in_seq in Hi, Hj. lia.
    - intros [Hi Hj]. exists i. split; [apply in_seq; lia|]. apply in_map_iff. exists j.
      split; auto. apply in_seq; lia.
  Qed.
  Lemma flat_map_positions N M (f : nat -> nat -> K) :
    flat_map (fun i => map (fun j => f i j) (seq 0 M)) (seq 0 N)
    = map (fun p => f (fst p) (snd p)) (positions N M).
  Proof.
    unfold positions. generalize (seq 0 N) as l. induction l as [|i l IH]; simpl; auto.
    rewrite map_app, map_map. simpl. f_equal. auto.
  Qed.
  Lemma items_entry_lookup l o t : items_entry K l o t = oget K (lookup K l o) t.
  Proof.
    induction l as [|[k v] l IH]; simpl; auto.
    destruct (Z.eqb_spec k o), (Z.eq_dec k o); try congruence; auto.
  Qed.

  Lemma csr_equal (A B : smat) :
    sm_rows K A = sm_rows K B -> sm_cols K A = sm_cols K B ->
    (forall o, In o (map fst (sm_items K A)) <-> In o (map fst (sm_items K B))) ->
    (forall C, C = A \/ C = B -> forall i j, i < sm_rows K C -> j < sm_cols K C ->
       In (Z.of_nat j - Z.of_nat i)%Z (map fst (sm_items K C)) -> unscaled_entry K C i j <> f0) ->
    csr_data K is0 A = csr_data K is0 B ->
    forall i j, i < sm_rows K A -> j < sm_cols K A -> unscaled_entry K A i j = unscaled_entry K B i j.
  Proof.
    intros Hr Hc Hk Hz E i j Hi Hj. unfold csr_data in E.
    rewrite !flat_map_positions in E. rewrite <- Hr, <- Hc in E.
    apply (filter_same (positions (sm_rows K A) (sm_cols K A))
      (fun p => unscaled_entry K A (fst p) (snd p)) (fun p => unscaled_entry K B (fst p) (snd p)))
      with (p := (i, j)); auto; [|apply positions_In; auto].
    intros [i' j'] Hp. apply positions_In in Hp. simpl.
    destruct (in_dec Z.eq_dec (Z.of_nat j' - Z.of_nat i')%Z (map fst (sm_items K A))) as [I|I].
    - pose proof (Hz A (or_introl eq_refl) i' j' ltac:(tauto) ltac:(tauto) I) as ZA.
      pose proof (Hz B (or_intror eq_refl) i' j' ltac:(lia) ltac:(lia) (proj1 (Hk _) I)) as ZB.
      destruct (is0 (unscaled_entry K A i' j')) eqn:EA; [apply is0_spec in EA; congruence|].
      destruct (is0 (unscaled_entry K B i' j')) eqn:EB; [apply is0_spec in EB; congruence|]. reflexivity.
    - unfold unscaled_entry. rewrite !items_entry_lookup.
      rewrite !lookup_not_in; auto. rewrite <- Hk. auto.
  Qed.
End P.
