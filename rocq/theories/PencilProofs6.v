(** PencilProofs6.v -- distributed transforms: the pieces put together. *)
From Coq Require Import Arith List Bool Lia Permutation.
From Verif Require Import Base Fld PencilModel PencilSpec PencilProofs PencilProofs2 PencilProofs3 PencilProofs4 PencilProofs5.
Import ListNotations.
Local Open Scope nat_scope.

Section Setup.
  Context {V : Type}.
  Notation base := (@base V).
  Variables (dims : list nat) (bases : list base) (d : base) (axes : list nat) (coll : bool).
  Hypothesis HS : setup dims bases d axes coll.

  Lemma setup_axes : axes <> [] /\ NoDup axes /\
    (forall k, In k axes -> k < length dims /\ base_ok (nth k bases d)).
  Proof.
    destruct HS as [H1 H2 H3 H4 _]. split; [|split].
    - intros ->. apply Permutation_nil in H3. destruct dims; [congruence | discriminate].
    - apply (Permutation_NoDup (Permutation_sym H3)). apply seq_NoDup.
    - intros k Hk. assert (Hl : k < length dims).
      { apply (Permutation_in _ H3) in Hk. apply in_seq in Hk. lia. }
      split; [assumption|]. apply H4. apply nth_In. lia.
  Qed.

  Lemma setup_groups : groups_ok dims bases d (groups_of dims coll bases d axes).
  Proof.
    destruct setup_axes as (H1 & H2 & H3). apply groups_of_ok; auto.
    intros Hc. destruct (su_coll _ _ _ _ _ HS Hc) as [P1 P2]. split; [|assumption].
    intros k Hk. apply P1. apply nth_In. rewrite (su_len _ _ _ _ _ HS). apply H3. assumption.
  Qed.

  Lemma chain_pwf ss ts gs P E : chain dims bases d ss ts gs P E -> pwf dims P /\ pwf dims E.
  Proof.
    induction 1 as [s g P S H | s s' ss t ts g gs P S P' E H H0 IH H1 H2 H3].
    - destruct H as (HP & _ & _ & -> & _). split; [assumption|]. apply pwf_pset. assumption.
    - split; [apply H | apply IH].
  Qed.

  Lemma configure_in gs dt sp : length bases = length dims ->
    configure dims bases d gs dt = Some sp -> p_shape (sp_in sp) = map bs_phys bases.
  Proof.
    intros Hl. unfold configure. destruct (rev gs) as [|g rest]; [discriminate|]. rewrite Hl.
    destruct (mk_pencil _ _ _ _) as [p0|] eqn:E0; [|discriminate].
    match goal with |- match ?e with _ => _ end = _ -> _ => destruct e as [s|]; [|discriminate] end.
    match goal with |- match ?e with _ => _ end = _ -> _ => destruct e as [pA|]; [|discriminate] end.
    match goal with |- match ?e with _ => _ end = _ -> _ => destruct e as [[[ss ts] pe]|]; [|discriminate] end.
    intros E. injection E as <-. cbn [sp_in].
    destruct (pwf_start dims (map bs_phys bases) (last g 0) p0 ltac:(rewrite map_length; exact Hl) E0) as (_ & _ & H & _).
    exact H.
  Qed.

  Variables (dt : bool) (sp : @space V).
  Hypothesis Hsp : configure dims bases d (groups_of dims coll bases d axes) dt = Some sp.

  Lemma setup_chain :
    chain dims bases d (sp_stages sp) (sp_transfers sp) (rev (groups_of dims coll bases d axes)) (sp_in sp) (sp_out sp) /\
    (exists s rest, sp_stages sp = s :: rest /\ s_pdt s = dt) /\
    pwf dims (sp_in sp) /\ pwf dims (sp_out sp) /\
    p_shape (sp_in sp) = map bs_phys bases /\ p_shape (sp_out sp) = map bs_spec bases.
  Proof.
    destruct (configure_chain dims bases d _ dt sp (su_len _ _ _ _ _ HS) setup_groups Hsp) as [HC HD].
    destruct (chain_pwf _ _ _ _ _ HC) as [P1 P2].
    destruct setup_axes as (A1 & A2 & A3).
    split; [exact HC|]. split; [exact HD|]. split; [exact P1|]. split; [exact P2|].
    split; [apply (configure_in _ _ _ (su_len _ _ _ _ _ HS) Hsp)|].
    assert (HN : NoDup (concat (rev (groups_of dims coll bases d axes)))).
    { apply NoDup_concat_rev. rewrite groups_of_concat by assumption. assumption. }
    destruct (chain_shape dims bases d _ _ _ _ _ HC HN) as (L1 & L2 & _).
    apply list_ext; [rewrite map_length, L1; symmetry; apply (su_len _ _ _ _ _ HS)|].
    intros i Hi. rewrite L1 in Hi. rewrite L2.
    - rewrite <- (map_nth bs_spec). apply nth_indep. rewrite map_length, (su_len _ _ _ _ _ HS). exact Hi.
    - assert (Hin : In i (concat (groups_of dims coll bases d axes))).
      { rewrite groups_of_concat by assumption.
        apply (Permutation_in _ (Permutation_sym (su_perm _ _ _ _ _ HS))). apply in_seq. lia. }
      apply in_concat in Hin. destruct Hin as (g & G1 & G2). apply in_concat. exists g.
      split; [apply -> in_rev; assumption | assumption].
  Qed.

  Lemma setup_forward fin x u : fin_ok fin ->
    b_dt x = dt -> distributed dims (sp_in sp) x u ->
    exists y, match sp_stages sp with
      | [] => None
      | s :: _ =>
          match load dims (s_pshape s) (s_pdt s) x with
          | None => None
          | Some x => run_forward fin (transfer_forward dims) (sp_stages sp) (sp_transfers sp) x
          end
      end = Some y /\ b_dt y = output_dtype sp /\
      distributed dims (sp_out sp) y (tensor (fun b l => fin b (bs_raw b l)) bases d (rev axes) u).
  Proof.
    intros Hf Hdt Hx. destruct setup_chain as (HC & (s & r & E1 & E2) & _).
    destruct (forward_chain dims bases d fin sp _ x u Hf HC) as (y & Y1 & Y2 & Y3).
    - exists s, r. split; [exact E1 | congruence].
    - exact Hx.
    - exists y. split; [exact Y1|]. split; [exact Y2|].
      rewrite concat_map_rev, groups_of_concat in Y3 by apply setup_axes. exact Y3.
  Qed.

  Lemma setup_backward x u : b_dt x = output_dtype sp -> distributed dims (sp_out sp) x u ->
    exists y, backward dims sp x = Some y /\ b_dt y = dt /\
      distributed dims (sp_in sp) y (tensor line_backward bases d axes u).
  Proof.
    intros Hdt Hx. destruct setup_chain as (HC & (s & r & E1 & E2) & _).
    destruct (backward_chain dims bases d sp _ x u HC Hdt Hx) as (y & s' & r' & Y1 & Y2 & Y3 & Y4).
    exists y. split; [exact Y1|]. split; [congruence|].
    rewrite rev_involutive, groups_of_concat in Y4 by apply setup_axes. exact Y4.
  Qed.
End Setup.

(** ** every entry is stored once *)
Lemma block_unique N size r r' j : bstart N size r <= j < bstart N size r + blen N size r ->
  bstart N size r' <= j < bstart N size r' + blen N size r' -> r = r'.
Proof.
  intros H H'. destruct (Nat.lt_trichotomy r r') as [L|[L|L]]; [|exact L|]; exfalso.
  - pose proof (bstart_mono N size (S r) r' L) as Q. rewrite bstart_S in Q. lia.
  - pose proof (bstart_mono N size (S r') r L) as Q. rewrite bstart_S in Q. lia.
Qed.

Lemma sub_surjective (l : list nat) n : length l = n -> NoDup l -> (forall i, i < n -> nth i l 0 < n) ->
  forall m, m < n -> exists i, i < n /\ nth i l 0 = m.
Proof.
  intros Hl HN Hb m Hm.
  assert (Hinc : incl l (seq 0 n)).
  { intros a Ha. apply (In_nth _ _ 0) in Ha. destruct Ha as (i & Hi & <-). apply in_seq.
    specialize (Hb i). lia. }
  assert (Hin : In m l).
  { apply (NoDup_length_incl HN (l' := seq 0 n)); [rewrite seq_length; lia | exact Hinc | apply in_seq; lia]. }
  apply (In_nth _ _ 0) in Hin. destruct Hin as (i & Hi & E). exists i. split; [lia | exact E].
Qed.

Section Once.
  Variable dims : list nat.
  Hypothesis Hpos : forall i, i < length dims -> 1 <= nth i dims 1.

  Lemma stored_once p g : pwf dims p -> inside (p_shape p) g ->
    exists c idx, on_grid dims c /\ inside (subshape dims p c) idx /\ global_index dims p c idx = g /\
      forall c' idx', on_grid dims c' -> inside (subshape dims p c') idx' -> global_index dims p c' idx' = g ->
        c' = c /\ idx' = idx.
  Proof.
    intros Hp [Hg1 Hg2]. pose proof Hp as (H1 & H2 & H3 & H4 & H5 & H6).
    assert (Hsur : forall m, m < length dims -> exists i, i < length dims /\ nth i (p_sub p) 0 = m).
    { apply sub_surjective; [lia | exact H3 | exact H4]. }
    set (ow := fun i => owner (nth i (p_shape p) 0) (psize dims p i) (nth i g 0)).
    set (ax := fun m => match find (fun i => nth i (p_sub p) 0 =? m) (seq 0 (length dims)) with Some i => i | None => 0 end).
    assert (Hax : forall i, i < length dims -> ax (nth i (p_sub p) 0) = i).
    { intros i Hi. unfold ax. destruct (find _ _) as [j|] eqn:E.
      - apply find_some in E. destruct E as [E1 E2]. apply in_seq in E1. apply Nat.eqb_eq in E2.
        apply (proj1 (NoDup_nth _ 0) H3); [lia | lia | exact E2].
      - exfalso. pose proof (find_none _ _ E i ltac:(apply in_seq; lia)) as Q. cbv beta in Q.
        rewrite Nat.eqb_refl in Q. discriminate. }
    assert (Hps : forall i, i < length dims -> 0 < psize dims p i).
    { intros i Hi. unfold psize. apply Hpos. apply H4. exact Hi. }
    assert (How : forall i, i < length dims -> ow i < psize dims p i /\
      bstart (nth i (p_shape p) 0) (psize dims p i) (ow i) <= nth i g 0 <
      bstart (nth i (p_shape p) 0) (psize dims p i) (ow i) + blen (nth i (p_shape p) 0) (psize dims p i) (ow i)).
    { intros i Hi. apply owner_spec; [auto | apply Hg2; lia]. }
    set (c := map (fun m => ow (ax m)) (seq 0 (length dims))).
    assert (Hc : forall i, i < length dims -> prank p c i = ow i).
    { intros i Hi. unfold prank, c. rewrite nth_map_seq by (apply H4; exact Hi). rewrite Hax by exact Hi. reflexivity. }
    assert (Hcg : on_grid dims c).
    { split; [unfold c; rewrite map_length, seq_length; reflexivity|]. intros m Hm.
      destruct (Hsur m Hm) as (i & Hi & <-). specialize (How i Hi). fold (prank p c i). rewrite Hc by exact Hi.
      apply How. }
    set (idx := map (fun i => nth i g 0 - pstart dims p c i) (seq 0 (length dims))).
    exists c, idx.
    assert (Hst : forall i, i < length dims -> pstart dims p c i <= nth i g 0 < pstart dims p c i + plen dims p c i).
    { intros i Hi. unfold pstart, plen. rewrite Hc by exact Hi. apply How. exact Hi. }
    split; [exact Hcg|]. split; [|split].
    - apply inside_iff. split; [unfold idx; rewrite map_length, seq_length; lia|].
      intros i Hi. rewrite H2 in Hi. unfold idx. rewrite nth_map_seq by exact Hi. specialize (Hst i Hi). lia.
    - apply list_ext; [rewrite global_length; lia|]. intros i Hi. rewrite global_length, H2 in Hi.
      rewrite nth_global by lia. unfold idx. rewrite nth_map_seq by exact Hi. specialize (Hst i Hi). lia.
    - intros c' idx' Hc' Hi' E. apply inside_iff in Hi'. destruct Hi' as [I1 I2].
      assert (HE : forall i, i < length dims -> pstart dims p c' i + nth i idx' 0 = nth i g 0).
      { intros i Hi. rewrite <- E. rewrite nth_global by lia. reflexivity. }
      assert (HR : forall i, i < length dims -> prank p c' i = prank p c i).
      { intros i Hi. specialize (HE i Hi). specialize (I2 i ltac:(lia)). specialize (Hst i Hi).
        unfold pstart, plen in *. eapply block_unique; [|exact Hst]. lia. }
      assert (Ec : c' = c).
      { destruct Hc' as [C1 C2]. destruct Hcg as [C3 C4]. apply list_ext; [lia|]. intros m Hm. rewrite C1 in Hm.
        destruct (Hsur m Hm) as (i & Hi & <-). apply HR. exact Hi. }
      subst c'. split; [reflexivity|]. apply list_ext; [unfold idx; rewrite map_length, seq_length; lia|].
      intros i Hi. rewrite I1, H2 in Hi. unfold idx. rewrite nth_map_seq by exact Hi. specialize (HE i Hi). lia.
  Qed.
End Once.

(** ** planning succeeds *)
Section Planned.
  Context {V : Type}.
  Notation base := (@base V).
  Variables (dims : list nat) (bases : list base) (d : base) (axes : list nat) (coll : bool).
  Hypothesis HS : setup dims bases d axes coll.
  Hypothesis Hpos : forall i, i < length dims -> 1 <= nth i dims 1.

  Lemma setup_gplan : roomy dims (map bs_spec bases) ->
    forall g, In g (groups_of dims coll bases d axes) -> gplan dims bases d g.
  Proof.
    intros [HR1 HR2] g Hg. destruct (setup_axes _ _ _ _ _ HS) as (A1 & A2 & A3).
    assert (Hin : forall k, In k g -> In k axes).
    { intros k K. rewrite <- (groups_of_concat dims bases d coll axes A1). apply in_concat. exists g. auto. }
    assert (Hgr : g <> [] /\ (2 <= length g -> coll = true /\ forall k, In k g -> is_fourier (nth k bases d) = true)).
    { unfold groups_of in Hg. destruct coll; cbn [andb] in Hg.
      - destruct (negb (existsb bs_padded bases)).
        + unfold collapse in Hg. destruct (rev axes) as [|ax r]; [destruct Hg|].
          pose proof (collapse_loop_groups
            (fun ax => is_fourier (nth ax bases d) && (nth ax dims 1 =? 1)) r [[ax]]
            (is_fourier (nth ax bases d) && (nth ax dims 1 =? 1))) as Q.
          destruct (Q ltac:(discriminate)
            ltac:(intros q [<-|[]]; split; [discriminate | cbn; lia])
            ltac:(intros q qs E; injection E as <- <-; reflexivity) g Hg) as [Q1 Q2].
          split; [exact Q1|]. intros Hl. split; [reflexivity|]. intros k K.
          specialize (Q2 Hl k K). apply andb_true_iff in Q2. apply Q2.
        + apply in_map_iff in Hg. destruct Hg as (k & <- & _). split; [discriminate | cbn; lia].
      - apply in_map_iff in Hg. destruct Hg as (k & <- & _). split; [discriminate | cbn; lia]. }
    destruct Hgr as [G1 G2].
    split; [exact G1|]. split.
    { intros k K. destruct (A3 k (Hin k K)) as [A4 _]. split; [exact A4|]. intros j Hj.
      specialize (HR2 k j A4 Hj). rewrite <- (map_nth bs_spec). rewrite (nth_indep (map bs_spec bases) (bs_spec d) 0); [exact HR2|].
      rewrite map_length, (su_len _ _ _ _ _ HS). exact A4. }
    split.
    { intros Hl. apply G2; [exact Hl | apply last_in; exact G1]. }
    intros k K.
    assert (Hl : 2 <= length g) by (destruct g as [|a [|a' g']]; cbn in *; try contradiction; lia).
    destruct (G2 Hl) as [G3 G4]. pose proof (G4 k (removelast_in _ _ K)) as G5.
    destruct (su_coll _ _ _ _ _ HS G3) as [_ HF].
    assert (HK : In k (removelast axes)).
    { rewrite <- (groups_of_concat dims bases d coll axes A1). eapply in_concat_removelast; eassumption. }
    specialize (HF k HK). unfold is_fourier in G5. destruct (bs_kind (nth k bases d)); congruence.
  Qed.

  Lemma setup_defined dt : roomy dims (map bs_phys bases) -> roomy dims (map bs_spec bases) ->
    nth (last axes 0) dims 1 = 1 -> dtypes_ok bases d dt (rev axes) ->
    exists sp, configure dims bases d (groups_of dims coll bases d axes) dt = Some sp.
  Proof.
    intros H1 H2 H3 H4. destruct (setup_axes _ _ _ _ _ HS) as (A1 & A2 & A3).
    pose proof (groups_of_concat dims bases d coll axes A1) as E.
    apply configure_defined.
    - apply (su_len _ _ _ _ _ HS).
    - exact Hpos.
    - intros Q. rewrite Q in E. cbn in E. congruence.
    - exact H1.
    - rewrite E. exact A2.
    - apply setup_gplan. exact H2.
    - rewrite E. exact H3.
    - rewrite E. exact H4.
  Qed.
End Planned.
