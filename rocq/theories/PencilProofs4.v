(** PencilProofs4.v -- the transforms of planned spaces; padded spaces. *)
From Coq Require Import Arith List Bool Lia Permutation.
From Verif Require Import Base Fld PencilModel PencilSpec PencilProofs PencilProofs2 PencilProofs3.
Import ListNotations.
Local Open Scope nat_scope.

Section Main.
  Variable dims : list nat.
  Context {V : Type}.
  Notation base := (@base V).
  Variables (bases : list base) (d : base).

  Lemma fin_ok_trunc : fin_ok (@bs_trunc V).
  Proof.
    intros b (H1 & H2 & H3 & H4 & H5). split; [exact H2|]. intros (_ & _ & P) l i. apply P.
  Qed.
  Lemma fin_ok_cut : fin_ok (@bs_cut V).
  Proof.
    intros b (H1 & H2 & H3 & H4 & H5). split; [exact H3|]. intros (_ & _ & P) l i. apply P.
  Qed.

  Lemma concat_map_rev (gs : list (list nat)) : concat (map (@rev nat) (rev gs)) = rev (concat gs).
  Proof.
    induction gs as [|g gs IH]; [reflexivity|].
    cbn [rev concat]. rewrite map_app, concat_app, IH, rev_app_distr. cbn. rewrite app_nil_r. reflexivity.
  Qed.

  Notation dstage := (@no_stage V).

  Lemma chain_head ss ts gs P E : chain dims bases d ss ts gs P E ->
    exists s rest, ss = s :: rest /\ forall c, on_grid dims c -> s_pshape s c = subshape dims P c.
  Proof.
    intros H. inversion H; subst; eexists _, _; (split; [reflexivity|]);
      match goal with H : stage_ok _ _ _ ?s _ _ _ |- forall c, _ -> s_pshape ?s c = _ => apply H end.
  Qed.

  Lemma chain_tail ss ts gs P E : chain dims bases d ss ts gs P E ->
    exists s rest, rev ss = s :: rest /\ s_sdt s = s_sdt (last ss dstage) /\
      forall c, on_grid dims c -> s_sshape s c = subshape dims E c.
  Proof.
    induction 1 as [s g P S Hs | s s' ss t ts g gs P S P' E Hs Hc IH Hsw Ht Hd].
    - exists s, []. split; [reflexivity|]. split; [reflexivity|]. apply Hs.
    - destruct IH as (q & rest & E1 & E2 & E3). cbn [rev] in *. rewrite E1. cbn [app].
      eexists q, _. split; [reflexivity|]. split; assumption.
  Qed.

  Lemma load_ok sh dt (x : @buf V) : (forall c, on_grid dims c -> b_shape x c = sh c) -> b_dt x = dt ->
    load dims sh dt x = Some x.
  Proof.
    intros H1 <-. unfold load. rewrite (proj2 (same_shapes_true dims _ _) H1), eqb_reflx. reflexivity.
  Qed.

  Lemma forward_chain fin sp gs x u :
    fin_ok fin -> chain dims bases d (sp_stages sp) (sp_transfers sp) gs (sp_in sp) (sp_out sp) ->
    (exists s rest, sp_stages sp = s :: rest /\ s_pdt s = b_dt x) ->
    distributed dims (sp_in sp) x u ->
    exists y, match sp_stages sp with
      | [] => None
      | s :: _ =>
          match load dims (s_pshape s) (s_pdt s) x with
          | None => None
          | Some x => run_forward fin (transfer_forward dims) (sp_stages sp) (sp_transfers sp) x
          end
      end = Some y /\ b_dt y = s_sdt (last (sp_stages sp) dstage) /\
      distributed dims (sp_out sp) y
        (tensor (fun b l => fin b (bs_raw b l)) bases d (concat (map (@rev nat) gs)) u).
  Proof.
    intros Hfin Hc (s & rest & Es & Hdt) Hx.
    destruct (chain_head _ _ _ _ _ Hc) as (s' & rest' & Es' & Hs). rewrite Es in Es'. injection Es' as <- <-.
    destruct (chain_forward_with dims bases d _ fin _ _ _ _ _ (transfer_moves dims) Hfin Hc x u Hx)
      as (y & Y1 & Y2 & Y3).
    exists y. rewrite Es in *.
    rewrite load_ok; [|intros c Hc'; rewrite Hs by assumption; apply Hx; assumption|auto].
    auto.
  Qed.

  Lemma backward_chain sp gs x u :
    chain dims bases d (sp_stages sp) (sp_transfers sp) gs (sp_in sp) (sp_out sp) ->
    b_dt x = s_sdt (last (sp_stages sp) dstage) ->
    distributed dims (sp_out sp) x u ->
    exists y s rest, backward dims sp x = Some y /\ sp_stages sp = s :: rest /\ b_dt y = s_pdt s /\
      distributed dims (sp_in sp) y (tensor line_backward bases d (concat (rev gs)) u).
  Proof.
    intros Hc Hdt Hx.
    destruct (chain_tail _ _ _ _ _ Hc) as (s & rest & Es & Hsd & Hs).
    destruct (chain_backward dims bases d _ _ _ _ _ Hc x u Hx) as (y & s0 & rest0 & E0 & Y1 & Y2 & Y3).
    exists y, s0, rest0. unfold backward. rewrite Es in *.
    rewrite load_ok; [|intros c Hc'; rewrite Hs by assumption; apply Hx; assumption|congruence].
    auto.
  Qed.

  (** ** the number of entries of every axis *)
  Lemma chain_shape ss ts gs P E : chain dims bases d ss ts gs P E -> NoDup (concat gs) ->
    length (p_shape E) = length dims /\
    (forall k, In k (concat gs) -> nth k (p_shape E) 0 = bs_spec (nth k bases d)) /\
    (forall k, ~ In k (concat gs) -> nth k (p_shape E) 0 = nth k (p_shape P) 0).
  Proof.
    assert (Hst : forall s g P S, stage_ok dims bases d s g P S ->
      length (p_shape S) = length dims /\
      (forall k, In k g -> nth k (p_shape S) 0 = bs_spec (nth k bases d)) /\
      (forall k, ~ In k g -> nth k (p_shape S) 0 = nth k (p_shape P) 0)).
    { intros s g P0 S (HP & Hg & HN & HS & Hk & Hpl & Hc2c & _).
      pose proof HP as (P1 & P2 & _). rewrite HS. cbn [pset p_shape].
      split; [rewrite lset_length; assumption|]. split.
      - intros k K. destruct (in_removelast_or_last g k K) as [->|Hj].
        + apply nth_lset_same. destruct (Hk _ K). lia.
        + destruct (Nat.eq_dec k (last g 0)) as [->|Hne].
          * apply nth_lset_same. destruct (Hk _ K). lia.
          * rewrite nth_lset_other by assumption. destruct (Hk k K) as (_ & _ & _ & ->).
            assert (Hl : 2 <= length g) by (destruct g as [|a [|a' g]]; cbn in *; try contradiction; lia).
            destruct (Hpl Hl k K) as (_ & Q & _). apply Q. apply Hc2c. assumption.
      - intros k K. apply nth_lset_other. intros ->. apply K. apply last_in. assumption. }
    intros H. induction H as [s g P S Hs | s s' ss t ts g gs P S P' E Hs Hc IH Hsw Ht Hd]; intros HN.
    - cbn [concat] in *. rewrite app_nil_r. apply (Hst s g P S Hs).
    - cbn [concat] in *. destruct (NoDup_app_inv _ _ HN) as (N1 & N2 & N3).
      destruct (IH N2) as (I1 & I2 & I3). destruct (Hst s g P S Hs) as (J1 & J2 & J3).
      assert (Esh : p_shape P' = p_shape S) by (symmetry; apply Hsw).
      split; [assumption|]. split.
      + intros k K. destruct (in_dec Nat.eq_dec k (concat gs)) as [Hin|Hin]; [auto|].
        apply in_app_or in K. destruct K as [K|K]; [|contradiction].
        rewrite I3, Esh by assumption. auto.
      + intros k K. rewrite I3, Esh, J3; [reflexivity| |]; intros Q; apply K; apply in_or_app; auto.
  Qed.

  (** ** padded spaces *)
  Definition flip (t : transfer) : transfer := mkTransfer (t_B t) (t_A t) (t_dt t).

  Lemma plan_back_some k b p dt s : plan_back dims k b p dt = Some s ->
    s = mkStage [(k, b)] (fun c => lset (subshape dims p c) k (bs_phys b)) (dtype_in b dt) (subshape dims p) dt /\
    nth k (p_shape p) 0 = @bs_spec V b.
  Proof.
    unfold plan_back. destruct (_ && _) eqn:E; [|discriminate]. intros H; injection H as <-.
    apply andb_true_iff in E. destruct E as [_ E]. apply Nat.eqb_eq in E. auto.
  Qed.

  Lemma plan_back_stage k p dt s : pwf dims p -> k < length dims -> psize dims p k = 1 ->
    base_ok (nth k bases d) -> plan_back dims k (nth k bases d) p dt = Some s ->
    stage_ok dims bases d s [k] (pset p k (bs_phys (nth k bases d))) p /\ s_sdt s = dt.
  Proof.
    intros Hp Hk Hs Hb H. apply plan_back_some in H. destruct H as [-> H].
    split; [|reflexivity]. pose proof Hp as (P1 & P2 & _).
    split; [apply pwf_pset; assumption|]. split; [discriminate|].
    split; [constructor; [intros [] | constructor]|].
    split; [cbn [last]; rewrite pset_pset, <- H; symmetry; apply pset_id|].
    split.
    { intros j [<-|[]]. split; [assumption|]. split; [exact Hs|]. split; [assumption|].
      cbn [pset p_shape]. apply nth_lset_same. lia. }
    split; [cbn; lia|]. split; [intros j []|]. split; [reflexivity|].
    split; [|reflexivity]. cbn [s_pshape]. intros c Hc. apply subshape_pset; assumption.
  Qed.

  Lemma plan_back_rest_chain axes : forall s0 rest ts0 gs0 pA E dt ss ts pe,
    chain dims bases d (s0 :: rest) ts0 gs0 pA E -> s_pdt s0 = dt -> pwf dims pA ->
    plan_back_rest dims bases d pA dt axes = Some (ss, ts, pe) ->
    NoDup (p_axis pA :: axes) -> (forall k, In k axes -> k < length dims /\ base_ok (nth k bases d)) ->
    chain dims bases d (rev ss ++ s0 :: rest) (rev (map flip ts) ++ ts0)
      (rev (map (fun k => [k]) axes) ++ gs0) pe E.
  Proof.
    induction axes as [|k axes IH]; intros s0 rest ts0 gs0 pA E dt ss ts pe Hc Hdt HpA Hp HN Hk.
    - cbn in Hp. injection Hp as <- <- <-. exact Hc.
    - cbn [plan_back_rest] in Hp. set (b := nth k bases d) in *.
      destruct (pencil_to dims pA k) as [pB|] eqn:EB; [|discriminate].
      destruct (mk_transfer pA pB dt) as [t|] eqn:ET; [|discriminate].
      destruct (plan_back dims k b pB dt) as [s|] eqn:ES; [|discriminate].
      match type of Hp with match ?e with _ => _ end = _ => destruct e as [pA'|] eqn:EA; [|discriminate] end.
      match type of Hp with match ?e with _ => _ end = _ => destruct e as [[[ss' ts'] pe']|] eqn:ER; [|discriminate] end.
      injection Hp as <- <- <-.
      inversion HN as [|? ? N1 N2]; subst.
      assert (Hne : p_axis pA <> k) by (intros Q; apply N1; left; auto).
      destruct (pencil_to_swapped dims pA k pB HpA Hne EB) as (Hsw & HBax & HBs & HBk).
      destruct (Hk k (or_introl eq_refl)) as [Kd Kb].
      assert (HpB : pwf dims pB) by apply Hsw.
      destruct (plan_back_stage k pB _ s HpB Kd HBk Kb ES) as [Hst Hsd].
      assert (HpA' : pA' = pset pB k (bs_phys b)) by (eapply pencil_after; [exact HBax | exact EA]).
      unfold mk_transfer in ET. destruct (p_axis pA =? p_axis pB); [discriminate|]. injection ET as <-.
      cbn [map rev]. rewrite <- !app_assoc. cbn [app].
      apply (IH s (s0 :: rest) (flip (mkTransfer pA pB (s_pdt s0)) :: ts0) ([k] :: gs0) pA' E (s_pdt s)); auto.
      + rewrite HpA'. apply chain_cons with (S := pB) (P' := pA); auto.
        * apply swapped_sym. assumption.
        * unfold flip. cbn [t_A t_B t_dt]. rewrite Hsd. reflexivity.
      + rewrite HpA'. apply pwf_pset. assumption.
      + rewrite HpA'. cbn [pset p_axis]. rewrite HBax. inversion HN; assumption.
      + intros j Hj. apply Hk. right. assumption.
  Qed.

  (** the pencil with another aligned axis distributes arrays in the same way *)
  Definition realign (p : pencil) (k : nat) : pencil := mkPencil (p_sub p) (p_shape p) k.
  Lemma distributed_realign p k (x : @buf V) u : distributed dims p x u <-> distributed dims (realign p k) x u.
  Proof. reflexivity. Qed.

  Lemma configure_backwards_chain axes p dt sp :
    pwf dims p -> NoDup axes -> (forall k, In k axes -> k < length dims /\ base_ok (nth k bases d)) ->
    configure_backwards dims bases d axes p dt = Some sp ->
    exists s rest k, sp_stages sp = s :: rest /\ s_sdt s = dt /\ hd_error axes = Some k /\
      chain dims bases d (rev (sp_stages sp)) (rev (map flip (sp_transfers sp)))
        (rev (map (fun k => [k]) axes)) (sp_out sp) (realign p k).
  Proof.
    intros Hp HN Hk H. unfold configure_backwards in H. destruct axes as [|k axes]; [discriminate|].
    set (b := nth k bases d) in *.
    destruct (plan_back dims k b p dt) as [s|] eqn:ES; [|discriminate].
    destruct (mk_pencil dims (p_sub p) (lset (p_shape p) k (bs_phys b)) k) as [pA|] eqn:EA; [|discriminate].
    match type of H with match ?e with _ => _ end = _ => destruct e as [[[ss ts] pe]|] eqn:ER; [|discriminate] end.
    injection H as <-. cbn [sp_stages sp_transfers sp_out].
    apply mk_pencil_some in EA. destruct EA as (HpA & _ & Hs & _).
    destruct (Hk k (or_introl eq_refl)) as [Kd Kb].
    assert (Hp' : pwf dims (realign p k)).
    { destruct Hp as (P1 & P2 & P3 & P4 & P5 & P6). repeat split; auto. rewrite HpA in Hs. exact Hs. }
    assert (ES' : plan_back dims k b (realign p k) dt = Some s) by exact ES.
    assert (Hs' : psize dims (realign p k) k = 1) by (rewrite HpA in Hs; exact Hs).
    destruct (plan_back_stage k (realign p k) dt s Hp' Kd Hs' Kb ES') as [Hst Hsd].
    exists s, ss, k. split; [reflexivity|]. split; [exact Hsd|]. split; [reflexivity|].
    assert (HpA2 : pA = pset (realign p k) k (bs_phys b)) by (rewrite HpA; reflexivity).
    pose proof (plan_back_rest_chain axes s [] [] [[k]] pA (realign p k) (s_pdt s) ss ts pe) as Q.
    cbn [rev map]. rewrite app_nil_r in Q. apply Q; auto.
    - rewrite HpA2. constructor. exact Hst.
    - rewrite HpA2. apply pwf_pset. assumption.
    - rewrite HpA2. exact HN.
    - intros j Hj. apply Hk. right. assumption.
  Qed.

  Lemma run_forward_map fin m1 m2 f : (forall t x ds dt, m1 t x ds dt = m2 (f t) x ds dt) ->
    forall ss ts (x : @buf V), run_forward fin m1 ss ts x = run_forward fin m2 ss (map f ts) x.
  Proof.
    intros H. induction ss as [|s ss IH]; intros ts x; [reflexivity|].
    cbn [run_forward]. destruct ss as [|s' ss].
    - destruct ts; reflexivity.
    - destruct ts as [|t ts]; [reflexivity|]. cbn [map]. rewrite H.
      destruct (m2 _ _ _ _) as [z|]; [apply IH | reflexivity].
  Qed.
  Lemma run_backward_map m1 m2 f : (forall t x ds dt, m1 t x ds dt = m2 (f t) x ds dt) ->
    forall ss ts (x : @buf V), run_backward m1 ss ts x = run_backward m2 ss (map f ts) x.
  Proof.
    intros H. induction ss as [|s ss IH]; intros ts x; [reflexivity|].
    cbn [run_backward]. destruct ss as [|s' ss].
    - destruct ts; reflexivity.
    - destruct ts as [|t ts]; [reflexivity|]. cbn [map]. rewrite H.
      destruct (m2 _ _ _ _) as [z|]; [apply IH | reflexivity].
  Qed.

  Lemma padded_backward_ok axes p dt sp x u :
    pwf dims p -> NoDup axes -> (forall k, In k axes -> k < length dims /\ base_ok (nth k bases d)) ->
    configure_backwards dims bases d axes p dt = Some sp ->
    b_dt x = dt -> distributed dims p x u ->
    exists y, padded_backward dims sp x = Some y /\
      b_dt y = s_pdt (last (sp_stages sp) dstage) /\
      distributed dims (sp_out sp) y (tensor line_backward bases d axes u).
  Proof.
    intros Hp HN Hk H Hdt Hx.
    destruct (configure_backwards_chain axes p dt sp Hp HN Hk H) as (s & rest & k & Es & Hsd & Hhd & Hc).
    destruct (chain_backward dims bases d _ _ _ _ _ Hc x u (proj1 (distributed_realign p k x u) Hx))
      as (y & s0 & rest0 & E0 & Y1 & Y2 & Y3).
    destruct (chain_tail _ _ _ _ _ Hc) as (s1 & rest1 & Es1 & Hsd1 & Hs1).
    rewrite rev_involutive in *. rewrite Es in Es1. injection Es1 as <- <-.
    exists y. split; [|split].
    - unfold padded_backward. rewrite Es. rewrite Es in Y1.
      rewrite load_ok; [|intros c Hc'; rewrite Hs1 by assumption; apply Hx; assumption|congruence].
      rewrite (run_backward_map _ (transfer_backward dims) flip).
      + rewrite rev_involutive in Y1. exact Y1.
      + intros t z ds dt'. unfold transfer_backward, flip. cbn [t_A t_B t_dt]. destruct t; reflexivity.
    - rewrite Y2. f_equal. rewrite <- (rev_involutive (sp_stages sp)), E0. cbn [rev].
      symmetry. apply last_last.
    -       replace (concat (map (fun k => [k]) axes)) with axes in Y3; [exact Y3|].
      clear. induction axes as [|a l IH]; [reflexivity|]. cbn. f_equal. exact IH.
  Qed.

  Lemma padded_forward_gen fin move axes p dt sp x u :
    fin_ok fin -> moves dims (fun t => move (flip t)) ->
    pwf dims p -> NoDup axes -> (forall k, In k axes -> k < length dims /\ base_ok (nth k bases d)) ->
    configure_backwards dims bases d axes p dt = Some sp ->
    b_dt x = s_pdt (last (sp_stages sp) dstage) -> distributed dims (sp_out sp) x u ->
    exists y, padded_forward_with dims fin move sp x = Some y /\ b_dt y = dt /\
      distributed dims p y (tensor (fun b l => fin b (bs_raw b l)) bases d (rev axes) u).
  Proof.
    intros Hfin Hmove Hp HN Hk H Hdt Hx.
    destruct (configure_backwards_chain axes p dt sp Hp HN Hk H) as (s & rest & k & Es & Hsd & Hhd & Hc).
    destruct (chain_forward_with dims bases d _ fin _ _ _ _ _ Hmove Hfin Hc x u Hx) as (y & Y1 & Y2 & Y3).
    destruct (chain_head _ _ _ _ _ Hc) as (s1 & rest1 & Es1 & Hs1).
    exists y. split; [|split].
    - unfold padded_forward_with. rewrite Es1. rewrite Es1 in Y1.
      assert (Hd1 : s_pdt s1 = b_dt x).
      { rewrite Hdt. f_equal. rewrite <- (rev_involutive (sp_stages sp)), Es1. cbn [rev].
        symmetry. apply last_last. }
      rewrite load_ok; [|intros c Hc'; rewrite Hs1 by assumption; apply Hx; assumption|auto].
      rewrite (run_forward_map fin _ (fun t => move (flip t)) flip).
      + rewrite <- map_rev in Y1. exact Y1.
      + intros t z ds dt'. unfold flip. cbn [t_A t_B t_dt]. destruct t; reflexivity.
    - rewrite Y2. rewrite Es. cbn [rev]. rewrite last_last. exact Hsd.
    - apply (distributed_realign p k).
      rewrite concat_map_rev in Y3.
      replace (concat (map (fun k => [k]) axes)) with axes in Y3; [exact Y3|].
      clear. induction axes as [|a l IH]; [reflexivity|]. cbn. f_equal. exact IH.
  Qed.

  Lemma backward_moves : moves dims (fun t => @transfer_backward dims V (flip t)).
  Proof.
    intros A B dt x g ds H1 H2 H3 H4. unfold transfer_backward, flip. cbn [t_A t_B t_dt].
    apply (transfer_ok dims A B dt x g ds); assumption.
  Qed.

  (** on one process (or when nothing is distributed) the direction does not matter *)
  Lemma serial_subshape p c : (forall i, nth i dims 1 = 1) -> pwf dims p -> on_grid dims c ->
    subshape dims p c = p_shape p.
  Proof.
    intros H Hp Hc. pose proof Hp as (P1 & P2 & _). apply list_ext; [apply subshape_length|].
    rewrite subshape_length. intros i Hi. rewrite nth_subshape by assumption.
    apply plen_one; auto; [lia|]. apply H.
  Qed.
  Lemma serial_distributed A B (x : @buf V) g : (forall i, nth i dims 1 = 1) -> pwf dims A -> pwf dims B ->
    p_shape A = p_shape B -> distributed dims A x g -> distributed dims B x g.
  Proof.
    intros H HA HB E [D1 D2]. split.
    - intros c Hc. rewrite D1, !serial_subshape by assumption. exact E.
    - intros c idx Hc Hi. rewrite serial_subshape in Hi by assumption.
      rewrite D2; [|assumption|rewrite serial_subshape by assumption; rewrite E; assumption].
      f_equal. unfold global_index. rewrite E. apply map_ext_in. intros i Hi'. apply in_seq in Hi'.
      pose proof HA as (A1 & A2 & _). rewrite E in A2.
      rewrite !pstart_one; auto; try lia; apply H.
  Qed.
  Lemma serial_moves : (forall i, nth i dims 1 = 1) -> moves dims (fun t => @transfer_forward dims V (flip t)).
  Proof.
    intros H A B dt x g ds Hsw Hx Hdt Hds. unfold flip. cbn [t_A t_B t_dt].
    pose proof Hsw as (HA & HB & E & _).
    destruct (transfer_ok dims B A dt x g ds (swapped_sym dims _ _ Hsw)
      (serial_distributed A B x g H HA HB E Hx) Hdt) as (y & Y1 & Y2 & Y3 & Y4).
    - intros c Hc. rewrite Hds, !serial_subshape by assumption. auto.
    - exists y. repeat split; auto; apply (serial_distributed A B y g); auto.
  Qed.

  (** in parallel the wrong direction is refused *)
  Lemma blen_first N size : 2 <= size -> size <= N -> blen N size 0 < N.
  Proof.
    intros H1 H2. pose proof (block_bound N size 1 ltac:(lia)) as B. rewrite bstart_S, bstart_0 in B.
    assert (1 <= blen N size 1); [|lia].
    unfold blen, blockdist. cbn [fst]. pose proof (Nat.div_le_lower_bound N size 1 ltac:(lia) ltac:(lia)). lia.
  Qed.

  Definition zeros : list nat := map (fun _ => 0) dims.
  Lemma zeros_grid : (forall i, i < length dims -> 1 <= nth i dims 1) -> on_grid dims zeros.
  Proof.
    intros H. split; [unfold zeros; apply map_length|]. intros i Hi.
    specialize (H i Hi). unfold zeros.
    replace (nth i (map (fun _ : nat => 0) dims) 0) with 0; [lia|].
    symmetry. apply (map_nth (fun _ => 0) dims 0 i).
  Qed.
  Lemma prank_zeros p i : prank p zeros i = 0.
  Proof. unfold prank, zeros. apply (map_nth (fun _ => 0) dims 0). Qed.

  Lemma wrong_direction A B : (forall i, i < length dims -> 1 <= nth i dims 1) -> swapped dims A B ->
    2 <= psize dims A (p_axis B) -> psize dims A (p_axis B) <= nth (p_axis B) (p_shape A) 0 ->
    same_shapes dims (subshape dims B) (subshape dims A) = false.
  Proof.
    intros H (HA & HB & E & Hne & _) H2 H3. apply not_true_is_false. intros Q.
    pose proof (proj1 (same_shapes_true dims _ _) Q zeros (zeros_grid H)) as Q1.
    apply (f_equal (fun l => nth (p_axis B) l 0)) in Q1.
    pose proof HA as (A1 & A2 & A3). pose proof HB as (B1 & B2 & B3 & B4 & B5 & B6).
    rewrite !nth_subshape in Q1 by lia.
    rewrite (plen_one dims B) in Q1; auto using zeros_grid.
    unfold plen in Q1. rewrite prank_zeros, <- E in Q1.
    pose proof (blen_first _ _ H2 H3). lia.
  Qed.
End Main.
