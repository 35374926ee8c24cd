(** PencilProofs3.v -- planning: collapse of axes, configure, configure_backwards. *)
From Coq Require Import Arith List Bool Lia Permutation.
From Verif Require Import Base Fld PencilModel PencilSpec PencilProofs PencilProofs2.
Import ListNotations.
Local Open Scope nat_scope.

Section Plan.
  Variable dims : list nat.
  Context {V : Type}.
  Notation base := (@base V).
  Variables (bases : list base) (d : base).

  Definition gok (g : list nat) : Prop :=
    g <> [] /\ (forall k, In k g -> k < length dims /\ base_ok (nth k bases d)) /\
    (2 <= length g -> forall k, In k g -> plain (nth k bases d)) /\
    (forall k, In k (removelast g) -> bs_kind (nth k bases d) = C2C).

  Lemma last_in (g : list nat) : g <> [] -> In (last g 0) g.
  Proof.
    intros H. destruct (split_last g H) as (i & k & E & El & _). rewrite El, E.
    apply in_or_app. right. left. reflexivity.
  Qed.
  Lemma removelast_in (g : list nat) k : In k (removelast g) -> In k g.
  Proof.
    intros H. destruct g as [|a g]; [destruct H|].
    destruct (split_last (a :: g) ltac:(discriminate)) as (i & q & E & _ & Er).
    rewrite Er in H. rewrite E. apply in_or_app. left. assumption.
  Qed.
  Lemma in_removelast_or_last (g : list nat) k : In k g -> k = last g 0 \/ In k (removelast g).
  Proof.
    intros H. destruct g as [|a g]; [destruct H|].
    destruct (split_last (a :: g) ltac:(discriminate)) as (i & q & E & El & Er).
    rewrite El, Er. rewrite E in H. apply in_app_or in H. destruct H as [H|[H|[]]]; auto.
  Qed.
  Lemma NoDup_app_inv (l l' : list nat) : NoDup (l ++ l') ->
    NoDup l /\ NoDup l' /\ forall k, In k l -> ~ In k l'.
  Proof.
    induction l as [|a l IH]; cbn; intros H; [repeat split; auto using NoDup_nil|].
    inversion H as [|? ? Ha Hl]; subst. destruct (IH Hl) as (I1 & I2 & I3).
    split; [constructor; auto; intros Q; apply Ha; apply in_or_app; auto|].
    split; [assumption|]. intros k [<-|Hk]; [|auto]. intros Q; apply Ha; apply in_or_app; auto.
  Qed.

  Lemma plan_some g k (b : base) sh dt s : plan g k b sh dt = Some s ->
    s = mkStage g sh dt (fun c => lset (sh c) k (bs_spec b)) (dtype_out b dt) /\ plan_ok g b dt = true.
  Proof. unfold plan. destruct (plan_ok g b dt); [|discriminate]. intros H; injection H as <-; auto. Qed.

  Lemma swapped_pencil_after P k m p' : p_axis P = k ->
    (if (nth k (p_shape P) 0 =? m) && true then Some P
     else mk_pencil dims (p_sub P) (lset (p_shape P) k m) k) = Some p' -> p' = pset P k m.
  Proof.
    intros Ha. destruct (Nat.eqb_spec (nth k (p_shape P) 0) m) as [E|E]; cbn.
    - intros H; injection H as <-. rewrite <- E. symmetry. apply pset_id.
    - intros H. apply mk_pencil_some in H. destruct H as [-> _]. unfold pset. rewrite Ha. reflexivity.
  Qed.
  Lemma pencil_after P k m (e : bool) p' : p_axis P = k ->
    (if (nth k (p_shape P) 0 =? m) && e then Some P
     else mk_pencil dims (p_sub P) (lset (p_shape P) k m) k) = Some p' -> p' = pset P k m.
  Proof.
    destruct e; [apply swapped_pencil_after|]. rewrite andb_false_r. intros Ha H.
    apply mk_pencil_some in H. destruct H as [-> _]. unfold pset. rewrite Ha. reflexivity.
  Qed.

  Lemma stage_ok_intro g P s dt : pwf dims P -> NoDup g -> gok g ->
    (forall k, In k g -> psize dims P k = 1 /\ nth k (p_shape P) 0 = bs_phys (nth k bases d)) ->
    s = mkStage (with_base bases d g) (subshape dims P) dt
          (fun c => lset (subshape dims P c) (last g 0) (bs_spec (nth (last g 0) bases d)))
          (dtype_out (nth (last g 0) bases d) dt) ->
    stage_ok dims bases d s g P (pset P (last g 0) (bs_spec (nth (last g 0) bases d))).
  Proof.
    intros HP HN (G1 & G2 & G3 & G4) Hk ->.
    split; [assumption|]. split; [assumption|]. split; [assumption|]. split; [reflexivity|].
    split.
    { intros k Hin. destruct (G2 k Hin). destruct (Hk k Hin). auto. }
    split; [assumption|]. split; [assumption|]. split; [reflexivity|]. split; [reflexivity|].
    cbn [s_sshape]. intros c Hc. pose proof (last_in g G1) as Hl.
    apply subshape_pset; auto; [apply G2 | apply Hk]; assumption.
  Qed.

  Lemma plan_rest_chain gs : forall s0 g0 P0 pA dt ss ts pe,
    stage_ok dims bases d s0 g0 P0 pA -> s_sdt s0 = dt -> p_axis pA = last g0 0 ->
    plan_rest dims bases d pA dt gs = Some (ss, ts, pe) ->
    NoDup (concat (g0 :: gs)) -> (forall g, In g gs -> gok g) ->
    (forall g k, In g gs -> In k g -> nth k (p_shape pA) 0 = bs_phys (nth k bases d)) ->
    (forall g k, In g gs -> In k (removelast g) -> psize dims pA k = 1) ->
    pwf dims pA ->
    chain dims bases d (s0 :: ss) ts (g0 :: gs) P0 pe.
  Proof.
    induction gs as [|g gs IH]; intros s0 g0 P0 pA dt ss ts pe Hs0 Hdt Hax Hp HN Hg Hsh Hsz HpA.
    - cbn in Hp. injection Hp as <- <- <-. constructor. assumption.
    - cbn [plan_rest] in Hp.
      set (k := last g 0) in *. set (b := nth k bases d) in *.
      destruct (pencil_to dims pA k) as [pB|] eqn:EB; [|discriminate].
      destruct (mk_transfer pA pB dt) as [t|] eqn:ET; [|discriminate].
      destruct (plan (with_base bases d g) k b (subshape dims pB) dt) as [s|] eqn:ES; [|discriminate].
      match type of Hp with match ?e with _ => _ end = _ => destruct e as [pA'|] eqn:EA; [|discriminate] end.
      match type of Hp with match ?e with _ => _ end = _ => destruct e as [[[ss' ts'] pe']|] eqn:ER; [|discriminate] end.
      injection Hp as <- <- <-.
      assert (Gok := Hg g (or_introl eq_refl)).
      pose proof Gok as (G1 & G2 & G3 & G4).
      assert (Hkin : In k g) by (apply last_in; assumption).
      cbn [concat] in HN.
      destruct (NoDup_app_inv _ _ HN) as (N1 & N2 & N3).
      destruct (NoDup_app_inv _ _ N2) as (N4 & N5 & N6).
      assert (Hg0 : g0 <> []) by apply Hs0.
      assert (Hne : p_axis pA <> k).
      { rewrite Hax. intros Q. apply (N3 (last g0 0)); [apply last_in; assumption|].
        apply in_or_app. left. rewrite Q. assumption. }
      destruct (pencil_to_swapped dims pA k pB HpA Hne EB) as (Hsw & HBax & HBs & HBk).
      apply plan_some in ES. destruct ES as [ES _].
      assert (HpA' : pA' = pset pB k (bs_spec b)) by (eapply pencil_after; [exact HBax | exact EA]).
      assert (HpB : pwf dims pB) by apply Hsw.
      assert (Hshape : p_shape pB = p_shape pA) by (symmetry; apply Hsw).
      assert (Hst : stage_ok dims bases d s g pB (pset pB k (bs_spec b))).
      { apply stage_ok_intro with (dt := dt); auto.
        intros j Hj. split.
        - destruct (in_removelast_or_last g j Hj) as [->|Hj']; [exact HBk|].
          destruct (Nat.eq_dec j k) as [->|Hjk]; [exact HBk|].
          rewrite HBs; [apply Hsz with (g := g); [left; reflexivity | assumption] | assumption |].
          rewrite Hax. intros ->. apply (N3 (last g0 0)); [apply last_in; assumption|].
          apply in_or_app. left. assumption.
        - rewrite Hshape. apply Hsh with (g := g); [left; reflexivity | assumption]. }
      unfold mk_transfer in ET. destruct (p_axis pA =? p_axis pB); [discriminate|]. injection ET as <-.
      assert (Hd : s_pdt s = dt) by (rewrite ES; reflexivity).
      apply chain_cons with (S := pA) (P' := pB); auto.
      + apply IH with (pA := pA') (dt := s_sdt s).
        * rewrite HpA'. exact Hst.
        * reflexivity.
        * rewrite HpA'. exact HBax.
        * exact ER.
        * cbn [concat]. exact N2.
        * intros q Hq. apply Hg. right. assumption.
        * intros q j Hq Hj. rewrite HpA'. cbn [pset p_shape].
          rewrite nth_lset_other.
          -- rewrite Hshape. apply Hsh with (g := q); [right; assumption | assumption].
          -- intros ->. apply (N6 k Hkin). apply in_concat. exists q. auto.
        * intros q j Hq Hj. rewrite HpA'. unfold psize, pset. cbn [p_sub].
          fold (psize dims pB j). rewrite HBs.
          -- apply Hsz with (g := q); [right; assumption | assumption].
          -- intros ->. apply (N6 k Hkin). apply in_concat. exists q. split; [assumption|].
             apply removelast_in. assumption.
          -- rewrite Hax. intros ->. apply (N3 (last g0 0)); [apply last_in; assumption|].
             apply in_or_app. right. apply in_concat. exists q. split; [assumption|].
             apply removelast_in. assumption.
        * rewrite HpA'. apply pwf_pset. assumption.
      + rewrite Hdt. reflexivity.
      + rewrite Hd, Hdt. reflexivity.
  Qed.

  Definition groups_ok (gs : list (list nat)) : Prop :=
    NoDup (concat gs) /\ (forall g, In g gs -> gok g) /\
    (forall g k, In g gs -> In k (removelast g) -> nth k dims 1 = 1).

  Lemma NoDup_concat_rev (gs : list (list nat)) : NoDup (concat gs) -> NoDup (concat (rev gs)).
  Proof.
    intros H. eapply Permutation_NoDup; [|exact H]. clear H.
    induction gs as [|g gs IH]; [reflexivity|]. cbn [rev concat].
    rewrite concat_app. cbn [concat]. rewrite app_nil_r.
    rewrite IH. apply Permutation_app_comm.
  Qed.

  Lemma pwf_start shape k p : length shape = length dims ->
    mk_pencil dims (seq 0 (length dims)) shape k = Some p -> pwf dims p /\ p_axis p = k /\ p_shape p = shape /\
    forall i, i < length dims -> psize dims p i = nth i dims 1.
  Proof.
    intros Hl H. apply mk_pencil_some in H. destruct H as (-> & H1 & H2 & H3).
    split; [|split; [reflexivity|split; [reflexivity|]]].
    - repeat split; cbn [p_sub p_shape p_axis]; auto.
      + rewrite seq_length. auto.
      + apply seq_NoDup.
      + intros i Hi. rewrite seq_nth by assumption. assumption.
      + lia.
    - intros i Hi. unfold psize. cbn [p_sub]. rewrite seq_nth by assumption. reflexivity.
  Qed.

  Lemma configure_chain gs dt sp : length bases = length dims -> groups_ok gs ->
    configure dims bases d gs dt = Some sp ->
    chain dims bases d (sp_stages sp) (sp_transfers sp) (rev gs) (sp_in sp) (sp_out sp) /\
    exists s rest, sp_stages sp = s :: rest /\ s_pdt s = dt.
  Proof.
    intros Hl (HN & Hg & Hsz) H. unfold configure in H.
    destruct (rev gs) as [|g rest] eqn:Er; [discriminate|].
    set (k := last g 0) in *. set (b := nth k bases d) in *.
    rewrite Hl in H.
    destruct (mk_pencil dims (seq 0 (length dims)) (map bs_phys bases) k) as [p0|] eqn:E0; [|discriminate].
    destruct (plan (with_base bases d g) k b (subshape dims p0) dt) as [s|] eqn:ES; [|discriminate].
    match type of H with match ?e with _ => _ end = _ => destruct e as [pA|] eqn:EA; [|discriminate] end.
    match type of H with match ?e with _ => _ end = _ => destruct e as [[[ss ts] pe]|] eqn:ER; [|discriminate] end.
    injection H as <-. cbn [sp_stages sp_transfers sp_in sp_out].
    apply pwf_start in E0; [|rewrite map_length; exact Hl]. destruct E0 as (HP & Hax & Hsh & Hps).
    apply plan_some in ES. destruct ES as [ES _].
    assert (HpA : pA = pset p0 k (bs_spec b)) by (eapply pencil_after; [exact Hax | exact EA]).
    assert (HN' : NoDup (concat (g :: rest))) by (rewrite <- Er; apply NoDup_concat_rev; assumption).
    assert (Hg' : forall q, In q (g :: rest) -> gok q).
    { intros q Hq. apply Hg. apply in_rev. rewrite Er. assumption. }
    assert (Hsz' : forall q j, In q (g :: rest) -> In j (removelast q) -> psize dims p0 j = 1).
    { intros q j Hq Hj. rewrite Hps.
      - apply Hsz with (g := q); [|assumption]. apply in_rev. rewrite Er. assumption.
      - apply (Hg' q Hq). apply removelast_in. assumption. }
    assert (Hphys : forall q j, In q (g :: rest) -> In j q -> nth j (p_shape p0) 0 = bs_phys (nth j bases d)).
    { intros q j Hq Hj. rewrite Hsh. rewrite nth_indep with (d' := bs_phys d).
      - apply map_nth.
      - rewrite map_length, Hl. apply (Hg' q Hq). assumption. }
    assert (HgN : g <> []) by (apply Hg'; left; reflexivity).
    split; [|exists s, ss; split; [reflexivity|rewrite ES; reflexivity]].
    cbn [concat] in HN'. destruct (NoDup_app_inv _ _ HN') as (N1 & N2 & N3).
    assert (Hpk : psize dims p0 k = 1) by (rewrite <- Hax; apply HP).
    apply plan_rest_chain with (pA := pA) (dt := s_sdt s).
    - rewrite HpA. apply stage_ok_intro with (dt := dt); auto.
      + apply Hg'. left. reflexivity.
      + intros j Hj. split; [|apply Hphys with (q := g); [left; reflexivity|assumption]].
        destruct (in_removelast_or_last g j Hj) as [->|Hj']; [exact Hpk|].
        apply Hsz' with (q := g); [left; reflexivity | assumption].
    - reflexivity.
    - rewrite HpA. exact Hax.
    - exact ER.
    - exact HN'.
    - intros q Hq. apply Hg'. right. assumption.
    - intros q j Hq Hj. rewrite HpA. cbn [pset p_shape]. rewrite nth_lset_other.
      + apply Hphys with (q := q); [right; assumption | assumption].
      + intros ->. apply (N3 k); [apply last_in; assumption|]. apply in_concat. exists q. auto.
    - intros q j Hq Hj. rewrite HpA. change (psize dims p0 j = 1).
      apply Hsz' with (q := q); [right; assumption | assumption].
    - rewrite HpA. apply pwf_pset. exact HP.
  Qed.

  (** ** collapse *)
  Lemma collapse_loop_concat F todo : forall groups F0, groups <> [] ->
    concat (collapse_loop F groups F0 todo) = rev todo ++ concat groups.
  Proof.
    induction todo as [|ax todo IH]; intros groups F0 Hg; [reflexivity|].
    cbn [collapse_loop rev]. destruct groups as [|g gs]; [contradiction|].
    destruct (F0 && F ax).
    - rewrite IH by discriminate. cbn [concat app]. rewrite <- app_assoc. reflexivity.
    - rewrite IH by discriminate. cbn [concat app]. rewrite <- app_assoc. reflexivity.
  Qed.
  Lemma collapse_concat axes : axes <> [] -> concat (collapse dims bases d axes) = axes.
  Proof.
    intros H. unfold collapse. destruct (rev axes) as [|ax r] eqn:E.
    - destruct axes; [contradiction|]. cbn in E. destruct (rev axes); discriminate.
    - rewrite collapse_loop_concat by discriminate. cbn [concat app].
      rewrite <- (rev_involutive axes), E. reflexivity.
  Qed.

  (** the members of a group with several axes can all be collapsed *)
  Lemma collapse_loop_groups F todo : forall groups F0,
    groups <> [] ->
    (forall g, In g groups -> g <> [] /\ (2 <= length g -> forall k, In k g -> F k = true)) ->
    (forall g gs, groups = g :: gs -> F0 = F (hd 0 g)) ->
    forall g, In g (collapse_loop F groups F0 todo) -> g <> [] /\ (2 <= length g -> forall k, In k g -> F k = true).
  Proof.
    induction todo as [|ax todo IH]; intros groups F0 Hne Hg Hh g Hin; [apply Hg; exact Hin|].
    cbn [collapse_loop] in Hin. destruct groups as [|g0 gs]; [contradiction|].
    destruct (F0 && F ax) eqn:EF.
    - apply andb_true_iff in EF. destruct EF as [E1 E2].
      revert Hin. apply IH.
      + discriminate.
      + intros q [<-|Hq]; [|apply Hg; right; assumption].
        split; [discriminate|]. intros _ k [<-|Hk]; [assumption|].
        destruct (Hg g0 (or_introl eq_refl)) as [Q1 Q2].
        destruct g0 as [|a [|a' g0]]; [contradiction| |].
        * destruct Hk as [<-|[]]. rewrite E1 in Hh. symmetry. apply (Hh [a] gs eq_refl).
        * apply Q2; [cbn; lia | assumption].
      + intros q qs Q. injection Q as <- <-. reflexivity.
    - revert Hin. apply IH.
      + discriminate.
      + intros q [<-|Hq]; [|apply Hg; assumption]. split; [discriminate | cbn; lia].
      + intros q qs Q. injection Q as <- <-. reflexivity.
  Qed.

  Lemma in_concat_removelast (gs : list (list nat)) g k :
    In g gs -> In k (removelast g) -> In k (removelast (concat gs)).
  Proof.
    induction gs as [|g0 gs IH]; [intros []|]. intros [->|H] Hk; cbn [concat].
    - destruct (concat gs) as [|a l] eqn:E; [rewrite app_nil_r; assumption|].
      rewrite removelast_app by discriminate. apply in_or_app. left. apply removelast_in. assumption.
    - pose proof (IH H Hk) as Q. destruct (concat gs) as [|a l] eqn:E; [destruct Q|].
      rewrite removelast_app by discriminate. apply in_or_app. right. assumption.
  Qed.

  Lemma groups_of_concat coll axes : axes <> [] -> concat (groups_of dims coll bases d axes) = axes.
  Proof.
    intros H. unfold groups_of. destruct (coll && _); [apply collapse_concat; assumption|].
    clear H. induction axes as [|a l IH]; [reflexivity|]. cbn. f_equal. exact IH.
  Qed.

  Lemma groups_of_ok coll axes :
    axes <> [] -> NoDup axes -> (forall k, In k axes -> k < length dims /\ base_ok (nth k bases d)) ->
    (coll = true -> (forall k, In k axes -> is_fourier (nth k bases d) = true -> plain (nth k bases d)) /\
                    r2c_first bases d axes) ->
    groups_ok (groups_of dims coll bases d axes).
  Proof.
    intros Hne HN Hk Hc. split; [rewrite groups_of_concat; assumption|].
    assert (Hin : forall g k, In g (groups_of dims coll bases d axes) -> In k g -> In k axes).
    { intros g k H1 H2. rewrite <- (groups_of_concat coll axes Hne). apply in_concat. exists g. auto. }
    assert (Hgr : forall g, In g (groups_of dims coll bases d axes) -> g <> [] /\
      (2 <= length g -> coll = true /\ forall k, In k g -> is_fourier (nth k bases d) = true /\ nth k dims 1 = 1)).
    { intros g Hg. unfold groups_of in Hg. destruct coll; cbn [andb] in Hg.
      - destruct (negb (existsb bs_padded bases)).
        + unfold collapse in Hg. destruct (rev axes) as [|ax r]; [destruct Hg|].
          pose proof (collapse_loop_groups
            (fun ax => is_fourier (nth ax bases d) && (nth ax dims 1 =? 1)) r [[ax]]
            (is_fourier (nth ax bases d) && (nth ax dims 1 =? 1))) as Q.
          destruct (Q ltac:(discriminate)
            ltac:(intros q [<-|[]]; split; [discriminate | cbn; lia])
            ltac:(intros q qs E; injection E as <- <-; reflexivity) g Hg) as [Q1 Q2].
          split; [exact Q1|]. intros Hl. split; [reflexivity|]. intros k K.
          specialize (Q2 Hl k K). apply andb_true_iff in Q2. destruct Q2 as [Q2 Q3].
          apply Nat.eqb_eq in Q3. auto.
        + apply in_map_iff in Hg. destruct Hg as (k & <- & _). split; [discriminate | cbn; lia].
      - apply in_map_iff in Hg. destruct Hg as (k & <- & _). split; [discriminate | cbn; lia]. }
    assert (Hrl : forall g k, In g (groups_of dims coll bases d axes) -> In k (removelast g) ->
       2 <= length g /\ In k (removelast axes)).
    { intros g k Hg K. split.
      - destruct g as [|a [|a' g]]; cbn in *; try contradiction; lia.
      - rewrite <- (groups_of_concat coll axes Hne). eapply in_concat_removelast; eassumption. }
    split.
    - intros g Hg. destruct (Hgr g Hg) as [H1 H2].
      split; [assumption|]. split; [intros k K; apply Hk; apply (Hin g); assumption|].
      split.
      + intros Hl k K. destruct (H2 Hl) as [H3 H4]. apply (proj1 (Hc H3)); [apply (Hin g); assumption|].
        apply H4. assumption.
      + intros k K. destruct (Hrl g k Hg K) as [Hl Kr]. destruct (H2 Hl) as [H3 H4].
        destruct (H4 k (removelast_in _ _ K)) as [H5 _].
        pose proof (proj2 (Hc H3) k Kr) as H6. unfold is_fourier in H5.
        destruct (bs_kind (nth k bases d)); congruence.
    - intros g k Hg K. destruct (Hrl g k Hg K) as [Hl _]. destruct (Hgr g Hg) as [_ H2].
      apply (H2 Hl). apply removelast_in. assumption.
  Qed.
End Plan.
