(** PencilProofs2.v -- one planned stage, chains of stages, forward and backward runs. *)
From Coq Require Import Arith List Bool Lia Permutation.
From Verif Require Import Base Fld PencilModel PencilSpec PencilProofs.
Import ListNotations.
Local Open Scope nat_scope.

Section Stages.
  Variable dims : list nat.
  Context {V : Type}.
  Notation base := (@base V).
  Variables (bases : list base) (d : base).

  Lemma along_ext n k F (g h : list nat -> V) :
    depends n F -> (forall idx, g idx = h idx) -> forall idx, along k F g idx = along k F h idx.
  Proof. intros HF H idx. unfold along. apply HF. intros j _. apply H. Qed.

  Lemma along_compose n m k F G (g : list nat -> V) idx :
    depends n G -> depends m F -> k < length idx ->
    along k F (along k G g) idx = along k (fun l => F (G l)) g idx.
  Proof.
    intros HG HF Hk. unfold along. apply HF. intros j _.
    rewrite nth_lset_same by assumption. apply HG. intros j' _.
    rewrite lset_lset. reflexivity.
  Qed.

  Lemma along_geq sh k m F (g h : list nat -> V) : depends (nth k sh 0) F -> k < length sh ->
    geq sh g h -> geq (lset sh k m) (along k F g) (along k F h).
  Proof.
    intros HF Hk H idx [Hl Hi]. unfold along. apply HF. intros j Hj. apply H.
    rewrite lset_length in *. split; [rewrite lset_length; assumption|].
    intros i Hi'. rewrite nth_lset by lia. destruct (Nat.eqb_spec i k) as [->|Hn]; [assumption|].
    specialize (Hi i Hi'). rewrite nth_lset_other in Hi by assumption. assumption.
  Qed.

  Lemma with_base_rev g : rev (with_base bases d g) = with_base bases d (rev g).
  Proof. unfold with_base. symmetry. apply map_rev. Qed.

  (** [s] is the planned transform of the axes [g] from pencil [P] to pencil [S] *)
  Definition stage_ok (s : stage) (g : list nat) (P S : pencil) : Prop :=
    pwf dims P /\ g <> [] /\ NoDup g /\
    S = pset P (last g 0) (bs_spec (nth (last g 0) bases d)) /\
    (forall k, In k g -> k < length dims /\ psize dims P k = 1 /\
       base_ok (nth k bases d) /\ nth k (p_shape P) 0 = bs_phys (nth k bases d)) /\
    (2 <= length g -> forall k, In k g -> plain (nth k bases d)) /\
    (forall k, In k (removelast g) -> bs_kind (nth k bases d) = C2C) /\
    s_axes s = with_base bases d g /\
    (forall c, on_grid dims c -> s_pshape s c = subshape dims P c) /\
    (forall c, on_grid dims c -> s_sshape s c = subshape dims S c).

  Lemma pencil_eta p : mkPencil (p_sub p) (p_shape p) (p_axis p) = p.
  Proof. destruct p; reflexivity. Qed.
  Lemma pset_id p k : pset p k (nth k (p_shape p) 0) = p.
  Proof. unfold pset. rewrite lset_id. apply pencil_eta. Qed.
  Lemma pset_pset p k m n : pset (pset p k m) k n = pset p k n.
  Proof. unfold pset. cbn [p_sub p_shape p_axis]. rewrite lset_lset. reflexivity. Qed.

  Lemma distributed_data p (x y : @buf V) g : (forall c, on_grid dims c -> b_shape y c = b_shape x c) ->
    (forall c idx, length idx = length (p_shape p) -> b_dat y c idx = b_dat x c idx) ->
    distributed dims p x g -> distributed dims p y g.
  Proof.
    intros H1 H2 [D1 D2]. split.
    - intros c Hc. rewrite H1 by assumption. auto.
    - intros c idx Hc Hi. rewrite H2; [auto|]. destruct Hi as [Hi _].
      rewrite subshape_length in Hi. assumption.
  Qed.

  Lemma split_last (g : list nat) : g <> [] -> exists i k, g = i ++ [k] /\ last g 0 = k /\ removelast g = i.
  Proof.
    intros H. exists (removelast g), (last g 0). split; [apply app_removelast_last; assumption | auto].
  Qed.

  (** transforms of the axes of a group that keep the numbers of points *)
  Lemma fold_axes_ok (F : base -> (nat -> V) -> nat -> V) l : forall P (x : @buf V) u sh dt,
    pwf dims P ->
    (forall k, In k l -> k < length dims /\ psize dims P k = 1 /\ depends (nth k (p_shape P) 0) (F (nth k bases d))) ->
    (forall c, on_grid dims c -> sh c = subshape dims P c) ->
    distributed dims P x u ->
    distributed dims P (mkBuf sh dt (fold_axes F (with_base bases d l) (b_dat x)))
      (tensor F bases d l u).
  Proof.
    induction l as [|k l IH]; intros P x u sh dt HP Hl Hsh Hx.
    - cbn. eapply distributed_data; [| |exact Hx]; cbn.
      + intros c Hc. rewrite Hsh by assumption. symmetry. apply Hx. assumption.
      + reflexivity.
    - destruct (Hl k (or_introl eq_refl)) as (Hk & Hs & HF).
      change (fold_axes F (with_base bases d (k :: l)) (b_dat x)) with
        (fold_axes F (with_base bases d l) (along_d k (F (nth k bases d)) (b_dat x))).
      change (tensor F bases d (k :: l) u) with (tensor F bases d l (along k (F (nth k bases d)) u)).
      pose proof (along_ok dims P x u k (nth k (p_shape P) 0) (F (nth k bases d))
        (fun c => subshape dims P c) dt HP Hk Hs HF Hx) as H1.
      rewrite pset_id in H1.
      specialize (IH P (mkBuf (fun c => subshape dims P c) dt (along_d k (F (nth k bases d)) (b_dat x)))
        (along k (F (nth k bases d)) u) sh dt HP).
      cbn [b_dat] in IH. apply IH; auto.
      + intros j Hj. apply Hl. right. assumption.
      + apply H1. intros c Hc. rewrite subshape_pset by assumption. rewrite pset_id. reflexivity.
  Qed.

  Lemma tensor_pointwise (F G : base -> (nat -> V) -> nat -> V) l : forall (g h : list nat -> V),
    (forall k, In k l -> (exists n, depends n (F (nth k bases d))) /\
       forall f i, F (nth k bases d) f i = G (nth k bases d) f i) ->
    (forall idx, g idx = h idx) -> forall idx, tensor F bases d l g idx = tensor G bases d l h idx.
  Proof.
    induction l as [|k l IH]; intros g h Hl H idx; [apply H|].
    change (tensor F bases d (k :: l) g) with (tensor F bases d l (along k (F (nth k bases d)) g)).
    change (tensor G bases d (k :: l) h) with (tensor G bases d l (along k (G (nth k bases d)) h)).
    destruct (Hl k (or_introl eq_refl)) as [[n Hn] HE].
    apply IH; [intros j Hj; apply Hl; right; assumption|].
    intros i. unfold along. rewrite <- HE. apply Hn. intros j _. apply H.
  Qed.

  Definition fin_ok (fin : base -> (nat -> V) -> nat -> V) : Prop :=
    forall b, base_ok b -> depends (bs_mid b) (fin b) /\ (plain b -> forall l i, fin b l i = l i).

  Lemma stage_forward_ok fin s g P S (x : @buf V) u :
    fin_ok fin -> stage_ok s g P S -> distributed dims P x u ->
    distributed dims S (mkBuf (s_sshape s) (s_sdt s) (stage_forward fin s (b_dat x)))
      (tensor (fun b l => fin b (bs_raw b l)) bases d (rev g) u).
  Proof.
    intros Hfin (HP & Hg & HN & HS & Hk & Hpl & Hc2c & Hax & Hps & Hss) Hx.
    destruct (split_last g Hg) as (i & k & E & El & Er).
    rewrite El in HS. rewrite Er in Hc2c.
    destruct (Hk k) as (Kd & Ks & Kok & Kph); [rewrite E; apply in_or_app; right; left; reflexivity|].
    assert (Krev : rev g = k :: rev i) by (rewrite E, rev_app_distr; reflexivity).
    unfold stage_forward. rewrite Hax, with_base_rev, Krev.
    change (with_base bases d (k :: rev i)) with ((k, nth k bases d) :: with_base bases d (rev i)).
    cbv beta iota. cbn [fst snd].
    change (fold_axes bs_raw ((k, nth k bases d) :: with_base bases d (rev i)) (b_dat x)) with
      (fold_axes bs_raw (with_base bases d (rev i)) (along_d k (bs_raw (nth k bases d)) (b_dat x))).
    set (b := nth k bases d) in *.
    change (tensor (fun b l => fin b (bs_raw b l)) bases d (k :: rev i) u) with
      (tensor (fun b l => fin b (bs_raw b l)) bases d (rev i) (along k (fun l => fin b (bs_raw b l)) u)).
    destruct (Hfin b Kok) as [Fd Fp].
    destruct Kok as (K1 & K2 & K3 & K4 & K5).
    pose proof (pwf_pset dims P k (bs_mid b) HP) as HPm.
    assert (H1 : distributed dims (pset P k (bs_mid b))
       (mkBuf (fun c => lset (subshape dims P c) k (bs_mid b)) (s_sdt s)
         (along_d k (bs_raw b) (b_dat x))) (along k (bs_raw b) u)).
    { apply along_ok; auto. rewrite Kph. exact K1. }
    destruct HP as (P1 & P2 & P3).
    destruct i as [|i0 i'].
    - (* one axis *)
      cbn [rev with_base map fold_axes fold_left tensor].
      pose proof (fun x' u' => along_ok dims (pset P k (bs_mid b)) x' u' k (bs_spec b) (fin b)
        (s_sshape s) (s_sdt s) HPm Kd Ks) as H2.
      cbn [pset p_shape] in H2. rewrite nth_lset_same in H2 by lia.
      specialize (H2 _ _ Fd H1).
      rewrite pset_pset in H2. cbn [b_dat] in H2. rewrite <- HS in H2.
      apply distributed_geq with (g := along k (fin b) (along k (bs_raw b) u)).
      + rewrite HS. apply pwf_pset. exact (conj P1 (conj P2 P3)).
      + intros idx [Hl _]. apply along_compose with (n := bs_phys b) (m := bs_mid b); auto.
        rewrite Hl, HS. cbn [pset p_shape]. rewrite lset_length. lia.
      + apply H2. intros c Hc. rewrite Hss by assumption. rewrite HS.
        rewrite subshape_pset; auto. rewrite pset_pset. reflexivity.
    - (* several collapsed axes *)
      assert (Hlen : 2 <= length g).
      { rewrite E. rewrite app_length. cbn. lia. }
      assert (Hplain := Hpl Hlen).
      assert (Pk : plain b) by (apply Hplain; rewrite E; apply in_or_app; right; left; reflexivity).
      assert (Hin : forall j, In j (rev (i0 :: i')) -> In j g /\ j <> k /\ bs_kind (nth j bases d) = C2C).
      { intros j Hj. apply in_rev in Hj. split; [rewrite E; apply in_or_app; left; assumption|].
        split; [|apply Hc2c; assumption].
        intros ->. rewrite E in HN. apply NoDup_remove_2 in HN. apply HN. rewrite app_nil_r. assumption. }
      assert (Hm : bs_mid b = bs_spec b) by apply Pk.
      rewrite Hm in H1, HPm. rewrite <- HS in H1, HPm.
      pose proof (fun x' u' => fold_axes_ok bs_raw (rev (i0 :: i')) S x' u' (s_sshape s) (s_sdt s) HPm) as H2.
      specialize (H2 (mkBuf (fun c => lset (subshape dims P c) k (bs_spec b)) (s_sdt s)
         (along_d k (bs_raw b) (b_dat x))) (along k (bs_raw b) u)).
      cbn [b_dat] in H2.
      assert (H3 : distributed dims S (mkBuf (s_sshape s) (s_sdt s)
         (fold_axes bs_raw (with_base bases d (rev (i0 :: i'))) (along_d k (bs_raw b) (b_dat x))))
         (tensor bs_raw bases d (rev (i0 :: i')) (along k (bs_raw b) u))).
      { apply H2; auto. intros j Hj. destruct (Hin j Hj) as (J1 & J2 & J3).
        destruct (Hk j J1) as (L1 & L2 & L3 & L4). split; [exact L1|].
        rewrite HS. split; [exact L2|]. cbn [pset p_shape]. rewrite nth_lset_other by assumption.
        rewrite L4. apply L3. }
      set (Z := fold_axes bs_raw (with_base bases d (rev (i0 :: i'))) (along_d k (bs_raw b) (b_dat x))) in *.
      apply distributed_data with (x := mkBuf (s_sshape s) (s_sdt s) Z).
      + intros c Hc. reflexivity.
      + intros c idx Hl. cbn [b_dat].
        change (along_d k (fin b) Z c idx) with (fin b (fun j => Z c (lset idx k j)) (nth k idx 0)).
        rewrite (Fp Pk). rewrite lset_id. reflexivity.
      + apply distributed_geq with (g := tensor bs_raw bases d (rev (i0 :: i')) (along k (bs_raw b) u));
          [exact HPm | | exact H3].
        intros idx _. symmetry. apply tensor_pointwise.
        * intros j Hj. destruct (Hin j Hj) as (J1 & J2 & J3).
          destruct (Hk j J1) as (L1 & L2 & L3 & L4). destruct (Hfin _ L3) as [G1 G2].
          split.
          -- exists (bs_phys (nth j bases d)). intros l l' Q q. apply G1. intros q' _. apply L3. exact Q.
          -- intros f q. apply G2. apply Hplain. assumption.
        * intros idx'. unfold along. apply (Fp Pk).
  Qed.

  Lemma stage_backward_ok s g P S (x : @buf V) u :
    stage_ok s g P S -> distributed dims S x u ->
    distributed dims P (mkBuf (s_pshape s) (s_pdt s) (stage_backward s (b_dat x)))
      (tensor line_backward bases d g u).
  Proof.
    intros (HP & Hg & HN & HS & Hk & Hpl & Hc2c & Hax & Hps & Hss) Hx.
    destruct (split_last g Hg) as (i & k & E & El & Er).
    rewrite El in HS. rewrite Er in Hc2c.
    destruct (Hk k) as (Kd & Ks & Kok & Kph); [rewrite E; apply in_or_app; right; left; reflexivity|].
    assert (Krev : rev g = k :: rev i) by (rewrite E, rev_app_distr; reflexivity).
    unfold stage_backward. rewrite Hax, with_base_rev, Krev.
    change (with_base bases d (k :: rev i)) with ((k, nth k bases d) :: with_base bases d (rev i)).
    cbv beta iota. cbn [fst snd]. rewrite with_base_rev, rev_involutive.
    set (b := nth k bases d) in *.
    assert (ET : tensor line_backward bases d g u = along k (line_backward b) (tensor line_backward bases d i u)).
    { rewrite E. unfold tensor. rewrite fold_left_app. reflexivity. }
    rewrite ET.
    destruct Kok as (K1 & K2 & K3 & K4 & K5).
    pose proof HP as (P1 & P2 & P3).
    pose proof (pwf_pset dims P k (bs_spec b) HP) as HPs. rewrite <- HS in HPs.
    pose proof (pwf_pset dims P k (bs_mid b) HP) as HPm.
    assert (Sk : nth k (p_shape S) 0 = bs_spec b).
    { rewrite HS. cbn [pset p_shape]. apply nth_lset_same. lia. }
    assert (Ss : psize dims S k = 1) by (rewrite HS; exact Ks).
    assert (EP : pset P k (bs_phys b) = P) by (rewrite <- Kph; apply pset_id).
    destruct i as [|i0 i'].
    - cbn [with_base map fold_axes fold_left tensor].
      assert (H1 : distributed dims (pset P k (bs_mid b))
         (mkBuf (fun c => lset (subshape dims S c) k (bs_mid b)) (s_sdt s)
           (along_d k (bs_pad b) (b_dat x))) (along k (bs_pad b) u)).
      { replace (pset P k (bs_mid b)) with (pset S k (bs_mid b)) by (rewrite HS; apply pset_pset).
        apply along_ok; auto. rewrite Sk. exact K4. }
      pose proof (fun x' u' => along_ok dims (pset P k (bs_mid b)) x' u' k (bs_phys b) (bs_eval b)
        (s_pshape s) (s_pdt s) HPm Kd Ks) as H2.
      cbn [pset p_shape] in H2. rewrite nth_lset_same in H2 by lia.
      specialize (H2 _ _ K5 H1). rewrite pset_pset, EP in H2. cbn [b_dat] in H2.
      apply distributed_geq with (g := along k (bs_eval b) (along k (bs_pad b) u)).
      + exact HP.
      + intros idx [Hl _]. unfold line_backward.
        apply along_compose with (n := bs_spec b) (m := bs_mid b); auto. lia.
      + apply H2. intros c Hc. rewrite Hps by assumption.
        rewrite subshape_pset; auto. rewrite pset_pset, EP. reflexivity.
    - assert (Hlen : 2 <= length g).
      { rewrite E. rewrite app_length. cbn. lia. }
      assert (Hplain := Hpl Hlen).
      assert (Pk : plain b) by (apply Hplain; rewrite E; apply in_or_app; right; left; reflexivity).
      assert (Hin : forall j, In j (i0 :: i') -> In j g /\ j <> k /\ bs_kind (nth j bases d) = C2C).
      { intros j Hj. split; [rewrite E; apply in_or_app; left; assumption|].
        split; [|apply Hc2c; assumption].
        intros ->. rewrite E in HN. apply NoDup_remove_2 in HN. apply HN. rewrite app_nil_r. assumption. }
      assert (Hm : bs_mid b = bs_spec b) by apply Pk.
      assert (Hpadx : distributed dims S (mkBuf (b_shape x) (s_sdt s) (along_d k (bs_pad b) (b_dat x))) u).
      { eapply distributed_data; [| |exact Hx]; [reflexivity|].
        intros c idx Hl. cbn [b_dat]. unfold along_d, along.
        destruct Pk as (_ & _ & Pk). rewrite (proj2 (proj2 (Pk _ _))). rewrite lset_id. reflexivity. }
      pose proof (fun x' => fold_axes_ok bs_eval (i0 :: i') S x' u (b_shape x) (s_sdt s) HPs) as H2.
      specialize (H2 (mkBuf (b_shape x) (s_sdt s) (along_d k (bs_pad b) (b_dat x)))).
      cbn [b_dat] in H2.
      assert (H3 : distributed dims S (mkBuf (b_shape x) (s_sdt s)
         (fold_axes bs_eval (with_base bases d (i0 :: i')) (along_d k (bs_pad b) (b_dat x))))
         (tensor bs_eval bases d (i0 :: i') u)).
      { apply H2.
        - intros j Hj. destruct (Hin j Hj) as (J1 & J2 & J3).
          destruct (Hk j J1) as (L1 & L2 & L3 & L4). split; [exact L1|].
          rewrite HS. split; [exact L2|]. cbn [pset p_shape]. rewrite nth_lset_other by assumption.
          rewrite L4. destruct (Hplain j J1) as (M1 & M2 & M3). rewrite (M2 J3), <- M1. apply L3.
        - apply Hx.
        - exact Hpadx. }
      pose proof (fun x' u' => along_ok dims S x' u' k (bs_phys b) (bs_eval b) (s_pshape s) (s_pdt s) HPs Kd Ss) as H4.
      rewrite Sk, <- Hm in H4. specialize (H4 _ _ K5 H3). cbn [b_dat] in H4.
      assert (ES : pset S k (bs_phys b) = P) by (rewrite HS, pset_pset; exact EP).
      rewrite ES in H4.
      apply distributed_geq with (g := along k (bs_eval b) (tensor bs_eval bases d (i0 :: i') u)); [exact HP| |].
      + intros idx _. unfold along. unfold line_backward at 1.
        apply K5. intros j _. destruct Pk as (_ & _ & Pk). rewrite (proj2 (proj2 (Pk _ _))).
        symmetry. apply tensor_pointwise; [|reflexivity].
        intros q Hq. destruct (Hin q Hq) as (J1 & J2 & J3).
        destruct (Hk q J1) as (L1 & L2 & L3 & L4).
        destruct (Hplain q J1) as (M1 & M2 & M3).
        assert (forall f i, line_backward (nth q bases d) f i = bs_eval (nth q bases d) f i) as QE.
        { intros f i. unfold line_backward. apply L3. intros q' _. apply (proj2 (proj2 (M3 _ _))). }
        split; [|exact QE].
        exists (bs_mid (nth q bases d)). intros l l' Q q'. rewrite !QE. apply L3. exact Q.
      + apply H4. intros c Hc. rewrite Hps by assumption.
        rewrite subshape_pset by assumption. rewrite ES. reflexivity.
  Qed.

  (** stages joined by redistributions, in the order of the forward transform *)
  Inductive chain : list stage -> list transfer -> list (list nat) -> pencil -> pencil -> Prop :=
  | chain_one s g P S : stage_ok s g P S -> chain [s] [] [g] P S
  | chain_cons s s' ss t ts g gs P S P' E :
      stage_ok s g P S -> chain (s' :: ss) ts gs P' E -> swapped dims S P' ->
      t = mkTransfer S P' (s_sdt s) -> s_pdt s' = s_sdt s ->
      chain (s :: s' :: ss) (t :: ts) (g :: gs) P E.

  (** a redistribution that does its job *)
  Definition moves (move : transfer -> @buf V -> (list nat -> list nat) -> bool -> option buf) : Prop :=
    forall A B dt (x : @buf V) g ds, swapped dims A B -> distributed dims A x g -> b_dt x = dt ->
      (forall c, on_grid dims c -> ds c = subshape dims B c) ->
      exists y, move (mkTransfer A B dt) x ds dt = Some y /\
                b_shape y = ds /\ b_dt y = dt /\ distributed dims B y g.

  Lemma chain_forward_with move fin ss ts gs P E : moves move -> fin_ok fin -> chain ss ts gs P E ->
    forall x u, distributed dims P x u ->
    exists y, run_forward fin move ss ts x = Some y /\
      b_dt y = s_sdt (last ss (mkStage [] (fun _ => []) false (fun _ => []) false)) /\
      distributed dims E y
        (tensor (fun b l => fin b (bs_raw b l)) bases d (concat (map (@rev nat) gs)) u).
  Proof.
    intros Hmove Hfin H.
    induction H as [s g P S Hs | s s' ss t ts g gs P S P' E Hs Hc IH Hsw Ht Hd]; intros x u Hx.
    - eexists. split; [reflexivity|]. split; [reflexivity|].
      cbn [map concat]. rewrite app_nil_r. apply stage_forward_ok with (P := P); assumption.
    - pose proof (stage_forward_ok fin s g P S x u Hfin Hs Hx) as H1.
      destruct (Hmove S P' (s_sdt s) _ _ (s_pshape s') Hsw H1 eq_refl) as (z & Z1 & Z2 & Z3 & Z4).
      { inversion Hc; subst; match goal with H : stage_ok s' _ _ _ |- _ => apply H end. }
      destruct (IH z _ Z4) as (y & Y1 & Y2 & Y3).
      exists y. split; [|split; [exact Y2|]].
      + cbn [run_forward]. rewrite Ht, Hd, Z1. exact Y1.
      + cbn [map concat]. unfold tensor in *. rewrite fold_left_app. exact Y3.
  Qed.

  Lemma transfer_moves : moves (transfer_forward dims).
  Proof. intros A B dt x g ds. apply transfer_ok. Qed.

  Lemma run_backward_app move l s s0 : forall ts t (x : @buf V), length ts = length l ->
    run_backward move ((l ++ [s]) ++ [s0]) (ts ++ [t]) x =
    match run_backward move (l ++ [s]) ts x with
    | None => None
    | Some y => match move t y (s_sshape s0) (s_sdt s0) with
                | None => None
                | Some z => Some (mkBuf (s_pshape s0) (s_pdt s0) (stage_backward s0 (b_dat z)))
                end
    end.
  Proof.
    induction l as [|q l IH]; intros ts t x Hl.
    - destruct ts; [|discriminate]. cbn. reflexivity.
    - destruct ts as [|t0 ts]; [discriminate|].
      cbn [app]. cbn [run_backward].
      destruct l as [|q' l].
      + destruct ts; [|discriminate]. cbn [app].
        destruct (move t0 _ _ _) as [z|]; [|reflexivity].
        exact (IH [] t z eq_refl).
      + cbn [app] in *. destruct (move t0 _ _ _) as [z|]; [|reflexivity].
        apply IH. cbn in *. lia.
  Qed.

  Lemma chain_lengths ss ts gs P E : chain ss ts gs P E -> length ss = Datatypes.S (length ts).
  Proof. induction 1; cbn in *; lia. Qed.

  Lemma chain_backward ss ts gs P E : chain ss ts gs P E ->
    forall x u, distributed dims E x u ->
    exists y s rest, ss = s :: rest /\
      run_backward (transfer_backward dims) (rev ss) (rev ts) x = Some y /\
      b_dt y = s_pdt s /\
      distributed dims P y (tensor line_backward bases d (concat (rev gs)) u).
  Proof.
    intros H. induction H as [s g P S Hs | s s' ss t ts g gs P S P' E Hs Hc IH Hsw Ht Hd]; intros x u Hx.
    - eexists _, s, []. split; [reflexivity|]. split; [reflexivity|]. split; [reflexivity|].
      cbn [rev app concat]. rewrite app_nil_r. apply stage_backward_ok with (S := S); assumption.
    - destruct (IH x u Hx) as (y & s1 & rest & Es & Y1 & Y2 & Y3). injection Es as <- <-.
      pose proof (chain_lengths _ _ _ _ _ Hc) as Hlen.
      destruct (transfer_ok dims P' S (s_sdt s) y _ (s_sshape s) (swapped_sym dims _ _ Hsw) Y3
        ltac:(congruence)) as (z & Z1 & Z2 & Z3 & Z4).
      { apply Hs. }
      eexists _, s, (s' :: ss). split; [reflexivity|].
      change (rev (s :: s' :: ss)) with ((rev ss ++ [s']) ++ [s]).
      change (rev (t :: ts)) with (rev ts ++ [t]).
      rewrite run_backward_app by (rewrite !rev_length; cbn in Hlen; lia).
      change (rev ss ++ [s']) with (rev (s' :: ss)). rewrite Y1.
      unfold transfer_backward. rewrite Ht. cbn [t_A t_B t_dt].
      rewrite Z1. split; [reflexivity|]. split; [reflexivity|].
      pose proof (stage_backward_ok s g P S z _ Hs Z4) as H1.
      cbn [rev]. rewrite concat_app. cbn [concat]. rewrite app_nil_r.
      unfold tensor in *. rewrite fold_left_app. exact H1.
  Qed.
End Stages.
