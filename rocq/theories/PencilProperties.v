(** PencilProperties.v -- C50: distributed tensor product transforms.

    For every process grid, order of the axes and choice of collapsing, the transforms of a
    TensorProductSpace are the tensor product of the one-dimensional transforms of its bases. *)
From Coq Require Import Arith List Bool Lia Permutation.
From Verif Require Import Base Fld PencilModel PencilSpec PencilProofs PencilProofs2 PencilProofs3
  PencilProofs4 PencilProofs5 PencilProofs6 PencilProofs7.
Import ListNotations.
Local Open Scope nat_scope.

(** Planning succeeds when no axis has fewer entries than a communicator has processes, the
    axis transformed first is not distributed, and the data types fit. *)
Theorem C50_planned {V} dims (bases : list (@base V)) d axes coll dt :
  setup dims bases d axes coll -> (forall i, i < length dims -> 1 <= nth i dims 1) ->
  roomy dims (map bs_phys bases) -> roomy dims (map bs_spec bases) ->
  nth (last axes 0) dims 1 = 1 -> dtypes_ok bases d dt (rev axes) ->
  exists sp, configure dims bases d (groups_of dims coll bases d axes) dt = Some sp.
Proof. intros HS HP. apply setup_defined; assumption. Qed.

(** The global arrays have one entry for every combination of points (modes), and every entry
    is stored by exactly one process. *)
Theorem C50_distribution {V} dims (bases : list (@base V)) d axes coll dt sp :
  setup dims bases d axes coll -> (forall i, i < length dims -> 1 <= nth i dims 1) ->
  configure dims bases d (groups_of dims coll bases d axes) dt = Some sp ->
  p_shape (sp_in sp) = map bs_phys bases /\ p_shape (sp_out sp) = map bs_spec bases /\
  forall p, p = sp_in sp \/ p = sp_out sp -> forall g, inside (p_shape p) g ->
    exists c idx, on_grid dims c /\ inside (subshape dims p c) idx /\ global_index dims p c idx = g /\
      forall c' idx', on_grid dims c' -> inside (subshape dims p c') idx' -> global_index dims p c' idx' = g ->
        c' = c /\ idx' = idx.
Proof.
  intros HS HP E. destruct (setup_chain _ _ _ _ _ HS dt sp E) as (_ & _ & P1 & P2 & S1 & S2).
  split; [exact S1|]. split; [exact S2|]. intros p [->| ->] g Hg; apply stored_once; assumption.
Qed.

(** T.forward: the processes end up with their blocks of the array obtained by one
    one-dimensional forward transform along every axis, last axis of [axes] first. *)
Theorem C50_forward {V} dims (bases : list (@base V)) d axes coll dt sp x u :
  setup dims bases d axes coll ->
  configure dims bases d (groups_of dims coll bases d axes) dt = Some sp ->
  b_dt x = dt -> distributed dims (sp_in sp) x u ->
  exists y, forward dims sp x = Some y /\ b_dt y = output_dtype sp /\
    distributed dims (sp_out sp) y (tensor line_forward bases d (rev axes) u).
Proof. intros HS E Hdt Hx. exact (setup_forward _ _ _ _ _ HS dt sp E (@bs_trunc V) x u (@fin_ok_trunc V) Hdt Hx). Qed.

Theorem C50_scalar_product {V} dims (bases : list (@base V)) d axes coll dt sp x u :
  setup dims bases d axes coll ->
  configure dims bases d (groups_of dims coll bases d axes) dt = Some sp ->
  b_dt x = dt -> distributed dims (sp_in sp) x u ->
  exists y, scalar_product dims sp x = Some y /\ b_dt y = output_dtype sp /\
    distributed dims (sp_out sp) y (tensor line_scalar_product bases d (rev axes) u).
Proof. intros HS E Hdt Hx. exact (setup_forward _ _ _ _ _ HS dt sp E (@bs_cut V) x u (@fin_ok_cut V) Hdt Hx). Qed.

Theorem C50_backward {V} dims (bases : list (@base V)) d axes coll dt sp x u :
  setup dims bases d axes coll ->
  configure dims bases d (groups_of dims coll bases d axes) dt = Some sp ->
  b_dt x = output_dtype sp -> distributed dims (sp_out sp) x u ->
  exists y, backward dims sp x = Some y /\ b_dt y = dt /\
    distributed dims (sp_in sp) y (tensor line_backward bases d axes u).
Proof. intros HS E. exact (setup_backward _ _ _ _ _ HS dt sp E x u). Qed.

(** The number of processes and their grid do not matter: entries with the same place in the
    global arrays are equal. *)
Theorem C50_any_grid {V} dims dims' (bases : list (@base V)) d axes coll coll' dt sp sp' x x' u :
  setup dims bases d axes coll -> setup dims' bases d axes coll' ->
  configure dims bases d (groups_of dims coll bases d axes) dt = Some sp ->
  configure dims' bases d (groups_of dims' coll' bases d axes) dt = Some sp' ->
  b_dt x = dt -> b_dt x' = dt -> distributed dims (sp_in sp) x u -> distributed dims' (sp_in sp') x' u ->
  exists y y', forward dims sp x = Some y /\ forward dims' sp' x' = Some y' /\
    forall c idx c' idx', on_grid dims c -> on_grid dims' c' ->
      inside (subshape dims (sp_out sp) c) idx -> inside (subshape dims' (sp_out sp') c') idx' ->
      global_index dims (sp_out sp) c idx = global_index dims' (sp_out sp') c' idx' ->
      b_dat y c idx = b_dat y' c' idx'.
Proof.
  intros HS HS' E E' Hd Hd' Hx Hx'.
  destruct (C50_forward _ _ _ _ _ _ _ _ _ HS E Hd Hx) as (y & Y1 & _ & _ & Y2).
  destruct (C50_forward _ _ _ _ _ _ _ _ _ HS' E' Hd' Hx') as (y' & Y1' & _ & _ & Y2').
  exists y, y'. split; [exact Y1|]. split; [exact Y1'|].
  intros c idx c' idx' Hc Hc' Hi Hi' EQ. rewrite Y2 by assumption. rewrite Y2' by assumption. rewrite EQ. reflexivity.
Qed.

(** When the one-dimensional transforms are products with matrices [M k], the result is the
    sum over all points with the product of the matrices, whatever the order of the axes. *)
Theorem C50_matrix (K : Fld) dims (bases : list (@base K)) d axes coll dt sp x u
    (n : nat -> nat) (M : nat -> nat -> nat -> K) :
  setup dims bases d axes coll ->
  configure dims bases d (groups_of dims coll bases d axes) dt = Some sp ->
  (forall k, k < length dims -> forall l i,
     line_forward (nth k bases d) l i = fsum (n k) (fun j => fmul (M k i j) (l j))) ->
  b_dt x = dt -> distributed dims (sp_in sp) x u ->
  exists y, forward dims sp x = Some y /\
    distributed dims (sp_out sp) y
      (matrix_transform (map (fun k => (n k, M k)) (seq 0 (length dims))) u).
Proof.
  intros HS E HM Hd Hx. destruct (C50_forward _ _ _ _ _ _ _ _ _ HS E Hd Hx) as (y & Y1 & _ & Y2).
  exists y. split; [exact Y1|].
  destruct (setup_chain _ _ _ _ _ HS dt sp E) as (_ & _ & _ & P2 & _).
  refine (distributed_geq dims _ _ _ _ P2 _ Y2). intros idx [Hl _].
  apply tensor_matrix.
  - exact HM.
  - eapply Permutation_trans; [apply Permutation_sym, Permutation_rev | apply (su_perm _ _ _ _ _ HS)].
  - rewrite Hl. apply P2.
Qed.

(** backward undoes forward on every grid if it does so along every axis. *)
Theorem C50_round_trip {V} (real : V -> Prop) dims (bases : list (@base V)) d axes coll dt sp x u :
  setup dims bases d axes coll ->
  configure dims bases d (groups_of dims coll bases d axes) dt = Some sp ->
  (forall b, In b bases -> undoes real b /\ keeps_real real b) ->
  dtypes_ok bases d dt (rev axes) ->
  (dt = false -> forall idx, inside (map bs_phys bases) idx -> real (u idx)) ->
  b_dt x = dt -> distributed dims (sp_in sp) x u ->
  exists y z, forward dims sp x = Some y /\ backward dims sp y = Some z /\ b_dt z = dt /\
    distributed dims (sp_in sp) z u.
Proof.
  intros HS E HU HD HR Hd Hx. destruct (C50_forward _ _ _ _ _ _ _ _ _ HS E Hd Hx) as (y & Y1 & Y2 & Y3).
  destruct (C50_backward _ _ _ _ _ _ _ _ _ HS E Y2 Y3) as (z & Z1 & Z2 & Z3).
  exists y, z. split; [exact Y1|]. split; [exact Z1|]. split; [exact Z2|].
  destruct (setup_chain _ _ _ _ _ HS dt sp E) as (_ & _ & P1 & _ & S1 & _).
  destruct (setup_axes _ _ _ _ _ HS) as (A1 & A2 & A3).
  refine (distributed_geq dims _ _ _ _ P1 _ Z3). rewrite S1.
  rewrite <- (rev_involutive axes) at 1.
  apply (round_trip bases d real) with (dt := dt).
  - apply NoDup_rev. exact A2.
  - intros k Hk. apply in_rev in Hk. destruct (A3 k Hk) as [K1 K2].
    pose proof (su_len _ _ _ _ _ HS) as HL.
    assert (Hin : In (nth k bases d) bases) by (apply nth_In; lia).
    split; [rewrite map_length; lia|]. split; [exact K2|]. split; [apply HU; exact Hin|].
    split; [apply HU; exact Hin|]. rewrite <- (map_nth bs_phys). apply nth_indep. rewrite map_length. lia.
  - exact HD.
  - exact HR.
Qed.

(** and forward undoes backward. *)
Theorem C50_round_trip_back {V} dims (bases : list (@base V)) d axes coll dt sp x u :
  setup dims bases d axes coll ->
  configure dims bases d (groups_of dims coll bases d axes) dt = Some sp ->
  (forall b, In b bases -> forall l i, i < bs_spec b -> line_forward b (line_backward b l) i = l i) ->
  b_dt x = output_dtype sp -> distributed dims (sp_out sp) x u ->
  exists y z, backward dims sp x = Some y /\ forward dims sp y = Some z /\
    b_dt z = output_dtype sp /\ distributed dims (sp_out sp) z u.
Proof.
  intros HS E HU Hd Hx. destruct (C50_backward _ _ _ _ _ _ _ _ _ HS E Hd Hx) as (y & Y1 & Y2 & Y3).
  destruct (C50_forward _ _ _ _ _ _ _ _ _ HS E Y2 Y3) as (z & Z1 & Z2 & Z3).
  exists y, z. split; [exact Y1|]. split; [exact Z1|]. split; [exact Z2|].
  destruct (setup_chain _ _ _ _ _ HS dt sp E) as (_ & _ & _ & P2 & _ & S2).
  destruct (setup_axes _ _ _ _ _ HS) as (A1 & A2 & A3).
  refine (distributed_geq dims _ _ _ _ P2 _ Z3). rewrite S2.
  apply (round_trip_back bases d).
  - exact A2.
  - intros k Hk. destruct (A3 k Hk) as [K1 K2]. pose proof (su_len _ _ _ _ _ HS) as HL.
    assert (Hin : In (nth k bases d) bases) by (apply nth_In; lia).
    split; [rewrite map_length; lia|]. split; [exact K2|]. split; [apply HU; exact Hin|].
    rewrite <- (map_nth bs_spec). apply nth_indep. rewrite map_length. lia.
Qed.

(** ** spaces with padding: get_dealiased *)

(** The padded space takes the coefficients of the original space, distributed as they are, and
    evaluates them on the finer mesh. *)
Theorem C50_padded_backward {V} dims (bases pbases : list (@base V)) d axes coll dt sp sq x u :
  setup dims bases d axes coll ->
  configure dims bases d (groups_of dims coll bases d axes) dt = Some sp ->
  length pbases = length dims -> (forall b, In b pbases -> base_ok b) ->
  configure_backwards dims pbases d axes (sp_out sp) (output_dtype sp) = Some sq ->
  b_dt x = output_dtype sp -> distributed dims (sp_out sp) x u ->
  p_shape (sp_out sq) = map bs_phys pbases /\
  exists y, padded_backward dims sq x = Some y /\ b_dt y = padded_dtype sq /\
    distributed dims (sp_out sq) y (tensor line_backward pbases d axes u).
Proof.
  intros HS E HL HB E2 Hd Hx. destruct (setup_chain _ _ _ _ _ HS dt sp E) as (_ & _ & _ & P2 & _).
  destruct (setup_axes _ _ _ _ _ HS) as (A1 & A2 & A3).
  assert (HK : forall k, In k axes -> k < length dims /\ base_ok (nth k pbases d)).
  { intros k Hk. destruct (A3 k Hk) as [K1 _]. split; [exact K1|]. apply HB. apply nth_In. lia. }
  split.
  - eapply configure_backwards_shape; [exact P2 | exact HL | apply (su_perm _ _ _ _ _ HS) | exact HK | exact E2].
  - eapply padded_backward_ok; eauto.
Qed.

(** and its forward transform gives coefficients distributed as those of the original space. *)
Theorem C50_padded_forward {V} dims (bases pbases : list (@base V)) d axes coll dt sp sq x u :
  setup dims bases d axes coll ->
  configure dims bases d (groups_of dims coll bases d axes) dt = Some sp ->
  length pbases = length dims -> (forall b, In b pbases -> base_ok b) ->
  configure_backwards dims pbases d axes (sp_out sp) (output_dtype sp) = Some sq ->
  b_dt x = padded_dtype sq -> distributed dims (sp_out sq) x u ->
  exists y, padded_forward dims sq x = Some y /\ b_dt y = output_dtype sp /\
    distributed dims (sp_out sp) y (tensor line_forward pbases d (rev axes) u).
Proof.
  intros HS E HL HB E2 Hd Hx. destruct (setup_chain _ _ _ _ _ HS dt sp E) as (_ & _ & _ & P2 & _).
  destruct (setup_axes _ _ _ _ _ HS) as (A1 & A2 & A3).
  assert (HK : forall k, In k axes -> k < length dims /\ base_ok (nth k pbases d)).
  { intros k Hk. destruct (A3 k Hk) as [K1 _]. split; [exact K1|]. apply HB. apply nth_In. lia. }
  exact (padded_forward_gen dims pbases d (@bs_trunc V) (transfer_backward dims) axes (sp_out sp) (output_dtype sp) sq x u
    (@fin_ok_trunc V) (@backward_moves dims V) P2 A2 HK E2 Hd Hx).
Qed.

(** The scalar product of a padded space works on one process ... *)
Theorem C50_padded_scalar_product_partial {V} dims (bases pbases : list (@base V)) d axes coll dt sp sq x u :
  (forall i, nth i dims 1 = 1) -> setup dims bases d axes coll ->
  configure dims bases d (groups_of dims coll bases d axes) dt = Some sp ->
  length pbases = length dims -> (forall b, In b pbases -> base_ok b) ->
  configure_backwards dims pbases d axes (sp_out sp) (output_dtype sp) = Some sq ->
  b_dt x = padded_dtype sq -> distributed dims (sp_out sq) x u ->
  exists y, padded_scalar_product dims sq x = Some y /\ b_dt y = output_dtype sp /\
    distributed dims (sp_out sp) y (tensor line_scalar_product pbases d (rev axes) u).
Proof.
  intros H1 HS E HL HB E2 Hd Hx. destruct (setup_chain _ _ _ _ _ HS dt sp E) as (_ & _ & _ & P2 & _).
  destruct (setup_axes _ _ _ _ _ HS) as (A1 & A2 & A3).
  assert (HK : forall k, In k axes -> k < length dims /\ base_ok (nth k pbases d)).
  { intros k Hk. destruct (A3 k Hk) as [K1 _]. split; [exact K1|]. apply HB. apply nth_In. lia. }
  exact (padded_forward_gen dims pbases d (@bs_cut V) (transfer_forward dims) axes (sp_out sp) (output_dtype sp) sq x u
    (@fin_ok_cut V) (@serial_moves dims V H1) P2 A2 HK E2 Hd Hx).
Qed.

(** ... and fails on every input when the second axis of a two-dimensional space is distributed:
    configure_backwards hands the redistributions over in the wrong direction. *)
Theorem C50_padded_scalar_product_refuted {V} dims (bases pbases : list (@base V)) d k0 k1 coll dt sp sq :
  setup dims bases d [k0; k1] coll -> (forall i, i < length dims -> 1 <= nth i dims 1) ->
  configure dims bases d (groups_of dims coll bases d [k0; k1]) dt = Some sp ->
  configure_backwards dims pbases d [k0; k1] (sp_out sp) (output_dtype sp) = Some sq ->
  2 <= psize dims (sp_out sp) k1 -> psize dims (sp_out sp) k1 <= nth k1 (p_shape (sp_out sp)) 0 ->
  forall x, padded_scalar_product dims sq x = None.
Proof.
  intros HS HP E E2 H2 Hle. destruct (setup_chain _ _ _ _ _ HS dt sp E) as (_ & _ & _ & P2 & _).
  destruct (setup_axes _ _ _ _ _ HS) as (A1 & A2 & A3).
  inversion A2 as [|? ? A4 A5]; subst.
  apply (padded_scalar_fails dims pbases d k0 k1 (sp_out sp) (output_dtype sp) sq); auto.
  - apply A3. left. reflexivity.
  - apply A3. right. left. reflexivity.
  - intros ->. apply A4. left. reflexivity.
Qed.

(** The pencil that a padded space gives for its coefficients (forward.output_pencil) has the
    number of points, not of modes, along its first axis. *)
Theorem C50_padded_pencil_refuted {V} dims (pbases : list (@base V)) d k rest p dt sq :
  k < length (p_shape p) ->
  configure_backwards dims pbases d (k :: rest) p dt = Some sq ->
  nth k (p_shape p) 0 = bs_spec (nth k pbases d) /\
  nth k (p_shape (sp_in sq)) 0 = bs_phys (nth k pbases d).
Proof.
  intros Hk E. unfold configure_backwards in E.
  destruct (plan_back dims k (nth k pbases d) p dt) as [s0|] eqn:E0; [|discriminate].
  destruct (mk_pencil dims (p_sub p) (lset (p_shape p) k (bs_phys (nth k pbases d))) k) as [pA|] eqn:EA; [|discriminate].
  destruct (plan_back_rest _ _ _ _ _ _) as [[[ss ts] pe]|]; [|discriminate]. injection E as <-.
  split; [apply plan_back_some in E0; apply E0|]. cbn [sp_in].
  apply mk_pencil_some in EA. destruct EA as [-> _]. cbn [p_shape]. apply nth_lset_same. exact Hk.
Qed.

(** ** collapsed Fourier transforms ignore the 2/3-rule of all axes but the last *)
Theorem C50_collapse_dealias_refuted {V} (b0 b0' b1 : @base V) dt sp sp' x :
  bs_kind b0 = C2C -> bs_kind b1 = C2C -> bs_padded b0 = false -> bs_padded b1 = false ->
  (* b0' differs from b0 in the 2/3-rule only *)
  b0' = mkBase (bs_kind b0) (bs_phys b0) (bs_mid b0) (bs_spec b0) (bs_raw b0) (bs_trunc b0)
          (bs_pad b0') (bs_eval b0) (bs_cut b0) (bs_padded b0) ->
  configure [1; 1] [b0; b1] b1 (groups_of [1; 1] true [b0; b1] b1 [0; 1]) dt = Some sp ->
  configure [1; 1] [b0'; b1] b1 (groups_of [1; 1] true [b0'; b1] b1 [0; 1]) dt = Some sp' ->
  match backward [1; 1] sp x, backward [1; 1] sp' x with
  | Some y, Some y' => forall c idx, b_dat y c idx = b_dat y' c idx
  | None, None => True
  | _, _ => False
  end.
Proof.
  intros Hk0 Hk1 Hp0 Hp1 E'. remember (bs_pad b0') as pad' eqn:Ep. clear Ep. subst b0'.
  destruct b0 as [kd0 ph0 md0 s0 raw0 tr0 pad0 ev0 cut0 pd0], b1 as [kd1 ph1 md1 s1 raw1 tr1 pad1 ev1 cut1 pd1].
  cbn in Hk0, Hk1, Hp0, Hp1. subst kd0 kd1 pd0 pd1.
  unfold configure, groups_of, collapse. cbn [bs_padded existsb orb negb andb rev app is_fourier bs_kind nth Nat.eqb
    collapse_loop last length map bs_phys with_base bs_spec dtype_out].
  destruct (mk_pencil _ _ _ _) as [p0|]; [|discriminate].
  unfold plan, plan_ok. cbn [bs_kind]. destruct dt; [|discriminate]. cbn [s_pdt s_sdt].
  match goal with |- match ?e with _ => _ end = _ -> match ?e' with _ => _ end = _ -> _ =>
    change e' with e; destruct e as [pA|]; [|discriminate] end.
  cbn [plan_rest]. intros H1 H2. injection H1 as <-. injection H2 as <-.
  unfold backward. cbn [sp_stages sp_transfers rev app s_sshape s_sdt bs_spec dtype_out bs_kind].
  destruct (load _ _ _ _) as [x'|]; [|exact I]. cbn [run_backward]. intros c idx. reflexivity.
Qed.

