(** DeriveProperties.v -- C63: spaces derived from other spaces are otherwise as these. *)
From Coq Require Import Reals List Arith Bool Lia Lra ZArith.
From Verif Require Import Base DeriveModel DeriveSpec DeriveProofs.
Import ListNotations.
Local Open Scope R_scope.

(** get_unplanned gives the same space, whatever was given to the constructor. *)
Theorem C63_unplanned : forall s, made s -> get_unplanned s no_kw = Some s.
Proof. exact unplanned_same. Qed.

(** get_refined(m) gives the space with m points and otherwise the same; a padding factor is rounded down to a whole number of points. *)
Theorem C63_refined : forall s m, made s ->
  exists s', get_refined s m no_kw = Some s' /\ s_N s' = m /\ same_setting s s' /\ same_basis s s' /\ s_dealias s' = s_dealias s
             /\ ((0 < m)%nat -> whole m (s_pad s) (s_pad s')) /\ (s_pad s = 1 -> s_pad s' = 1).
Proof.
  intros s m M. rewrite (refined_is s m M). eexists; split; [reflexivity|]. cbn. repeat split.
  - intros Hm; apply set_pad_whole; exact Hm.
  - intros ->; apply set_pad_1.
Qed.

(** get_dealiased(p, dealias_direct=b) changes the padding only, unless p = 1 and b is False (then self is returned, right if self is
    not padded). *)
Theorem C63_dealiased_partial : forall s p b, made s -> (0 < s_N s)%nat ->
  (p <> 1 \/ b = true \/ s_fam s = Four \/ (s_pad s = 1 /\ s_dealias s = false)) ->
  exists s', get_dealiased s p b no_kw = Some s' /\ s_N s' = s_N s /\ same_setting s s' /\ same_basis s s' /\ s_dealias s' = b
             /\ whole (s_N s) p (s_pad s').
Proof.
  intros s p b M HN H. pose proof M as (k & HI & HC). unfold get_dealiased. rewrite update_none.
  rewrite (rebuild s k (s_N s) p b HI HC).
  assert (G : exists s', Some (mkS (s_fam s) (s_cls s) (s_N s) (s_quad s) (s_dom s) (s_complex s) (set_pad (s_N s) p) b (s_coords s) (s_bcs s) (s_scaled s) (s_alpha s) (s_beta s)) = Some s'
     /\ s_N s' = s_N s /\ same_setting s s' /\ same_basis s s' /\ s_dealias s' = b /\ whole (s_N s) p (s_pad s')).
  { eexists; split; [reflexivity|]. cbn. repeat split. apply set_pad_whole; exact HN. }
  destruct (s_fam s) eqn:F; try exact G; (destruct (Req_EM_T p 1) as [P1|P1]; [|exact G]); (destruct b; [exact G|]);
  (exists s; destruct H as [H|[H|[H|[H1 H2]]]]; [contradiction|discriminate|discriminate|];
   split; [reflexivity|]; repeat split; auto; left; auto).
Qed.
(** On a padded space get_dealiased(padding_factor=1) returns the padded space. *)
Theorem C63_dealiased_reset_refuted : forall s, made s -> s_fam s <> Four -> get_dealiased s 1 false no_kw = Some s.
Proof.
  intros s _ NF. unfold get_dealiased. destruct (Req_EM_T 1 1) as [_|X]; [|congruence]. destruct (s_fam s); try reflexivity; congruence.
Qed.

(** get_orthogonal gives the orthogonal space of the family with the same setting and padding and no boundary conditions. *)
Theorem C63_orthogonal : forall s, made s -> (s_fam s = Lag -> s_dom s = HalfLine /\ s_quad s = LG) ->
  exists s', get_orthogonal s no_kw = Some s' /\ s_N s' = s_N s /\ same_setting s s' /\ same_padding s s' /\ orth (s_cls s') = true
             /\ s_bcs s' = None /\ s_scaled s' = None /\ (orth (s_cls s) = true -> s_cls s' = s_cls s).
Proof.
  intros s M HL. rewrite (orthogonal_is s M HL). eexists; split; [reflexivity|]. cbn. repeat split.
  - destruct (orth (s_cls s)) eqn:O; [exact O | reflexivity].
  - intros ->; reflexivity.
Qed.

(** get_homogeneous gives the same space with the conditions of its class and all boundary values zero, for all classes but Generic
    and the LowerDirichlet of chebyshevu and ultraspherical (missing: these are refuted below). *)
Theorem C63_homogeneous_partial : forall s, made s -> orth (s_cls s) = false -> s_cls s <> Generic ->
  ~ (s_cls s = Lower /\ (s_fam s = ChebU \/ s_fam s = Ultra)) ->
  exists s', get_homogeneous s no_kw = Some s' /\ s_N s' = s_N s /\ same_setting s s' /\ same_padding s s' /\ s_cls s' = s_cls s /\ s_scaled s' = s_scaled s
             /\ s_bcs s' = Some (map (fun n => (n, 0)) (conditions (s_fam s) (s_cls s))).
Proof.
  intros s M O NG NL. rewrite homogeneous_is; auto.
  - eexists; split; [reflexivity|]. cbn. repeat split.
  - destruct (s_cls s) eqn:EC; try (destruct (s_fam s); reflexivity); [destruct (s_fam s) eqn:EF; try reflexivity; exfalso; apply NL; auto | congruence].
Qed.
(** The homogeneous version of a Generic space has no boundary conditions at all (if sympy solves the empty system; else it raises),
    so it has more basis functions than the space. *)
Theorem C63_homogeneous_generic_refuted : forall s s', made s -> s_cls s = Generic -> get_homogeneous s no_kw = Some s' ->
  s_bcs s' = Some [] /\ ((0 < num_bcs s <= s_N s)%nat -> dimension s' <> dimension s).
Proof.
  intros s s' (k & HI & HC) EC H. pose proof (construct_inv _ _ _ _ _ H) as (EF & EC' & EN & _ & _ & _ & _ & _ & _ & _ & _ & _ & _ & B & _).
  rewrite EC in *; cbn [orth] in B.
  assert (KB : k_bc (update (without_bc (kw_of s)) no_kw) = None) by (rewrite update_none; reflexivity).
  rewrite KB in B. cbn [opt] in B.
  assert (DB : default_bc (s_fam s) Generic = Dict []) by (destruct (s_fam s); reflexivity). rewrite DB in B. cbn in B.
  split; [exact B|]. intros HB. unfold dimension, num_bcs at 1. rewrite B, EN; cbn. lia.
Qed.
(** The homogeneous version of chebyshevu's and ultraspherical's LowerDirichlet has its condition on the other boundary. *)
Theorem C63_homogeneous_lower_refuted : forall s, made s -> s_cls s = Lower -> s_fam s = ChebU \/ s_fam s = Ultra ->
  exists s', get_homogeneous s no_kw = Some s' /\ s_bcs s' = Some [((Rt, D), 0)].
Proof.
  intros s (k & HI & HC) EC EF. pose proof (construct_inv _ _ _ _ _ HC) as (_ & _ & _ & Eq & Ed & _ & _ & _ & _ & _ & _ & _ & Q & _ & _).
  assert (EQ' : get_quad (s_fam s) (s_cls s) (Some (s_quad s)) = s_quad s) by (rewrite EC; destruct EF as [->| ->]; reflexivity).
  unfold get_homogeneous. rewrite update_none. unfold construct.
  assert (KQ : k_quad (without_bc (kw_of s)) = Some (s_quad s)) by (unfold kw_of; destruct EF as [->| ->]; reflexivity).
  rewrite KQ, EQ', Q, EC. cbn [orth]. 
  destruct EF as [E|E]; rewrite E; cbn [without_bc k_bc opt default_bc]; unfold kw_of; rewrite E;
  (eexists; split; [reflexivity|]); cbn; reflexivity.
Qed.

(** get_testspace('PG'): for n boundary conditions, n = 1, 2, 3, 4 (or 6 if the family has Phi6), a test space with as many functions as
    the space, with the same setting and padding; spaces without conditions, and families without test functions, give the space itself. *)
Theorem C63_testspace_partial : forall s, made s -> (s_fam s = Lag -> s_dom s = HalfLine /\ s_quad s = LG) ->
  (num_bcs s <= 4)%nat -> (num_bcs s <= s_N s)%nat -> s_pad s = 1 ->
  exists s', get_testspace s no_kw = Some s' /\ same_setting s s' /\ same_padding s s' /\ dimension s' = dimension s
    /\ ((s_cls s' = Phi (num_bcs s) /\ num_bcs s' = (2 * num_bcs s)%nat) \/ ((num_bcs s = 0%nat \/ s_fam s = Lag) /\ s' = s)).
Proof.
  intros s M HL HB HN HP. pose proof M as (k & HI & HC).
  unfold get_testspace. cbn zeta. rewrite update_none.
  assert (SELF : get_unplanned s (without_scaled (without_bc (kw_of s))) = Some s).
  { unfold get_unplanned. replace (update (kw_of s) (without_scaled (without_bc (kw_of s)))) with (kw_of s).
    - pose proof (unplanned_same s M) as U. unfold get_unplanned in U. rewrite update_none in U; exact U.
    - assert (OO : forall A (o : option A), over o o = o) by (intros A [x|]; reflexivity).
      generalize (kw_of s); intros [a1 a2 a3 a4 a5 a6 a7 a8 a9 a10 a11]; unfold update; cbn; rewrite !OO; reflexivity. }
  destruct (Nat.eqb_spec (num_bcs s) 0) as [Z|NZ].
  { cbn [orb]. rewrite SELF. exists s; repeat split; auto. }
  cbn [orb].
  assert (O : orth (s_cls s) = false).
  { destruct (orth (s_cls s)) eqn:O; [|reflexivity]. exfalso. apply NZ.
    pose proof (construct_inv _ _ _ _ _ HC) as (_ & _ & _ & _ & _ & _ & _ & _ & _ & _ & _ & _ & _ & B & _). rewrite O in B. unfold num_bcs; rewrite B; reflexivity. }
  destruct (has_class (s_fam s) (Phi 1)) eqn:HP1; cbn [negb].
  2:{ rewrite SELF. exists s; repeat split; auto. right; split; [right | reflexivity].
      destruct (s_fam s) eqn:F; try discriminate HP1; [reflexivity | |]; exfalso; cbn in HI.
      - destruct HI as [E|[]]; rewrite <- E in O; discriminate.
      - destruct HI as [E|[E|[]]]; rewrite <- E in O; discriminate. }
  assert (HK : has_class (s_fam s) (Phi (num_bcs s)) = true).
  { assert (num_bcs s = 1 \/ num_bcs s = 2 \/ num_bcs s = 3 \/ num_bcs s = 4)%nat as [->|[->|[->| ->]]] by lia; destruct (s_fam s); try discriminate HP1; reflexivity. }
  rewrite HK.
  pose proof (construct_inv _ _ _ _ _ HC) as (_ & _ & _ & Eq & Ed & Ec & Ep & Ea & Eo & Es & El & Eb & Q & B & NB).
  assert (C : s_cls s <> R2C /\ s_cls s <> C2C) by (split; intros E; rewrite E in O; discriminate). destruct C as [C1 C2].
  assert (HBn : (num_bcs s = 1 \/ num_bcs s = 2 \/ num_bcs s = 3 \/ num_bcs s = 4)%nat) by lia.
  destruct (s_fam s) eqn:F; try discriminate HP1;
  unfold construct, kw_of; rewrite F; cbn [without_bc without_scaled k_quad k_dom k_dtype k_pad k_dealias k_coords k_bc k_bcs k_scaled k_alpha k_beta opt get_quad get_dom];
  try rewrite Q; cbn [quad_ok orth];
  (destruct HBn as [E|[E|[E|E]]]; (rewrite E; cbn [default_bc zeros make_bcs own_names of_tuple repeat Nat.mul Nat.add names_of_length length zip_some]; cbn -[INR];
   eexists; (split; [reflexivity|]); (split; [|split; [|split]]);
   [unfold same_setting; cbn; rewrite F; repeat split; rewrite ?El, ?Eb; reflexivity
   |split; [cbn; rewrite HP; apply set_pad_1 | reflexivity]
   |unfold dimension; rewrite E; cbn -[Nat.sub]; lia
   |left; cbn; auto])).
Qed.
(** For five conditions (no family has Phi5), and for six with jacobi, it raises. *)
Theorem C63_testspace_refuted : forall s, made s -> s_fam s = Cheb \/ s_fam s = Leg \/ s_fam s = ChebU \/ s_fam s = Ultra \/ s_fam s = Jac ->
  (num_bcs s = 5%nat \/ (6 < num_bcs s)%nat \/ (num_bcs s = 6%nat /\ s_fam s = Jac)) -> get_testspace s no_kw = None.
Proof.
  intros s _ HF H. unfold get_testspace. cbn zeta.
  assert (NZ : (num_bcs s =? 0)%nat = false) by (apply Nat.eqb_neq; lia). rewrite NZ.
  assert (HK : has_class (s_fam s) (Phi (num_bcs s)) = false).
  { destruct H as [->|[H|[-> ->]]]; [destruct HF as [->|[->|[->|[->| ->]]]]; reflexivity | | reflexivity].
    destruct (num_bcs s) as [|[|[|[|[|[|[|n]]]]]]]; try lia. destruct HF as [->|[->|[->|[->| ->]]]]; reflexivity. }
  rewrite HK. destruct HF as [->|[->|[->|[->| ->]]]]; reflexivity.
Qed.

(** Conditions are rescaled when the space is made; get_unplanned or get_refined with another domain keep the values of the old one:
    with a Neumann value v <> 0 and a domain of different length the new space has a wrong value, while the constructor is right. *)
Theorem C63_domain_refuted : forall n a b a' b' v w, a < b -> a' < b' -> b - a <> b' - a' -> v <> 0 ->
  let user := Dict [((L, N1), v); ((Rt, N1), w)] in
  let K d := mkK None (Some d) None None None None (Some user) None None None None in
  exists s s' s'', construct Leg Neumann n (K (Fin a b)) = Some s
    /\ get_unplanned s (mkK None (Some (Fin a' b')) None None None None None None None None None) = Some s'
    /\ construct Leg Neumann n (K (Fin a' b')) = Some s''
    /\ s_dom s' = s_dom s'' /\ s_bcs s'' = Some (reference (Fin a' b') [((L, N1), v); ((Rt, N1), w)]) /\ s_bcs s' <> s_bcs s''.
Proof.
  intros n a b a' b' v w Hab Hab' NE NV user K. do 3 eexists. split; [reflexivity|]. split; [reflexivity|]. split; [reflexivity|].
  split; [reflexivity|]. split; [reflexivity|]. cbn. intros E. injection E as E1 E2. apply NE.
  assert (b - a <> 0) by lra. assert (b' - a' <> 0) by lra.
  assert (X : v * (b - a) = v * (b' - a')).
  { replace (v * (b - a)) with (2 * (v / (2 / (b - a)))) by (field; auto). replace (v * (b' - a')) with (2 * (v / (2 / (b' - a')))) by (field; auto). rewrite E1; reflexivity. }
  apply Rmult_eq_reg_l in X; assumption.
Qed.
(** The keyword bcs, which the documentation of get_unplanned names, has no effect. *)
Theorem C63_bcs_keyword_refuted : forall s b, made s -> get_unplanned s (mkK None None None None None None None (Some b) None None None) = Some s.
Proof.
  intros s b M. rewrite <- (unplanned_same s M). unfold get_unplanned, construct, update; cbn. reflexivity.
Qed.

(** ** tensor product spaces *)
(** TensorProductSpace(comm, bases, ...) keeps its bases, order, data type and coordinates. *)
Theorem C63_tensor : forall comm bases axes dtype coords T, (forall s, In s bases -> made s) ->
  tensor comm bases axes dtype coords = Some T ->
  t_comm T = comm /\ t_bases T = bases /\ (forall ax, axes = Some ax -> t_axes T = ax) /\ (forall dt, dtype = Some dt -> t_complex T = dt)
  /\ (forall co, coords = Some co -> t_coords T = co) /\ made_tps T.
Proof.
  intros * M H. destruct (tensor_inv _ _ _ _ _ _ M H) as (A & B & C & Dd & c & LC & OK & E).
  repeat split; auto.
  - intros ax ->; exact C.
  - intros dt ->; exact E.
  - intros co ->; exact Dd.
  - intros s; rewrite B; apply M.
  - rewrite A, B. exists axes, dtype, coords. exact H.
Qed.
(** get_refined, get_orthogonal and get_testspace of a tensor product space keep communicator, order of transforms, data type and
    coordinates, and apply the operation to every base. *)
Theorem C63_tensor_refined : forall T Ns, made_tps T -> length Ns = length (t_bases T) ->
  exists T', t_refined T Ns = Some T' /\ same_tps T T'
    /\ map Some (t_bases T') = map (fun p => get_refined (fst p) (snd p) no_kw) (combine (t_bases T) Ns).
Proof.
  intros T Ns MT HL. pose proof MT as (M & _). unfold t_refined. rewrite HL, Nat.eqb_refl.
  set (g := fun p : space * nat => mkS (s_fam (fst p)) (s_cls (fst p)) (snd p) (s_quad (fst p)) (s_dom (fst p)) (s_complex (fst p)) (set_pad (snd p) (s_pad (fst p))) (s_dealias (fst p)) (s_coords (fst p)) (s_bcs (fst p)) (s_scaled (fst p)) (s_alpha (fst p)) (s_beta (fst p))).
  assert (E : forall p, In p (combine (t_bases T) Ns) -> get_refined (fst p) (snd p) no_kw = Some (g p)).
  { intros [s m] Hp. apply in_combine_l in Hp. apply refined_is; apply M; exact Hp. }
  rewrite (all_some_map _ g _ E). rewrite tensor_again; auto.
  - eexists; split; [reflexivity|]. split; [repeat split|]. cbn [t_bases]. rewrite map_map. apply map_ext_in. intros p Hp; symmetry; apply E; exact Hp.
  - intros s Hs. apply in_map_iff in Hs; destruct Hs as (p & <- & Hp). apply (made_refined (fst p) (snd p)); [apply M; destruct p; eapply in_combine_l; exact Hp | apply E; exact Hp].
  - clear -HL. revert Ns HL. generalize (t_bases T) as l. induction l as [|s l IH]; intros [|m Ns] HL; try discriminate; constructor; [reflexivity|].
    apply IH. injection HL; auto.
Qed.
Theorem C63_tensor_orthogonal : forall T, made_tps T -> (forall s, In s (t_bases T) -> s_fam s = Lag -> s_dom s = HalfLine /\ s_quad s = LG) ->
  exists T', t_orthogonal T = Some T' /\ same_tps T T' /\ map Some (t_bases T') = map (fun b => get_orthogonal b no_kw) (t_bases T).
Proof.
  intros T MT HL. pose proof MT as (M & _). unfold t_orthogonal.
  set (g := fun s => mkS (s_fam s) (if orth (s_cls s) then s_cls s else Orthogonal) (s_N s) (s_quad s) (s_dom s) (s_complex s) (s_pad s) (s_dealias s) (s_coords s) None None (s_alpha s) (s_beta s)).
  assert (E : forall s, In s (t_bases T) -> get_orthogonal s no_kw = Some (g s)) by (intros s Hs; apply orthogonal_is; auto).
  rewrite (all_some_map _ g _ E). rewrite tensor_again; auto.
  - eexists; split; [reflexivity|]. split; [repeat split|]. cbn [t_bases]. rewrite map_map. apply map_ext_in. intros s Hs; symmetry; apply E; exact Hs.
  - intros s Hs. apply in_map_iff in Hs; destruct Hs as (p & <- & Hp). apply (made_orthogonal p); auto.
  - apply Forall2_map_r. intros s Hs; cbn. destruct (s_cls s); reflexivity.
Qed.
(** the test space is again one that a constructor makes, and it is not a Fourier class unless the base is *)
Lemma made_testspace s s' : made s -> get_testspace s no_kw = Some s' -> made s' /\ fourier_class (s_cls s') = fourier_class (s_cls s).
Proof.
  intros M H. pose proof M as (k & HI & HC). unfold get_testspace in H. cbn zeta in H. rewrite update_none in H.
  destruct (Nat.eqb (num_bcs s) 0 || negb (has_class (s_fam s) (Phi 1)))%bool eqn:E.
  - unfold get_unplanned in H. pose proof (construct_inv _ _ _ _ _ H) as (A & B & C & _).
    split; [|rewrite B; reflexivity]. exists (update (kw_of s) (without_scaled (without_bc (kw_of s)))). rewrite A, B, C. split; [exact HI | exact H].
  - destruct (has_class (s_fam s) (Phi (num_bcs s))) eqn:HK; [|discriminate]. pose proof (construct_inv _ _ _ _ _ H) as (A & B & C & _).
    split.
    + exists (without_scaled (without_bc (kw_of s))). rewrite A, B, C. split; [|exact H].
      unfold has_class in HK. apply existsb_exists in HK. destruct HK as (x & Hx & Ex). destruct x; try discriminate Ex.
      apply Nat.eqb_eq in Ex. rewrite <- Ex. exact Hx.
    + rewrite B. apply orb_false_iff in E; destruct E as [E1 E2].
      destruct (s_cls s) eqn:EC; try reflexivity; exfalso;
      pose proof (construct_inv _ _ _ _ _ HC) as (_ & _ & _ & _ & _ & _ & _ & _ & _ & _ & _ & _ & _ & BB & _);
      cbn [orth] in BB; unfold num_bcs in E1; rewrite BB in E1; discriminate E1.
Qed.
(** get_testspace('PG') of a tensor product space; every base as in C63_testspace_partial *)
Theorem C63_tensor_testspace_partial : forall T, made_tps T ->
  (forall s, In s (t_bases T) -> (s_fam s = Lag -> s_dom s = HalfLine /\ s_quad s = LG) /\ (num_bcs s <= 4)%nat /\ (num_bcs s <= s_N s)%nat /\ s_pad s = 1) ->
  exists T', t_testspace T = Some T' /\ same_tps T T'
    /\ map Some (t_bases T') = map (fun b => get_testspace b no_kw) (t_bases T)
    /\ map dimension (t_bases T') = map dimension (t_bases T).
Proof.
  intros T MT HB. pose proof MT as (M & _). unfold t_testspace.
  set (g := fun s => match get_testspace s no_kw with Some s' => s' | None => s end).
  assert (E : forall s, In s (t_bases T) -> get_testspace s no_kw = Some (g s) /\ dimension (g s) = dimension s).
  { intros s Hs. destruct (HB s Hs) as (H1 & H2 & H3 & H4). destruct (C63_testspace_partial s (M s Hs) H1 H2 H3 H4) as (s' & Es & _ & _ & Ed & _).
    unfold g. rewrite Es. split; [reflexivity | exact Ed]. }
  rewrite (all_some_map _ g _ (fun s Hs => proj1 (E s Hs))). rewrite tensor_again; auto.
  - eexists; split; [reflexivity|]. split; [repeat split|]. cbn [t_bases]. rewrite !map_map. split; apply map_ext_in; intros s Hs; [symmetry|]; apply E; exact Hs.
  - intros s Hs. apply in_map_iff in Hs; destruct Hs as (p & <- & Hp). apply (proj1 (made_testspace p (g p) (M p Hp) (proj1 (E p Hp)))).
  - apply Forall2_map_r. intros s Hs. apply (proj2 (made_testspace s (g s) (M s Hs) (proj1 (E s Hs)))).
Qed.
(** get_homogeneous and get_unplanned(True) forget all of these: the result is on the world communicator, with the transforms in the
    order of the axes, the default data type and Cartesian coordinates; so it is as T only if T has all the defaults. *)
Theorem C63_tensor_homogeneous_refuted : forall T T', made_tps T -> (t_homogeneous T = Some T' \/ t_unplanned T = Some T') ->
  t_comm T' = 0%nat /\ t_axes T' = map (fun i => [i]) (seq 0 (length (t_bases T))) /\ t_coords T' = 0%nat
  /\ (same_tps T T' -> t_comm T = 0%nat /\ t_axes T = map (fun i => [i]) (seq 0 (length (t_bases T))) /\ t_coords T = 0%nat).
Proof.
  intros T T' MT H.
  assert (G : forall f, match all_some (map f (t_bases T)) with Some bs => tensor 0 bs None None None | None => None end = Some T' ->
     t_comm T' = 0%nat /\ t_axes T' = map (fun i => [i]) (seq 0 (length (t_bases T))) /\ t_coords T' = 0%nat).
  { intros f E. destruct (all_some (map f (t_bases T))) as [bs|] eqn:EA; [|discriminate].
    pose proof (all_some_inv _ _ EA) as EM. assert (EL : length bs = length (t_bases T)) by (rewrite <- (map_length f (t_bases T)), EM, map_length; reflexivity).
    unfold tensor in E. destruct (all_some (map _ bs)); [|discriminate]. cbn zeta in E. cbn [opt] in E.
    destruct (last_class l _); [|discriminate]. destruct (match c with C2C => _ | R2C => _ | _ => _ end); [|discriminate].
    injection E as <-; cbn. rewrite EL; auto. }
  assert (R : t_comm T' = 0%nat /\ t_axes T' = map (fun i => [i]) (seq 0 (length (t_bases T))) /\ t_coords T' = 0%nat)
    by (destruct H as [H|H]; [exact (G (fun b => get_homogeneous b no_kw) H) | exact (G (fun b => get_unplanned b no_kw) H)]).
  destruct R as (R1 & R2 & R3). repeat split; auto; intros; destruct H0 as (S1 & S2 & S3 & S4); congruence.
Qed.
(** with the defaults, get_unplanned(True) is right *)
Theorem C63_tensor_unplanned_partial : forall bases T, (forall s, In s bases -> made s) -> tensor 0 bases None None None = Some T -> t_unplanned T = Some T.
Proof.
  intros bases T M H. destruct (tensor_inv _ _ _ _ _ _ M H) as (_ & B & _). unfold t_unplanned. rewrite B, (unplanned_all bases M). exact H.
Qed.

(** ** non-vacuity *)
Definition ex_k : kws := mkK None (Some (Fin 0 4)) None (Some (3/2)) None (Some 7%nat) (Some (Tuple [Some 1; Some 2])) None None None None.
Example C63_made : exists s, construct Cheb Neumann 8 ex_k = Some s /\ made s /\ s_bcs s = Some [((L, N1), 1 / (2 / (4 - 0))); ((Rt, N1), 2 / (2 / (4 - 0)))] /\ num_bcs s = 2%nat.
Proof. eexists; split; [reflexivity|]. split; [exists ex_k; split; [cbn; tauto | reflexivity]|]. split; reflexivity. Qed.
Example C63_generic_five : exists s, made s /\ num_bcs s = 5%nat /\ s_fam s = Leg.
Proof.
  set (k := mkK None None None None None None (Some (Dict [((L, D), 0); ((L, N1), 0); ((L, N2), 0); ((Rt, D), 0); ((Rt, N1), 0)])) None None None None).
  destruct (construct Leg Generic 12 k) as [s|] eqn:E; [|discriminate]. exists s. split; [exists k|].
  - cbn in E; injection E as <-; cbn; split; [tauto | reflexivity].
  - cbn in E; injection E as <-; split; reflexivity.
Qed.
(** the polar disc of the demos: (Fourier, Legendre-Dirichlet) with transforms in order (1, 0) and curvilinear coordinates *)
Definition ex_bases : list space :=
  [mkS Four R2C 8 NoQuad (Fin 0 (2 * PI)) false 1 false 0 None None None None;
   mkS Leg Dirichlet 8 LG (Fin 0 1) false 1 false 0 (Some [((L, D), 0); ((Rt, D), 0)]) (Some false) (Some 0) (Some 0)].
Example C63_disc : (forall s, In s ex_bases -> made s) /\ exists T, tensor 0 ex_bases (Some [[1]; [0]]%nat) None (Some 3%nat) = Some T /\ made_tps T
  /\ t_axes T = [[1]; [0]]%nat /\ exists T', t_homogeneous T = Some T' /\ t_axes T' = [[0]; [1]]%nat /\ t_coords T' = 0%nat.
Proof.
  assert (M : forall s, In s ex_bases -> made s).
  { intros s [<-|[<-|[]]].
    - exists (mkK None (Some (Fin 0 (2*PI))) None None None None None None None None None). split; [cbn; tauto|]. unfold construct; cbn. rewrite set_pad_1; reflexivity.
    - exists (mkK None (Some (Fin 0 1)) None None None None None None None None None). split; [cbn; tauto|]. unfold construct; cbn. rewrite set_pad_1; reflexivity. }
  split; [exact M|].
  assert (E : tensor 0 ex_bases (Some [[1]; [0]]%nat) None (Some 3%nat) = Some (mkT 0 ex_bases [[1]; [0]]%nat false 3)).
  { unfold tensor. rewrite (unplanned_all ex_bases M). reflexivity. }
  eexists; split; [exact E|]. destruct (C63_tensor _ _ _ _ _ _ M E) as (_ & _ & _ & _ & _ & MT). split; [exact MT|]. split; [reflexivity|].
  assert (H : all_some (map (fun b => get_homogeneous b no_kw) ex_bases) = Some ex_bases).
  { cbn [map ex_bases]. 
    assert (H1 : get_homogeneous (mkS Four R2C 8 NoQuad (Fin 0 (2 * PI)) false 1 false 0 None None None None) no_kw = Some (mkS Four R2C 8 NoQuad (Fin 0 (2 * PI)) false 1 false 0 None None None None))
      by (unfold get_homogeneous, construct; cbn; rewrite set_pad_1; reflexivity).
    rewrite H1. rewrite homogeneous_is; [|apply M; right; left; reflexivity|reflexivity|reflexivity]. reflexivity. }
  unfold t_homogeneous; cbn [t_bases]. rewrite H. unfold tensor. rewrite (unplanned_all ex_bases M). eexists; split; [reflexivity|]. split; reflexivity.
Qed.

Example C63_disc_testspace : exists T T', tensor 0 ex_bases (Some [[1]; [0]]%nat) None (Some 3%nat) = Some T /\ t_testspace T = Some T'
  /\ same_tps T T' /\ map (fun s => (s_cls s, s_N s, num_bcs s)) (t_bases T') = [(R2C, 8, 0); (Phi 2, 10, 4)]%nat.
Proof.
  destruct C63_disc as (M & T & E & MT & _). exists T. destruct (C63_tensor _ _ _ _ _ _ M E) as (_ & EB & _).
  destruct (C63_tensor_testspace_partial T MT) as (T' & E' & ST & EM & _).
  { rewrite EB. intros s [<-|[<-|[]]]; cbn; repeat split; try discriminate; lia. }
  exists T'. split; [exact E|]. split; [exact E'|]. split; [exact ST|].
  rewrite EB in EM. cbn [map ex_bases] in EM. unfold get_testspace, get_unplanned, construct in EM; cbn in EM.
  destruct (t_bases T') as [|s1 [|s2 [|s3 l]]]; cbn in EM; try discriminate EM.
  injection EM as E1 E2. rewrite E1, E2. reflexivity.
Qed.
Print Assumptions C63_unplanned.
Print Assumptions C63_refined.
Print Assumptions C63_dealiased_partial.
Print Assumptions C63_dealiased_reset_refuted.
Print Assumptions C63_orthogonal.
Print Assumptions C63_homogeneous_partial.
Print Assumptions C63_homogeneous_generic_refuted.
Print Assumptions C63_homogeneous_lower_refuted.
Print Assumptions C63_testspace_partial.
Print Assumptions C63_testspace_refuted.
Print Assumptions C63_domain_refuted.
Print Assumptions C63_bcs_keyword_refuted.
Print Assumptions C63_tensor.
Print Assumptions C63_tensor_refined.
Print Assumptions C63_tensor_orthogonal.
Print Assumptions C63_tensor_testspace_partial.
Print Assumptions C63_tensor_homogeneous_refuted.
Print Assumptions C63_tensor_unplanned_partial.
