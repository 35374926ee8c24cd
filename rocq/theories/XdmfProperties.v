(** XdmfProperties.v -- C62: the XDMF files written by generate_xdmf describe the data in the HDF5 file. *)
From Coq Require Import Reals List Arith Bool Sorted Lia Lra.
From Verif Require Import Base XdmfModel XdmfSpec XdmfProofs.
Import ListNotations.
Local Open Scope R_scope.

(** One file for every slice name present at the earliest time, no two for the same name; generate_xdmf fails exactly if some dataset
    has a name that does not occur at the earliest time. *)
Theorem C62_files : forall order ndim groups periodic ds,
  (forall files, xdmf order ndim groups periodic ds = Some files ->
     NoDup (map fst files) /\ forall t, In t (map fst files) <-> exists d, In d ds /\ first_time ds (d_time d) /\ d_tag d = t)
  /\ (xdmf order ndim groups periodic ds = None <->
      exists d, In d ds /\ forall e, In e ds -> first_time ds (d_time e) -> d_tag e <> d_tag d).
Proof. intros; split; [intros files; apply files_tags | apply files_none]. Qed.

(** Every file lists all times of the HDF5 file in increasing order; its grids show, in order of time, all the datasets with its name
    (every time that has any). *)
Theorem C62_grids : forall order ndim groups periodic ds files t times grids,
  xdmf order ndim groups periodic ds = Some files -> In (t, (times, grids)) files ->
  StronglySorted lt times /\ (forall tau, In tau times <-> exists d, In d ds /\ d_time d = tau)
  /\ map shown grids = filter non_empty (map (stored t ds) times).
Proof.
  intros. destruct (file_in _ _ _ _ _ _ _ _ _ H H0) as (-> & N & geo & t0 & _ & _ & ->).
  split; [apply timesteps_sorted|]. split; [apply timesteps_in | apply grids_shown].
Qed.

Lemma filter_all {A} (f : A -> bool) l : (forall x, In x l -> f x = true) -> filter f l = l.
Proof. induction l as [|x l IH]; cbn; intros H; [reflexivity|]. rewrite (H x (or_introl eq_refl)), IH; auto. Qed.
Lemma filter_lt {A} (f : A -> bool) l x : In x l -> f x = false -> (length (filter f l) < length l)%nat.
Proof.
  induction l as [|y l IH]; cbn; [intros []|]. intros [<-|H] E.
  - rewrite E. assert (length (filter f l) <= length l)%nat by (clear; induction l as [|z l IH]; cbn; [lia|]; destruct (f z); cbn; lia). cbn. lia.
  - specialize (IH H E). destruct (f y); cbn; lia.
Qed.

(** If the name occurs at every time, the k-th grid shows the data of the k-th time (missing: without that hypothesis it need not). *)
Theorem C62_time_partial : forall order ndim groups periodic ds files t times grids,
  xdmf order ndim groups periodic ds = Some files -> In (t, (times, grids)) files ->
  (forall tau, In tau times -> stored t ds tau <> []) -> map shown grids = map (stored t ds) times.
Proof.
  intros. destruct (C62_grids _ _ _ _ _ _ _ _ _ H H0) as (_ & _ & ->).
  apply filter_all. intros l Hl; apply in_map_iff in Hl; destruct Hl as (tau & <- & Ht).
  specialize (H1 tau Ht). destruct (stored t ds tau); [congruence|reflexivity].
Qed.
(** If the name is missing at the j-th time and present at the next, the j-th grid shows the data of that next time; and there are then
    fewer grids than times. *)
Theorem C62_time_refuted : forall order ndim groups periodic ds files t times grids l1 tau tau' l2,
  xdmf order ndim groups periodic ds = Some files -> In (t, (times, grids)) files ->
  times = l1 ++ tau :: tau' :: l2 -> (forall u, In u l1 -> stored t ds u <> []) -> stored t ds tau = [] -> stored t ds tau' <> [] ->
  nth_error times (length l1) = Some tau /\ option_map shown (nth_error grids (length l1)) = Some (stored t ds tau') /\ tau <> tau'
  /\ (length grids < length times)%nat.
Proof.
  intros * E HI ET H1 H0 H2. destruct (C62_grids _ _ _ _ _ _ _ _ _ E HI) as (SS & _ & G).
  assert (EN : nth_error times (length l1) = Some tau) by (rewrite ET, nth_error_app2, Nat.sub_diag; [reflexivity | lia]).
  split; [exact EN|]. split; [|split].
  - rewrite <- nth_error_map, G, ET, map_app, filter_app. cbn [map filter]. rewrite H0; cbn [non_empty].
    rewrite filter_all.
    2:{ intros l Hl; apply in_map_iff in Hl; destruct Hl as (u & <- & Hu). specialize (H1 u Hu). destruct (stored t ds u); [congruence|reflexivity]. }
    destruct (stored t ds tau') eqn:E2; [congruence|]. cbn [non_empty].
    rewrite nth_error_app2; rewrite map_length; [|lia]. rewrite Nat.sub_diag; reflexivity.
  - rewrite ET in SS. clear -SS. induction l1 as [|x l1 IH]; cbn in SS; inversion SS as [|? ? A B]; subst; [|auto].
    inversion B; lia.
  - rewrite <- (map_length shown grids), G, <- (map_length (stored t ds) times). apply filter_lt with (x := []); [|reflexivity].
    rewrite <- H0. apply in_map. rewrite ET; apply in_or_app; right; left; reflexivity.
Qed.

(** 3D data (complete, or 3D sections of a field with more than three dimensions): point q of axis a is where the mesh has it, arrays
    have the declared lengths and attributes the shape of the data of the group. *)
Theorem C62_geometry_3d : forall order groups periodic ds files t times grids,
  xdmf order 3 groups periodic ds = Some files -> In (t, (times, grids)) files ->
  (forall d, In d ds -> well_formed 3 groups d /\ not_plane (groups (d_group d)) (d_tag d)) ->
  exists d, In d ds /\ d_tag d = t /\ first_time ds (d_time d) /\
  forall gr, In gr grids -> let g := groups (d_group d) in
    gr_dims gr = d_shape d /\ (forall x, In x (gr_attrs gr) -> snd x = d_shape d)
    /\ (forall a q, (a < 3)%nat -> grid_point order g gr a q = coordinate g periodic (nth a (axes g t) 0%nat) q) /\ lengths_agree order gr.
Proof.
  intros * E HI WF.
  destruct (file_geo order 3 groups periodic ds files t times grids (fun p => p = periodic) E HI) as (d & per0 & Hd & Et & F & -> & HG); auto.
  { intros d per0 Hd ->. unfold describe. destruct (match d_tag d with None => _ | Some _ => _ end) as [[[ii kk] sl] N]. cbn [Nat.eqb andb].
    destruct (g_domain _); reflexivity. }
  exists d. split; [exact Hd|]. split; [exact Et|]. split; [exact F|]. intros gr Hg g. destruct (HG gr Hg) as (A & B & C). destruct (WF d Hd) as [W NP].
  destruct (describe_3d order groups d periodic gr W NP A B) as (D1 & D2 & D3).
  repeat split; auto; [intros x Hx; rewrite (C x Hx), <- A; exact D1 | rewrite <- Et; exact D2].
Qed.

(** every slice of the HDF5 file leaves the periodicity alone: no planes of 3D fields, or all axes periodic, or meshes stored as arrays *)
Definition keeps_periodic (groups : nat -> group) (periodic : nat -> nat) (ds : list dset) : Prop :=
  (forall a, periodic a = 0%nat) \/ forall d, In d ds -> not_plane (groups (d_group d)) (d_tag d) \/ g_domain (groups (d_group d)) = false.
Lemma keeps_ok order groups periodic ds d per0 : keeps_periodic groups periodic ds -> In d ds -> (forall a, per0 a = periodic a) ->
  forall a, snd (describe order 2 (groups (d_group d)) (d_tag d) (d_shape d) per0) a = periodic a.
Proof.
  intros K Hd HP a.
  assert (KK : (forall a, periodic a = 0%nat) \/ not_plane (groups (d_group d)) (d_tag d) \/ g_domain (groups (d_group d)) = false) by (destruct K; auto).
  unfold describe. destruct (match d_tag d with None => (seq 0 2, _, _, _) | Some _ => _ end) as [[[ii kk] sl] N] eqn:EM. cbn [Nat.eqb andb].
  destruct (g_domain (groups (d_group d))) eqn:GD.
  - destruct (match d_tag d with None => true | Some _ => _ end) eqn:FL; [apply HP|].
    cbn [snd]. unfold upd. destruct KK as [Z|[NP|X]]; [|exfalso|discriminate].
    + destruct (Nat.eqb a kk); [rewrite Z; reflexivity | apply HP].
    + unfold not_plane in NP. destruct (d_tag d); [apply Nat.ltb_ge in FL; lia | discriminate].
  - destruct (match d_tag d with None => true | Some _ => _ end); apply HP.
Qed.

(** 2D data (complete, or 2D sections of a field with more than three dimensions), as above, in the order Paraview wants, or with the
    mesh stored as arrays, or with as many points along both axes (missing: see C62_visit_refuted). *)
Theorem C62_geometry_2d_partial : forall order groups periodic ds files t times grids,
  xdmf order 2 groups periodic ds = Some files -> In (t, (times, grids)) files ->
  keeps_periodic groups periodic ds ->
  (forall d, In d ds -> d_tag d = t -> well_formed 2 groups d /\ not_plane (groups (d_group d)) t
     /\ (order = Paraview \/ g_domain (groups (d_group d)) = false \/ nth 0 (d_shape d) 0%nat = nth 1 (d_shape d) 0%nat)) ->
  exists d, In d ds /\ d_tag d = t /\ first_time ds (d_time d) /\
  forall gr, In gr grids -> let g := groups (d_group d) in
    gr_dims gr = d_shape d /\ (forall x, In x (gr_attrs gr) -> snd x = d_shape d)
    /\ (forall a q, (a < 2)%nat -> grid_point order g gr a q = coordinate g periodic (nth a (axes g t) 0%nat) q) /\ lengths_agree order gr.
Proof.
  intros * E HI K WF.
  destruct (file_geo order 2 groups periodic ds files t times grids (fun p => forall a, p a = periodic a) E HI) as (d & per0 & Hd & Et & F & HP & HG); auto.
  { intros d per0 Hd HP. apply (keeps_ok order groups periodic ds d per0 K Hd HP). }
  exists d. split; [exact Hd|]. split; [exact Et|]. split; [exact F|]. intros gr Hg g. destruct (HG gr Hg) as (A & B & C). destruct (WF d Hd Et) as (W & NP & O).
  rewrite <- Et in NP.
  destruct (describe_2d order groups d per0 gr W NP O A B) as (D1 & D2 & D3).
  repeat split; auto; [intros x Hx; rewrite (C x Hx), <- A; exact D1|].
  rewrite <- Et. intros a q Ha. fold g in D2. rewrite D2 by exact Ha. unfold coordinate. rewrite HP; reflexivity.
Qed.

(** In the default order ('visit') with the domain given by origin and length, the spacings of the two axes are computed with each
    other's number of points: for a complete periodic 2D field with n0 <> n1 points the position of point 1 of axis 0 is wrong. *)
Theorem C62_visit_refuted : forall (g : group) (n0 n1 id time : nat),
  g_domain g = true -> g_shape g = [n0; n1] -> n0 <> n1 -> (0 < n0)%nat -> (0 < n1)%nat -> snd (g_dom g 0) <> 0 ->
  exists gr, xdmf Visit 2 (fun _ => g) (fun _ => 0%nat) [mkD id 0 None time [n0; n1]] = Some [(None, ([time], [gr]))]
  /\ grid_point Visit g gr 0 1 <> coordinate g (fun _ => 0%nat) 0 1.
Proof.
  intros g n0 n1 id time GD GS NE P0 P1 NL.
  exists (mkGrid (Origin [fst (g_dom g 1); fst (g_dom g 0)] [snd (g_dom g 1) / (INR n0 - INR 0); snd (g_dom g 0) / (INR n1 - INR 0)]) [n0; n1] [(id, [n0; n1])]).
  split.
  - assert (ET : timesteps [mkD id 0 None time [n0; n1]] = [time]) by reflexivity.
    unfold xdmf, grids_of. rewrite ET. unfold with_tag, at_time; cbn -[INR]. rewrite Nat.eqb_refl; cbn -[INR].
    unfold describe; cbn -[INR]. rewrite GD; cbn -[INR]. reflexivity.
  - unfold grid_point, entry, coordinate; rewrite GD, GS; cbn -[INR].
    change (INR 0) with 0. change (INR 1) with 1. rewrite !Rminus_0_r. intros H.
    assert (X0 : INR n0 <> 0) by (apply not_0_INR; lia). assert (X1 : INR n1 <> 0) by (apply not_0_INR; lia).
    assert (H' : snd (g_dom g 0) / INR n1 = snd (g_dom g 0) / INR n0) by (unfold Rdiv in *; lra).
    apply NE, INR_eq. unfold Rdiv in H'. apply Rmult_eq_reg_l in H'; [|exact NL].
    apply (f_equal Rinv) in H'. rewrite !Rinv_inv in H'. symmetry; exact H'.
Qed.

Lemma plane_per order g k s shape per a : length (g_shape g) = 3%nat -> (k < 3)%nat -> a <> k -> snd (describe order 2 g (plane k s) shape per) a = per a.
Proof.
  intros LS Hk NE. unfold describe, plane. rewrite LS.
  destruct k as [|[|[|k]]]; [| | |lia]; cbn; destruct (g_domain g); cbn; unfold upd; try reflexivity;
  (match goal with |- (if Nat.eqb ?a ?b then _ else _) = _ => destruct (Nat.eqb_spec a b); [congruence|reflexivity] end).
Qed.

(** Planes of 3D fields, all across the same axis k (or all axes periodic): points of the plane are where the mesh has them, and the
    plane itself is at origin + s*length/M (resp. at the mesh point s), which is the position of point s of axis k if that axis is
    periodic (missing: see the two refutations below). *)
Theorem C62_plane_partial : forall order groups periodic ds files times grids k s,
  xdmf order 2 groups periodic ds = Some files -> In (plane k s, (times, grids)) files -> (k < 3)%nat ->
  (forall d, In d ds -> well_formed 2 groups d /\ length (g_shape (groups (d_group d))) = 3%nat /\ exists s', d_tag d = plane k s') ->
  exists d, In d ds /\ d_tag d = plane k s /\ first_time ds (d_time d) /\
  forall gr, In gr grids -> let g := groups (d_group d) in
    gr_dims gr = map (fun a => if Nat.eqb a k then 1%nat else nth a (g_shape g) 0%nat) (seq 0 3)
    /\ (forall x, In x (gr_attrs gr) -> snd x = gr_dims gr)
    /\ (forall a q, (a < 3)%nat -> a <> k -> grid_point order g gr a q = coordinate g periodic a q)
    /\ grid_point order g gr k 0 = coordinate g (fun _ => 0%nat) k s
    /\ (periodic k = 0%nat \/ s = 0%nat \/ g_domain g = false -> grid_point order g gr k 0 = coordinate g periodic k s)
    /\ lengths_agree order gr.
Proof.
  intros * E HI Hk WF.
  destruct (file_geo order 2 groups periodic ds files (plane k s) times grids (fun p => forall a, a <> k -> p a = periodic a) E HI) as (d & per0 & Hd & Et & F & HP & HG); auto.
  { intros d per0 Hd HP a NE. destruct (WF d Hd) as (_ & LS & s' & ->). rewrite plane_per; auto. }
  exists d. split; [exact Hd|]. split; [exact Et|]. split; [exact F|]. intros gr Hg g. destruct (HG gr Hg) as (A & B & C). destruct (WF d Hd) as (W & LS & _).
  destruct (describe_plane order groups d per0 gr k s Hk Et LS W A B) as (D1 & D2 & D3 & D4).
  fold g in D1, D2, D3, D4.
  assert (X : grid_point order g gr k 0 = coordinate g (fun _ => 0%nat) k s).
  { rewrite D3; unfold coordinate. destruct (g_domain g); [|reflexivity]. change (INR 0) with 0. rewrite Rminus_0_r; reflexivity. }
  split; [exact D1|]. split; [intros x Hx; rewrite (C x Hx), <- A; reflexivity|]. split.
  { intros a q Ha NE. rewrite D2 by assumption. unfold coordinate; rewrite HP by assumption; reflexivity. }
  split; [exact X|]. split; [|exact D4].
  intros [P0|[->|P0]]; rewrite X; unfold coordinate.
  - rewrite P0; reflexivity.
  - destruct (g_domain g); [|reflexivity]. change (INR 0) with 0. unfold Rdiv; ring.
  - rewrite P0; reflexivity.
Qed.

(** A plane across an axis that is not periodic is shown at the wrong place unless it is the first one. *)
Theorem C62_plane_position_refuted : forall order (g : group) (m0 m1 m2 s id time : nat),
  g_domain g = true -> g_shape g = [m0; m1; m2] -> (2 <= m0)%nat -> (0 < s)%nat -> snd (g_dom g 0) <> 0 ->
  exists gr, xdmf order 2 (fun _ => g) (fun _ => 1%nat) [mkD id 0 (plane 0 s) time [m1; m2]] = Some [(plane 0 s, ([time], [gr]))]
  /\ grid_point order g gr 0 0 <> coordinate g (fun _ => 1%nat) 0 s.
Proof.
  intros order g m0 m1 m2 s id time GD GS M0 S0 NL.
  set (p := fst (g_dom g 0) + snd (g_dom g 0) / (INR m0 - INR 0) * INR s).
  exists (mkGrid (Origin [p; fst (g_dom g 1); fst (g_dom g 2)] [p; snd (g_dom g 1) / (INR m1 - INR 1); snd (g_dom g 2) / (INR m2 - INR 1)]) [1%nat; m1; m2] [(id, [1%nat; m1; m2])]).
  split.
  - assert (ET : timesteps [mkD id 0 (plane 0 s) time [m1; m2]] = [time]) by reflexivity.
    unfold xdmf, grids_of. rewrite ET. unfold with_tag, at_time, plane; cbn -[INR]. rewrite Nat.eqb_refl; cbn -[INR].
    unfold describe; rewrite GS; cbn -[INR].
    rewrite GD; cbn -[INR]. rewrite ?Nat.eqb_refl; cbn -[INR]. rewrite ?Nat.eqb_refl; cbn -[INR]. try (rewrite GS; cbn -[INR]); reflexivity.
  - unfold grid_point, entry, coordinate; rewrite GD, GS; cbn -[INR p]. unfold p.
    change (INR 0) with 0. change (INR 1) with 1. rewrite !Rminus_0_r, Rmult_0_l, Rplus_0_r. intros H.
    assert (2 <= INR m0) by (replace 2 with (INR 2) by (cbn; lra); apply le_INR; exact M0).
    assert (INR s <> 0) by (apply not_0_INR; lia).
    assert (H' : (snd (g_dom g 0) * INR s) * / INR m0 = (snd (g_dom g 0) * INR s) * / (INR m0 - 1)) by (unfold Rdiv in *; lra).
    apply Rmult_eq_reg_l in H'; [|apply Rmult_integral_contrapositive_currified; assumption].
    apply (f_equal Rinv) in H'. rewrite !Rinv_inv in H'. lra.
Qed.
(** With planes across different axes of a field that is not periodic, every plane after the first one gets the spacing of a periodic
    axis along the axes of earlier planes. *)
Theorem C62_plane_spacing_refuted : forall order (g : group) (m0 m1 m2 s s' time : nat),
  g_domain g = true -> g_shape g = [m0; m1; m2] -> (2 <= m0)%nat -> snd (g_dom g 0) <> 0 ->
  exists gr1 gr2, xdmf order 2 (fun _ => g) (fun _ => 1%nat) [mkD 0 0 (plane 0 s) time [m1; m2]; mkD 1 0 (plane 1 s') time [m0; m2]]
    = Some [(plane 0 s, ([time], [gr1])); (plane 1 s', ([time], [gr2]))]
  /\ grid_point order g gr2 0 1 <> coordinate g (fun _ => 1%nat) 0 1.
Proof.
  intros order g m0 m1 m2 s s' time GD GS M0 NL.
  set (p := fst (g_dom g 0) + snd (g_dom g 0) / (INR m0 - INR 0) * INR s).
  set (p' := fst (g_dom g 1) + snd (g_dom g 1) / (INR m1 - INR 0) * INR s').
  exists (mkGrid (Origin [p; fst (g_dom g 1); fst (g_dom g 2)] [p; snd (g_dom g 1) / (INR m1 - INR 1); snd (g_dom g 2) / (INR m2 - INR 1)]) [1%nat; m1; m2] [(0%nat, [1%nat; m1; m2])]).
  exists (mkGrid (Origin [fst (g_dom g 0); p'; fst (g_dom g 2)] [snd (g_dom g 0) / (INR m0 - INR 0); p'; snd (g_dom g 2) / (INR m2 - INR 1)]) [m0; 1%nat; m2] [(1%nat, [m0; 1%nat; m2])]).
  split.
  - assert (ET : timesteps [mkD 0 0 (plane 0 s) time [m1; m2]; mkD 1 0 (plane 1 s') time [m0; m2]] = [time]).
    { unfold timesteps. cbn [map d_time nodup]. destruct (in_dec Nat.eq_dec time [time]) as [H|H]; [reflexivity | exfalso; apply H; left; reflexivity]. }
    unfold xdmf, grids_of. rewrite ET. unfold with_tag, at_time, plane; cbn -[INR]. rewrite Nat.eqb_refl; cbn -[INR].
    unfold describe; rewrite GS; cbn -[INR].
    rewrite GD; cbn -[INR]. rewrite ?Nat.eqb_refl; cbn -[INR]. rewrite ?Nat.eqb_refl; cbn -[INR]. try (rewrite GS; cbn -[INR]); reflexivity.
  - unfold grid_point, entry, coordinate; rewrite GD, GS; cbn -[INR p p'].
    change (INR 0) with 0. change (INR 1) with 1. rewrite !Rminus_0_r, Rmult_1_l, Rmult_1_r. intros H.
    assert (2 <= INR m0) by (replace 2 with (INR 2) by (cbn; lra); apply le_INR; exact M0).
    assert (H' : snd (g_dom g 0) * / INR m0 = snd (g_dom g 0) * / (INR m0 - 1)) by (unfold Rdiv in *; lra).
    apply Rmult_eq_reg_l in H'; [|exact NL].
    apply (f_equal Rinv) in H'. rewrite !Rinv_inv in H'. lra.
Qed.

(** ** non-vacuity *)
Definition ex_g : group := mkG true (fun _ => (0, 4)) (fun _ _ => 0) [4%nat; 5%nat; 6%nat].
Definition ex_m : group := mkG false (fun _ => (0, 0)) (fun a q => INR (a + q)) [4%nat; 5%nat; 6%nat].
Example C62_3d_files : exists f1 f2, xdmf Visit 3 (fun i => if Nat.eqb i 0 then ex_g else ex_m) (fun _ => 1%nat)
    [mkD 0 0 None 7 [4;5;6]%nat; mkD 1 0 None 3 [4;5;6]%nat; mkD 2 1 None 3 [4;5;6]%nat] = Some [(None, ([3;7]%nat, [f1; f2]))]
  /\ shown f1 = [1;2]%nat /\ shown f2 = [0]%nat.
Proof. do 2 eexists; repeat split. Qed.
Example C62_3d_wf : forall d, In d [mkD 0 0 None 7 [4;5;6]%nat; mkD 1 0 None 3 [4;5;6]%nat; mkD 2 1 None 3 [4;5;6]%nat] ->
  well_formed 3 (fun i => if Nat.eqb i 0 then ex_g else ex_m) d /\ not_plane ((fun i => if Nat.eqb i 0 then ex_g else ex_m) (d_group d)) (d_tag d).
Proof. intros d [<-|[<-|[<-|[]]]]; repeat split. Qed.
Example C62_plane_ok : exists f, xdmf Paraview 2 (fun _ => ex_m) (fun _ => 0%nat) [mkD 0 0 (plane 1 2) 3 [4;6]%nat] = Some [(plane 1 2, ([3]%nat, [f]))]
  /\ well_formed 2 (fun _ => ex_m) (mkD 0 0 (plane 1 2) 3 [4;6]%nat).
Proof. eexists; repeat split. Qed.
Definition ex_4 : group := mkG true (fun _ => (0, 4)) (fun _ _ => 0) [4%nat; 5%nat; 6%nat; 8%nat].
Example C62_gap : exists f1 f2 f3 f4, let sl := Some [None; None; None; Some 1%nat] in
  xdmf Visit 3 (fun i => if Nat.eqb i 0 then ex_g else ex_4) (fun _ => 0%nat)
    [mkD 0 0 None 0 [4;5;6]%nat; mkD 1 0 None 2 [4;5;6]%nat; mkD 2 1 sl 0 [4;5;6]%nat; mkD 3 1 sl 1 [4;5;6]%nat]
  = Some [(None, ([0;1;2]%nat, [f1; f2])); (sl, ([0;1;2]%nat, [f3; f4]))]
  /\ shown f2 = [1]%nat /\ shown f4 = [3]%nat /\ well_formed 3 (fun i => if Nat.eqb i 0 then ex_g else ex_4) (mkD 2 1 sl 0 [4;5;6]%nat).
Proof. do 4 eexists; repeat split. Qed.

Print Assumptions C62_files.
Print Assumptions C62_grids.
Print Assumptions C62_time_partial.
Print Assumptions C62_time_refuted.
Print Assumptions C62_geometry_3d.
Print Assumptions C62_geometry_2d_partial.
Print Assumptions C62_visit_refuted.
Print Assumptions C62_plane_partial.
Print Assumptions C62_plane_position_refuted.
Print Assumptions C62_plane_spacing_refuted.
