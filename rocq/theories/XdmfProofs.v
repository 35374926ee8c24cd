From Coq Require Import Reals List Arith Bool Sorted Lia Lra.
From Verif Require Import Base XdmfModel XdmfSpec.
Import ListNotations.
Local Open Scope R_scope.

Lemma comp_eqb_eq a b : comp_eqb a b = true <-> a = b.
Proof. destruct a, b; cbn; try rewrite Nat.eqb_eq; split; intros; try congruence. Qed.
Lemma comps_eqb_eq a : forall b, comps_eqb a b = true <-> a = b.
Proof.
  induction a as [|x a IH]; intros [|y b]; cbn; try (split; congruence).
  rewrite andb_true_iff, comp_eqb_eq, IH; split; [intros [-> ->]; reflexivity | intros E; injection E; auto].
Qed.
Lemma tag_eqb_eq a b : tag_eqb a b = true <-> a = b.
Proof. destruct a, b; cbn; try rewrite comps_eqb_eq; split; intros; try congruence. Qed.
Lemma tag_eqb_refl a : tag_eqb a a = true. Proof. apply tag_eqb_eq; reflexivity. Qed.

(** ** times *)
Lemma ins_in n l x : In x (ins n l) <-> x = n \/ In x l.
Proof. induction l as [|m l IH]; cbn; [intuition congruence|]. destruct (Nat.leb n m); cbn; rewrite ?IH; intuition. Qed.
Lemma isort_in l x : In x (isort l) <-> In x l.
Proof. induction l as [|m l IH]; cbn; [tauto|]. rewrite ins_in, IH; intuition. Qed.
Lemma ins_sorted n l : ~ In n l -> StronglySorted lt l -> StronglySorted lt (ins n l).
Proof.
  induction l as [|m l IH]; cbn; intros NI HS; [constructor; [constructor|constructor]|].
  inversion HS as [|? ? HS' HF]; subst.
  destruct (Nat.leb n m) eqn:E.
  - apply Nat.leb_le in E; assert (n < m)%nat by (assert (m <> n) by tauto; lia).
    constructor; [exact HS|]. constructor; [assumption|].
    rewrite Forall_forall in *; intros y Hy; specialize (HF y Hy); lia.
  - apply Nat.leb_gt in E. constructor; [apply IH; tauto|].
    rewrite Forall_forall in *; intros y Hy; apply ins_in in Hy; destruct Hy as [->|Hy]; [lia|auto].
Qed.
Lemma isort_sorted l : NoDup l -> StronglySorted lt (isort l).
Proof.
  induction 1 as [|m l NI ND IH]; cbn; [constructor|].
  apply ins_sorted; [rewrite isort_in; exact NI | exact IH].
Qed.
Lemma timesteps_in ds tau : In tau (timesteps ds) <-> exists d, In d ds /\ d_time d = tau.
Proof.
  unfold timesteps. rewrite isort_in, nodup_In, in_map_iff. split; intros (d & A & B); exists d; auto.
Qed.
Lemma timesteps_sorted ds : StronglySorted lt (timesteps ds).
Proof. apply isort_sorted, NoDup_nodup. Qed.
Lemma timesteps_first ds t0 r : timesteps ds = t0 :: r -> first_time ds t0.
Proof.
  intros E; split.
  - apply timesteps_in; rewrite E; left; reflexivity.
  - intros d Hd. assert (H : In (d_time d) (timesteps ds)) by (apply timesteps_in; exists d; auto).
    pose proof (timesteps_sorted ds) as S0; rewrite E in *.
    inversion S0 as [|? ? _ HF]; subst; destruct H as [<-|H]; [lia|].
    rewrite Forall_forall in HF; specialize (HF _ H); lia.
Qed.
Lemma first_unique ds a b : first_time ds a -> first_time ds b -> a = b.
Proof. intros [(d & Hd & <-) A] [(e & He & <-) B]. specialize (A e He); specialize (B d Hd); lia. Qed.
Lemma timesteps_nil ds : timesteps ds = [] -> ds = [].
Proof.
  intros E; destruct ds as [|d ds]; [reflexivity|].
  assert (H : In (d_time d) (timesteps (d :: ds))) by (apply timesteps_in; exists d; split; [left|]; reflexivity).
  rewrite E in H; destruct H.
Qed.
Lemma at_time_in tau ds d : In d (at_time tau ds) <-> In d ds /\ d_time d = tau.
Proof. unfold at_time; rewrite filter_In, Nat.eqb_eq; tauto. Qed.

(** ** the table *)
Lemma lookup_none t T : lookup t T = None <-> ~ In t (map fst T).
Proof.
  induction T as [|[s v] T IH]; cbn; [tauto|].
  destruct (tag_eqb t s) eqn:E.
  - apply tag_eqb_eq in E; subst; split; [congruence | intros H; exfalso; apply H; auto].
  - rewrite IH. split; [intros H [<-|H']; [rewrite tag_eqb_refl in E; congruence | auto] | tauto].
Qed.
Lemma first_pass_tags order ndim groups ds : forall T per,
  NoDup (map fst T) ->
  NoDup (map fst (first_pass order ndim groups ds T per))
  /\ forall t, In t (map fst (first_pass order ndim groups ds T per)) <-> In t (map fst T) \/ exists d, In d ds /\ d_tag d = t.
Proof.
  induction ds as [|d ds IH]; intros T per ND; cbn [first_pass].
  - split; [exact ND|]. intros t; split; [auto | intros [H|(d & [] & _)]; auto].
  - destruct (lookup (d_tag d) T) eqn:E.
    + destruct (IH T per ND) as [A B]; split; [exact A|]. intros t; rewrite B; split.
      * intros [H|(e & He & <-)]; [auto | right; exists e; split; [right|]; auto].
      * intros [H|(e & [->|He] & <-)]; [auto | left | right; exists e; auto].
        destruct (in_dec (fun a b => match bool_dec (tag_eqb a b) true with left H => left (proj1 (tag_eqb_eq a b) H) | right H => right (fun K => H (proj2 (tag_eqb_eq a b) K)) end) (d_tag e) (map fst T)) as [H|H]; [exact H|].
        apply lookup_none in H; congruence.
    + apply lookup_none in E.
      destruct (describe order ndim (groups (d_group d)) (d_tag d) (d_shape d) per) as [[N geo] per'].
      assert (ND' : NoDup (map fst (T ++ [(d_tag d, (N, geo))]))).
      { rewrite map_app; cbn. apply NoDup_Add with (a := d_tag d) (l := map fst T); [|split; assumption].
        replace (map fst T) with (map fst T ++ []) at 1 by apply app_nil_r. apply Add_app. }
      destruct (IH _ per' ND') as [A B]; split; [exact A|]. intros t; rewrite B, map_app, in_app_iff; cbn; split.
      * intros [[H|[H|[]]]|(e & He & <-)]; [auto | right; exists d; auto | right; exists e; auto].
      * intros [H|(e & [->|He] & <-)]; [auto | auto | right; exists e; auto].
Qed.
(** every entry was described from a dataset with its name, with a [per] satisfying any property the descriptions keep *)
Lemma first_pass_entry order ndim groups (P : (nat -> nat) -> Prop) (Q : dset -> Prop) ds : forall T per,
  (forall d per0, In d ds -> P per0 -> P (snd (describe order ndim (groups (d_group d)) (d_tag d) (d_shape d) per0))) ->
  P per ->
  (forall e, In e T -> exists d per0, Q d /\ d_tag d = fst e /\ P per0 /\ fst (describe order ndim (groups (d_group d)) (d_tag d) (d_shape d) per0) = snd e) ->
  (forall d, In d ds -> Q d) ->
  forall e, In e (first_pass order ndim groups ds T per) -> exists d per0, Q d /\ d_tag d = fst e /\ P per0 /\ fst (describe order ndim (groups (d_group d)) (d_tag d) (d_shape d) per0) = snd e.
Proof.
  induction ds as [|d ds IH]; intros T per HP P0 HT HQ e; cbn [first_pass]; [apply HT|].
  destruct (lookup (d_tag d) T).
  - apply IH; auto. intros; apply HP; [right|]; auto. intros; apply HQ; right; auto.
  - pose proof (HP d per (or_introl eq_refl) P0) as P1.
    destruct (describe order ndim (groups (d_group d)) (d_tag d) (d_shape d) per) as [[N geo] per'] eqn:E.
    apply IH; auto.
    + intros; apply HP; [right|]; auto.
    + intros e0 He; apply in_app_iff in He; destruct He as [He|[<-|[]]]; [auto|].
      exists d, per; repeat split; auto; [apply HQ; left; reflexivity | rewrite E; reflexivity].
    + intros; apply HQ; right; auto.
Qed.

Lemma xdmf_inv order ndim groups per ds files : xdmf order ndim groups per ds = Some files -> ds <> [] ->
  exists t0 r, timesteps ds = t0 :: r /\
  files = map (fun e => (fst e, (timesteps ds, grids_of (fst e) (fst (snd e)) (snd (snd e)) ds))) (first_pass order ndim groups (at_time t0 ds) [] per).
Proof.
  unfold xdmf; intros E NE. destruct (timesteps ds) as [|t0 r] eqn:ET; [apply timesteps_nil in ET; congruence|].
  exists t0, r; split; [reflexivity|].
  destruct (forallb _ _); [|discriminate]. congruence.
Qed.
Lemma xdmf_nil order ndim groups per files : xdmf order ndim groups per [] = Some files -> files = [].
Proof. cbn; congruence. Qed.

(** ** files *)
Lemma files_tags order ndim groups per ds files : xdmf order ndim groups per ds = Some files ->
  NoDup (map fst files) /\ forall t, In t (map fst files) <-> exists d, In d ds /\ first_time ds (d_time d) /\ d_tag d = t.
Proof.
  intros E. destruct ds as [|d0 ds0] eqn:ED.
  - apply xdmf_nil in E; subst files; cbn; split; [constructor|]. intros t; split; [intros []|intros (d & [] & _)].
  - rewrite <- ED in *. assert (NE : ds <> []) by (rewrite ED; discriminate).
    destruct (xdmf_inv _ _ _ _ _ _ E NE) as (t0 & r & ET & ->).
    rewrite map_map; cbn [fst].
    destruct (first_pass_tags order ndim groups (at_time t0 ds) [] per (NoDup_nil _)) as [A B].
    split; [exact A|]. intros t; change (map (fun x => fst x) ?l) with (map fst l); rewrite B.
    pose proof (timesteps_first ds t0 r ET) as F.
    split.
    + intros [[]|(d & Hd & <-)]. apply at_time_in in Hd; destruct Hd as [Hd <-]. exists d; auto.
    + intros (d & Hd & Fd & <-). right; exists d; split; [|reflexivity]. apply at_time_in; split; [exact Hd|]. eapply first_unique; eauto.
Qed.
Lemma files_none order ndim groups per ds : xdmf order ndim groups per ds = None <->
  exists d, In d ds /\ forall e, In e ds -> first_time ds (d_time e) -> d_tag e <> d_tag d.
Proof.
  unfold xdmf. destruct (timesteps ds) as [|t0 r] eqn:ET.
  - apply timesteps_nil in ET; subst; split; [discriminate | intros (d & [] & _)].
  - set (T := first_pass order ndim groups (at_time t0 ds) [] per).
    assert (HT : forall t, In t (map fst T) <-> exists e, In e ds /\ first_time ds (d_time e) /\ d_tag e = t).
    { intros t. unfold T. destruct (first_pass_tags order ndim groups (at_time t0 ds) [] per (NoDup_nil _)) as [_ B]. rewrite B.
      pose proof (timesteps_first ds t0 r ET) as F. split.
      - intros [[]|(d & Hd & <-)]. apply at_time_in in Hd; destruct Hd as [Hd <-]. exists d; auto.
      - intros (d & Hd & Fd & <-). right; exists d; split; [|reflexivity]. apply at_time_in; split; [exact Hd|]. eapply first_unique; eauto. }
    destruct (forallb _ ds) eqn:EF.
    + split; [discriminate|]. intros (d & Hd & Hn). exfalso.
      rewrite forallb_forall in EF; specialize (EF d Hd).
      destruct (lookup (d_tag d) T) eqn:EL; [|discriminate].
      assert (K : In (d_tag d) (map fst T)).
      { destruct (in_dec (fun a b => match bool_dec (tag_eqb a b) true with left H => left (proj1 (tag_eqb_eq a b) H) | right H => right (fun K => H (proj2 (tag_eqb_eq a b) K)) end) (d_tag d) (map fst T)) as [H|H]; [exact H|].
        apply lookup_none in H; congruence. }
      apply HT in K; destruct K as (e & He & Fe & Ee). exact (Hn e He Fe Ee).
    + split; [intros _|reflexivity].
      assert (K : exists d, In d ds /\ lookup (d_tag d) T = None).
      { clear HT. revert EF; generalize ds as l; induction l as [|d l IH]; cbn; [discriminate|].
        destruct (lookup (d_tag d) T) eqn:EL; cbn; intros EF; [destruct (IH EF) as (e & He & Ee); exists e; auto | exists d; auto]. }
      destruct K as (d & Hd & Ed); exists d; split; [exact Hd|]. intros e He Fe Ee.
      apply lookup_none in Ed; apply Ed, HT. exists e; auto.
Qed.

(** ** grids *)
Lemma with_stored t tau ds : map d_id (with_tag t (at_time tau ds)) = stored t ds tau.
Proof.
  unfold with_tag, at_time, stored. induction ds as [|d ds IH]; cbn; [reflexivity|].
  destruct (Nat.eqb (d_time d) tau); cbn; [|exact IH]. destruct (tag_eqb t (d_tag d)); cbn; rewrite IH; reflexivity.
Qed.
Lemma grids_shown t N geo ds : map shown (grids_of t N geo ds) = filter non_empty (map (stored t ds) (timesteps ds)).
Proof.
  unfold grids_of. match goal with |- context [flat_map ?f _] => set (F := f) end.
  induction (timesteps ds) as [|tau r IH]; [reflexivity|].
  cbn [flat_map map filter]. rewrite map_app, IH, <- with_stored. unfold F.
  destruct (with_tag t (at_time tau ds)) as [|d l]; [reflexivity|].
  cbn [map non_empty app]. unfold shown; cbn [gr_attrs map fst]. rewrite map_map; reflexivity.
Qed.
Lemma grids_geo t N geo ds g : In g (grids_of t N geo ds) -> gr_geo g = geo /\ gr_dims g = N /\ forall a, In a (gr_attrs g) -> snd a = N.
Proof.
  unfold grids_of; intros H; apply in_flat_map in H; destruct H as (tau & _ & H).
  destruct (with_tag t (at_time tau ds)) as [|d l]; [destruct H|].
  destruct H as [<-|[]]; cbn; repeat split.
  intros a [<-|Ha]; [reflexivity|]. apply in_map_iff in Ha; destruct Ha as (x & <- & _); reflexivity.
Qed.
Lemma file_in order ndim groups per ds files t times grids : xdmf order ndim groups per ds = Some files -> In (t, (times, grids)) files ->
  times = timesteps ds /\ exists N geo t0, first_time ds t0 /\ In (t, (N, geo)) (first_pass order ndim groups (at_time t0 ds) [] per) /\ grids = grids_of t N geo ds.
Proof.
  intros E H. destruct ds as [|d0 ds0] eqn:ED; [apply xdmf_nil in E; subst files; destruct H|].
  rewrite <- ED in *. assert (NE : ds <> []) by (rewrite ED; discriminate).
  destruct (xdmf_inv _ _ _ _ _ _ E NE) as (t0 & r & ET & ->).
  apply in_map_iff in H; destruct H as ([t' [N geo]] & Eq & H); cbn in Eq. injection Eq as <- <- <-.
  split; [reflexivity|]. exists N, geo, t0; repeat split; auto; apply (timesteps_first ds t0 r ET).
Qed.
Lemma file_geo order ndim groups per ds files t times grids (P : (nat -> nat) -> Prop) :
  xdmf order ndim groups per ds = Some files -> In (t, (times, grids)) files ->
  (forall d per0, In d ds -> P per0 -> P (snd (describe order ndim (groups (d_group d)) (d_tag d) (d_shape d) per0))) -> P per ->
  exists d per0, In d ds /\ d_tag d = t /\ first_time ds (d_time d) /\ P per0 /\
  forall gr, In gr grids -> let D := fst (describe order ndim (groups (d_group d)) (d_tag d) (d_shape d) per0) in
    gr_dims gr = fst D /\ gr_geo gr = snd D /\ forall a, In a (gr_attrs gr) -> snd a = fst D.
Proof.
  intros E H HP P0. destruct (file_in _ _ _ _ _ _ _ _ _ E H) as (_ & N & geo & t0 & F & HI & ->).
  destruct (first_pass_entry order ndim groups P (fun d => In d ds /\ d_time d = t0) (at_time t0 ds) [] per) with (e := (t, (N, geo))) as (d & per0 & [Hd Ht] & Et & Hp & ED); auto.
  - intros d per0 Hd; apply HP; apply at_time_in in Hd; tauto.
  - intros e [].
  - intros d Hd; apply at_time_in in Hd; tauto.
  - exists d, per0. split; [exact Hd|]. split; [exact Et|]. split; [rewrite Ht; exact F|]. split; [exact Hp|].
    intros gr Hg. cbn zeta. cbn in ED. rewrite ED. apply grids_geo in Hg; destruct Hg as (A & B & C). repeat split; auto.
Qed.

(** ** geometry *)
Lemma scan_false ss : forall i ii kk sl N, scan false i ss ii kk sl N = (ii ++ free_axes i ss, kk, sl, N).
Proof.
  induction ss as [|[s|] ss IH]; intros i ii kk sl N; cbn; [rewrite app_nil_r; reflexivity | apply IH |].
  rewrite IH, <- app_assoc; reflexivity.
Qed.
Lemma list3 (l : list nat) : length l = 3%nat -> exists a b c, l = [a; b; c].
Proof. destruct l as [|a [|b [|c [|? ?]]]]; cbn; intros; try discriminate. eauto. Qed.
Lemma list2 (l : list nat) : length l = 2%nat -> exists a b, l = [a; b].
Proof. destruct l as [|a [|b [|? ?]]]; cbn; intros; try discriminate. eauto. Qed.
Lemma coord_eq (o L q m : R) : o + q * (L / m) = o + L * q / m.
Proof. unfold Rdiv; ring. Qed.

Definition not_plane (g : group) (t : tag) : Prop := match t with None => True | Some _ => (3 < length (g_shape g))%nat end.
Lemma ii_axes ndim g t shape : length (axes g t) = ndim -> not_plane g t ->
  match t with None => (seq 0 ndim, 0%nat, 0%nat, shape) | Some ss => scan (Nat.eqb (length (g_shape g)) 3) 0 ss [] 0 0 shape end = (axes g t, 0%nat, 0%nat, shape).
Proof.
  destruct t as [ss|]; cbn [axes not_plane]; intros H NP.
  - destruct (Nat.eqb_spec (length (g_shape g)) 3); [lia|]. apply scan_false.
  - rewrite seq_length in H; subst; reflexivity.
Qed.

Lemma describe_3d order groups d per gr :
  let g := groups (d_group d) in
  well_formed 3 groups d -> not_plane g (d_tag d) ->
  gr_dims gr = fst (fst (describe order 3 g (d_tag d) (d_shape d) per)) -> gr_geo gr = snd (fst (describe order 3 g (d_tag d) (d_shape d) per)) ->
  gr_dims gr = d_shape d /\ (forall a q, (a < 3)%nat -> grid_point order g gr a q = coordinate g per (nth a (axes g (d_tag d)) 0%nat) q) /\ lengths_agree order gr.
Proof.
  intros g (L & Sh & _) NP D1 D2. fold g in L, Sh, D1, D2.
  unfold describe in D1, D2. rewrite (ii_axes 3 g _ _ L NP) in D1, D2. cbn [Nat.eqb andb] in D1, D2.
  destruct (list3 _ L) as (x & y & z & EA). rewrite EA in *. cbn [map] in Sh. rewrite Sh in *.
  destruct gr as [geo dims at']; cbn [gr_geo gr_dims] in *.
  unfold grid_point, lengths_agree, entry, coordinate; cbn [gr_geo gr_dims].
  destruct (g_domain g); cbn [fst snd] in D1, D2; subst dims geo; (split; [reflexivity|]); split.
  - intros a q Ha. cbn [length map seq nthn nth]. unfold spacing.
    destruct a as [|[|[|a]]]; [| | |lia]; cbn [nth]; apply coord_eq.
  - exact I.
  - intros a q Ha. destruct a as [|[|[|a]]]; [| | |lia]; reflexivity.
  - cbn [length]; intros a Ha. destruct a as [|[|[|a]]]; [| | |lia]; reflexivity.
Qed.

Lemma describe_2d order groups d per gr :
  let g := groups (d_group d) in
  well_formed 2 groups d -> not_plane g (d_tag d) ->
  (order = Paraview \/ g_domain g = false \/ nth 0 (d_shape d) 0%nat = nth 1 (d_shape d) 0%nat) ->
  gr_dims gr = fst (fst (describe order 2 g (d_tag d) (d_shape d) per)) -> gr_geo gr = snd (fst (describe order 2 g (d_tag d) (d_shape d) per)) ->
  gr_dims gr = d_shape d /\ (forall a q, (a < 2)%nat -> grid_point order g gr a q = coordinate g per (nth a (axes g (d_tag d)) 0%nat) q) /\ lengths_agree order gr.
Proof.
  intros g (L & Sh & _) NP HO D1 D2. fold g in L, Sh, D1, D2, HO.
  assert (FL : (match d_tag d with None => true | Some _ => Nat.ltb 3 (length (g_shape g)) end) = true).
  { destruct (d_tag d); [|reflexivity]. apply Nat.ltb_lt; exact NP. }
  unfold describe in D1, D2. rewrite FL, (ii_axes 2 g _ _ L NP) in D1, D2. cbn [Nat.eqb andb] in D1, D2.
  destruct (list2 _ L) as (x & y & EA). rewrite EA in *. cbn [map] in Sh. rewrite Sh in *. cbn [nth] in HO.
  destruct gr as [geo dims at']; cbn [gr_geo gr_dims] in *.
  unfold grid_point, lengths_agree, entry, coordinate; cbn [gr_geo gr_dims].
  destruct (g_domain g); destruct order; cbn [fst snd] in D1, D2; subst dims geo; (split; [reflexivity|]); split.
  - destruct HO as [HO|[HO|HO]]; [discriminate|discriminate|].
    intros a q Ha. cbn [length map seq nthn nth]. unfold spacing.
    destruct a as [|[|a]]; [| |lia]; cbn [nth Nat.sub]; [rewrite <- HO | rewrite HO]; apply coord_eq.
  - exact I.
  - intros a q Ha. cbn [length map seq nthn nth]. unfold spacing.
    destruct a as [|[|a]]; [| |lia]; cbn [nth Nat.sub]; apply coord_eq.
  - exact I.
  - intros a q Ha. destruct a as [|[|a]]; [| |lia]; reflexivity.
  - cbn [length]; intros a Ha. destruct a as [|[|a]]; [| |lia]; reflexivity.
  - intros a q Ha. destruct a as [|[|a]]; [| |lia]; reflexivity.
  - cbn [length]; intros a Ha. destruct a as [|[|a]]; [| |lia]; reflexivity.
Qed.
Lemma describe_visit g x y o0 o1 t shape per : g_domain g = true -> not_plane g t -> axes g t = [x; y] -> shape = [o0; o1] ->
  fst (describe Visit 2 g t shape per) = (shape, Origin [fst (g_dom g y); fst (g_dom g x)] [snd (g_dom g y) / (INR o0 - INR (per y)); snd (g_dom g x) / (INR o1 - INR (per x))]).
Proof.
  intros GD NP EA ->. assert (L : length (axes g t) = 2%nat) by (rewrite EA; reflexivity).
  assert (FL : (match t with None => true | Some _ => Nat.ltb 3 (length (g_shape g)) end) = true).
  { destruct t; [|reflexivity]. apply Nat.ltb_lt; exact NP. }
  unfold describe. rewrite FL, (ii_axes 2 g _ _ L NP), EA, GD. reflexivity.
Qed.

(** a plane of a 3D field *)
Lemma describe_plane order groups d per gr k s :
  let g := groups (d_group d) in
  (k < 3)%nat -> d_tag d = plane k s -> length (g_shape g) = 3%nat -> well_formed 2 groups d ->
  gr_dims gr = fst (fst (describe order 2 g (d_tag d) (d_shape d) per)) -> gr_geo gr = snd (fst (describe order 2 g (d_tag d) (d_shape d) per)) ->
  gr_dims gr = map (fun a => if Nat.eqb a k then 1%nat else nth a (g_shape g) 0%nat) (seq 0 3)
  /\ (forall a q, (a < 3)%nat -> a <> k -> grid_point order g gr a q = coordinate g per a q)
  /\ grid_point order g gr k 0 = (if g_domain g then fst (g_dom g k) + snd (g_dom g k) * INR s / INR (nth k (g_shape g) 0%nat) else g_mesh g k s)
  /\ lengths_agree order gr.
Proof.
  intros g Hk ET LS (_ & Sh & _) D1 D2. fold g in Sh, D1, D2.
  destruct (list3 _ LS) as (x & y & z & ES).
  unfold describe in D1, D2. rewrite LS in D1, D2. rewrite ET in *.
  destruct gr as [geo dims at']; cbn [gr_geo gr_dims] in *.
  unfold grid_point, lengths_agree, entry, coordinate; cbn [gr_geo gr_dims].
  rewrite ES in *. unfold plane in *.
  destruct k as [|[|[|k]]]; [| | |lia]; cbn in Sh; rewrite Sh in *; cbn in D1, D2;
  destruct (g_domain g); cbn [fst snd] in D1, D2; subst dims geo; (split; [reflexivity|]); (split; [|split]);
  try exact I;
  try (intros a q Ha Hn; destruct a as [|[|[|a]]]; [| | |lia]; try (exfalso; apply Hn; reflexivity); try reflexivity; cbn -[INR]; unfold spacing, upd; cbn -[INR]; apply coord_eq);
  try (cbn [length]; intros a Ha; destruct a as [|[|[|a]]]; [| | |lia]; reflexivity);
  cbn; unfold spacing, upd, nthn; try rewrite ES; cbn -[INR]; try reflexivity; rewrite Rminus_0_r; unfold Rdiv; ring.
Qed.
